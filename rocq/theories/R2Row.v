(** * The one-dimensional rdft2 solvers (proof library) *)
From Coq Require Import Reals ZArith List Lia Lra Bool Permutation FunctionalExtensionality.
From Verif Require Import NumTheory Cplx Spec SpecR2R Base TensorModel Offs TensorProofs XForm XKern XSeq CopyProofs
  Rank0Model DftModel RdftModel R2Model DftTw DftTw2 DftComp DftSplit DftPrime RSum RMath RdftX RdftLib RdftLoop RdftCanon IForm R2X R2Lib.
Import ListNotations.
Open Scope Z_scope.

Lemma sw_sw z : swapc (swapc z) = z. Proof. now destruct z. Qed.
Lemma rval_nil n dc cs x j : rval [] n dc cs x [] j = hval n (fun k => cview dc x (k * cs)) j.
Proof. reflexivity. Qed.
Lemma cval_nil n dr rs x k : cval [] n dr rs x [] k = dft n (fun j => RtoC (x (rpos dr rs j))) k.
Proof. unfold cval. cbn [mdft]. reflexivity. Qed.
Lemma in_box_nil ks : in_box [] ks -> ks = []. Proof. destruct ks; cbn; tauto. Qed.

Lemma vals_row_c dr dc n rs cs vec I O m m' : vals (x2c dr dc [] n rs cs) vec I O m m' <->
  (forall a b, In (a, b) (offs vec) -> forall k, 0 <= k < nc n ->
    rdc m' (O, sh O dc) (b + k * cs) = dft n (fun j => RtoC (m (sh I (a + rpos dr rs j)))) k).
Proof.
  rewrite vals_x2c. split.
  - intros H a b Hab k Hk. specialize (H a b Hab k [] Hk Logic.I). cbn [ooff] in H. rewrite Z.add_0_r in H. rewrite H. apply cval_nil.
  - intros H a b Hab k ks Hk Hks. apply in_box_nil in Hks. subst. cbn [ooff]. rewrite Z.add_0_r, cval_nil. now apply H.
Qed.
Lemma vals_row_r dr dc n rs cs vec I O m m' : vals (x2r dr dc [] n rs cs) vec I O m m' <->
  (forall a b, In (a, b) (offs vec) -> forall j, 0 <= j < n ->
    m' (sh O (b + rpos dr rs j)) = hval n (fun k => rdc m (I, sh I dc) (a + k * cs)) j).
Proof.
  assert (E : forall a j, rval [] n dc cs (fun z => m (sh I (a + z))) [] j = hval n (fun k => rdc m (I, sh I dc) (a + k * cs)) j).
  { intros a j. rewrite rval_nil. unfold hval. apply Rsum_ext. intros i _. unfold cview, rdc. cbn [fst snd]. rewrite !sh_sh.
    f_equal. destruct (2 * i <=? n); [reflexivity|]. do 2 f_equal. ring. }
  rewrite vals_x2r. split.
  - intros H a b Hab j Hj. specialize (H a b Hab j [] Hj Logic.I). cbn [ooff] in H. rewrite Z.add_0_r in H. rewrite H. apply E.
  - intros H a b Hab j js Hj Hjs. apply in_box_nil in Hjs. subst. cbn [ooff]. rewrite Z.add_0_r, E. now apply H.
Qed.

(** ** Cells of a half-spectrum *)
Definition hcell (dc cs : Z) (p : Z * Z) : Z := fst p * dc + snd p * cs.
Definition hidx (n : Z) : list (Z * Z) := flat_map (fun c => map (pair c) (zr (nc n))) [0; 1].
(** cell of element i of a halfcomplex array *)
Definition hpack (n i : Z) : Z * Z := if 2 * i <=? n then (0, i) else (1, n - i).
Definition hzero (n : Z) : list (Z * Z) := if n mod 2 =? 0 then [(1, n / 2); (1, 0)] else [(1, 0)].
Lemma hcells_locs n dc cs : locs [(2, dc); (nc n, cs)] = map (hcell dc cs) (hidx n).
Proof.
  cbn [locs]. rewrite lplus_0_r. unfold lplus, dimlocs, hidx. cbn [fst snd]. change (zr 2) with [0; 1]. cbn [map flat_map].
  rewrite !app_nil_r, map_app, !map_map. reflexivity.
Qed.
Lemma in_hidx n p : In p (hidx n) <-> (fst p = 0 \/ fst p = 1) /\ 0 <= snd p < nc n.
Proof.
  unfold hidx. cbn [flat_map]. rewrite app_nil_r, in_app_iff, !in_map_iff. destruct p as [c k]. cbn [fst snd]. split.
  - intros [(x & E & H)|(x & E & H)]; injection E as <- <-; apply in_zr in H; lia.
  - intros [[-> | ->] H]; [left|right]; exists k; (split; [reflexivity|now apply in_zr]).
Qed.
Lemma NoDup_map_fin {A B} (f : A -> B) l : (forall x y, In x l -> In y l -> f x = f y -> x = y) -> NoDup l -> NoDup (map f l).
Proof.
  intros H N. induction N as [|a l Ha N IH]; [constructor|]. cbn. constructor.
  - intros C. apply in_map_iff in C as (y & E & Hy). apply H in E; [|now right|now left]. subst. contradiction.
  - apply IH. intros x y Hx Hy. apply H; now right.
Qed.
Lemma NoDup_hidx n : NoDup (hidx n).
Proof.
  unfold hidx. cbn [flat_map]. rewrite app_nil_r. apply NoDup_app_intro.
  - apply NoDup_map_fin; [|apply NoDup_zr]. intros x y _ _ E. now injection E.
  - apply NoDup_map_fin; [|apply NoDup_zr]. intros x y _ _ E. now injection E.
  - intros p H1 H2. apply in_map_iff in H1 as (x & <- & _), H2 as (y & E & _). discriminate.
Qed.
Lemma nc_half n : 0 < n -> nc n = n / 2 + 1 /\ (n mod 2 = 0 /\ n = 2 * (n / 2) \/ n mod 2 = 1 /\ n = 2 * (n / 2) + 1).
Proof. intros. unfold nc. pose proof (Z.div_mod n 2 ltac:(lia)). pose proof (Z.mod_pos_bound n 2 ltac:(lia)). lia. Qed.
Lemma in_hzero n p : 0 < n -> In p (hzero n) <-> fst p = 1 /\ (snd p = 0 \/ 2 * snd p = n).
Proof.
  intros Hn. destruct (nc_half n Hn) as [_ Q]. unfold hzero. destruct p as [c k]. cbn [fst snd].
  destruct (Z.eqb_spec (n mod 2) 0) as [E|E]; cbn [In]; (split; [intros H|intros [-> H]]).
  - destruct H as [H|[H|[]]]; injection H as <- <-; lia.
  - destruct H as [-> |H]; [right; left; reflexivity|left]. f_equal. lia.
  - destruct H as [H|[]]; injection H as <- <-; lia.
  - left. f_equal. lia.
Qed.
Lemma hidx_split n : 0 < n -> Permutation (hidx n) (map (hpack n) (zr n) ++ hzero n).
Proof.
  intros Hn. destruct (nc_half n Hn) as [N Q]. apply NoDup_Permutation; [apply NoDup_hidx| |].
  - apply NoDup_app_intro.
    + apply NoDup_map_fin; [|apply NoDup_zr]. intros x y Hx Hy. apply in_zr in Hx, Hy. unfold hpack.
      destruct (Z.leb_spec (2 * x) n), (Z.leb_spec (2 * y) n); intros E; injection E; lia.
    + unfold hzero. destruct (Z.eqb_spec (n mod 2) 0); [|repeat constructor; easy].
      constructor; [|repeat constructor; easy]. intros [E|[]]. injection E. lia.
    + intros p H1 H2. apply in_hzero in H2; auto. apply in_map_iff in H1 as (x & <- & H1). apply in_zr in H1.
      unfold hpack in H2. destruct (Z.leb_spec (2 * x) n); cbn [fst snd] in H2; lia.
  - intros [c k]. rewrite in_hidx, in_app_iff, in_hzero, in_map_iff by auto. cbn [fst snd]. split.
    + intros [[-> | ->] Hk].
      * left. exists k. split; [|apply in_zr; lia]. unfold hpack. destruct (Z.leb_spec (2 * k) n); [auto|lia].
      * destruct (Z.eq_dec k 0) as [->|K0]; [right; lia|]. destruct (Z.eq_dec (2 * k) n) as [K1|K1]; [right; lia|].
        left. exists (n - k). split; [|apply in_zr; lia]. unfold hpack. destruct (Z.leb_spec (2 * (n - k)) n); [lia|f_equal; lia].
    + intros [(x & E & H)|[-> H]]; [|split; [auto|lia]]. apply in_zr in H. unfold hpack in E.
      destruct (Z.leb_spec (2 * x) n); injection E as <- <-; (split; [auto|lia]).
Qed.
Lemma cpos_hpack kd n dc cs k : kd = R2HC \/ kd = HC2R -> cpos kd n dc cs cs k = hcell dc cs (hpack n k).
Proof. intros [-> | ->]; unfold cpos, hpack, hcell; destruct (2 * k <=? n); cbn [fst snd]; ring. Qed.
Lemma cells_inj n dc cs : NoDup (locs [(2, dc); (nc n, cs)]) -> forall p q, In p (hidx n) -> In q (hidx n) -> hcell dc cs p = hcell dc cs q -> p = q.
Proof.
  rewrite hcells_locs. intros H p q Hp Hq E. revert H Hp Hq E. generalize (hidx n). intros l. induction l as [|a l IH]; [easy|].
  cbn [map]. intros N Hp Hq E. inversion N; subst. destruct Hp as [->|Hp], Hq as [->|Hq]; auto.
  - exfalso. apply H1. rewrite E. now apply in_map.
  - exfalso. apply H1. rewrite <- E. now apply in_map.
Qed.

(** the value of cell p of the half-spectrum of real data with halfcomplex coefficients h *)
Definition hunpack (n : Z) (h : Z -> R) (p : Z * Z) : R :=
  if fst p =? 0 then h (snd p) else if (snd p =? 0) || (2 * snd p =? n) then 0%R else h (n - snd p)%Z.
Lemma dft_hunpack n x k c : 0 < n -> 0 <= k < nc n -> c = 0 \/ c = 1 ->
  part c (dft n (fun j => RtoC (x j)) k) = hunpack n (fun i => Rsum n (fun j => x j * rk R2HC n j i)%R) (c, k).
Proof.
  intros Hn Hk Hc. destruct (nc_inv n k Hn Hk) as [K1 K2]. rewrite dft_real by auto. unfold hunpack.
  destruct Hc as [-> | ->]; reflexivity.
Qed.
Lemma in_x2c_nil dr dc n rs cs o F : In (o, F) (xo (x2c dr dc [] n rs cs)) ->
  exists p, In p (hidx n) /\ o = hcell dc cs p /\ F = (fun x => part (fst p) (dft n (fun j => RtoC (x (rpos dr rs j))) (snd p))).
Proof.
  intros H. apply in_x2c in H as (c & k & ks & Hc & Hk & Hks & -> & ->). apply in_box_nil in Hks. subst.
  exists (c, k). split; [apply in_hidx; auto|]. split; [unfold hcell; cbn; ring|]. apply functional_extensionality. intros x. now rewrite cval_nil.
Qed.
Lemma hcells_x2c dr dc n rs cs : map fst (xo (x2c dr dc [] n rs cs)) = map (hcell dc cs) (hidx n).
Proof. rewrite fst_x2c. apply hcells_locs. Qed.
Lemma hcells_x2r dr dc n rs cs : xi (x2r dr dc [] n rs cs) = map (hcell dc cs) (hidx n).
Proof. cbn [xi x2r ti map]. apply hcells_locs. Qed.
Lemma rcells_x2c dr dc n rs cs : xi (x2c dr dc [] n rs cs) = rcells n dr rs.
Proof. cbn [xi x2c ti map locs]. apply lplus_0_r. Qed.

Lemma hunpack_hpack n h i : 0 <= i < n -> hunpack n h (hpack n i) = h i.
Proof.
  intros Hi. unfold hunpack, hpack. destruct (Z.leb_spec (2 * i) n); cbn [fst snd Z.eqb]; auto.
  replace (n - i =? 0) with false by lia. replace (2 * (n - i) =? n) with false by lia. cbn [orb]. f_equal. lia.
Qed.
Lemma hunpack_hzero n h p : 0 < n -> In p (hzero n) -> hunpack n h p = 0%R.
Proof.
  intros Hn H. apply in_hzero in H as [E H]; auto. unfold hunpack. rewrite E. cbn [Z.eqb].
  destruct H as [-> | H]; [reflexivity|]. replace (2 * snd p =? n) with true by lia. now rewrite orb_true_r.
Qed.

(** ** rdft/direct2.c *)
Definition xzero (n dc cs : Z) : xform := mkX [] (map (fun p => (hcell dc cs p, fun _ => 0%R)) (hzero n)).
Lemma xzero_wf n dc cs : xwf (xzero n dc cs).
Proof. intros o F H x y _. apply in_map_iff in H as (p & E & _). injection E as <- <-. reflexivity. Qed.
Lemma upd_upd m l v : upd (upd m l v) l v = upd m l v.
Proof. apply functional_extensionality. intros x. unfold upd. now destruct (loc_eqb l x). Qed.
Definition zbody (n dc cs : Z) : rapply := fun nx I O m =>
  let ilast := if Z.rem n 2 =? 0 then Z.quot n 2 * cs else 0 in upd (upd m (sh (sh O dc) ilast) 0%R) (sh O dc) 0%R.
Lemma zbody_kern n dc cs nx I O m : 0 < n -> zbody n dc cs nx I O m = kern (xzero n dc cs) nx I O m.
Proof.
  intros Hn. unfold zbody, kern, xzero, hzero. cbn zeta. rewrite Z.rem_mod_nonneg, Z.quot_div_nonneg by lia.
  destruct (n mod 2 =? 0); cbn [map xo stores fst snd]; unfold hcell; cbn [fst snd]; rewrite ?sh_sh, ?sh_0.
  - replace (1 * dc + 0 * cs) with dc by ring. replace (1 * dc + n / 2 * cs) with (dc + n / 2 * cs) by ring. reflexivity.
  - replace (1 * dc + 0 * cs) with dc by ring. replace (dc + 0) with dc by ring. apply upd_upd.
Qed.
Lemma xr2c_wf kd n rs0 rs ioff a b : xwf (xr2c kd n rs0 rs ioff a b).
Proof.
  intros o F H x y E. unfold xr2c in *. destruct (R2HC_KINDP kd); cbn [xo xi] in *;
  apply in_map_iff in H as (k & EE & Hk); injection EE as <- <-; apply Rsum_ext; intros j Hj; f_equal; apply E; apply in_map; now apply in_zr.
Qed.
Lemma direct2_correct ip nd c2r dr dc row vl ivs ovs fp : 0 < dn row ->
  CG ip nd (xr2 c2r dr dc [] row) fp [mkdim vl ivs ovs] (direct2_apply c2r dr dc row vl ivs ovs).
Proof.
  intros Hn. unfold direct2_apply, xr2. cbn zeta. destruct c2r; cbn [rstr cstr].
  - set (n := dn row) in *. set (rs := dos row). set (cs := dis row).
    eapply CG_ext; [|apply (CG_two ip nd (x2r dr dc [] n rs cs) (xr2c HC2R n dr rs dc cs cs) (mkX [] []) fp
      [mkdim vl ivs ovs] (vloop vl ivs ovs (kern (xr2c HC2R n dr rs dc cs cs))) (fun _ _ _ m => m))].
    + intros. reflexivity.
    + rewrite fst_x2r. cbn [ti to_ map locs xo]. rewrite lplus_0_r, app_nil_r. unfold xr2c. cbn [R2HC_KINDP xo]. rewrite map_map. reflexivity.
    + intros o F H. apply in_x2r in H as (j & js & Hj & Hjs & -> & ->). apply in_box_nil in Hjs. subst.
      exists (fun x => Rsum n (fun i => x (cpos HC2R n dc cs cs i) * rk HC2R n i j)%R). split.
      * left. unfold xr2c. cbn [R2HC_KINDP xo]. apply in_map_iff. exists j. split; [|now apply in_zr]. cbn [ooff]. now rewrite Z.add_0_r.
      * intros x. rewrite rval_nil. unfold hval. apply Rsum_ext. intros i _. f_equal. unfold cpos, cview. destruct (2 * i <=? n); reflexivity.
    + reflexivity.
    + intros o F [].
    + rewrite hcells_x2r. unfold xr2c. cbn [R2HC_KINDP xi]. intros o Ho. apply in_map_iff in Ho as (k & <- & Hk).
      rewrite cpos_hpack by auto. apply in_map. eapply Permutation_in; [symmetry; apply hidx_split; auto|]. apply in_app_iff. left. now apply in_map.
    + rewrite hcells_x2r. intros H. apply (Permutation_NoDup (Permutation_map _ (hidx_split n Hn))) in H.
      rewrite map_app, map_map in H. apply NoDup_app_inv in H as (H & _ & _). unfold xr2c. cbn [R2HC_KINDP xi].
      erewrite map_ext; [exact H|]. intros k. apply cpos_hpack. auto.
    + apply CG_loop; [apply xr2c_wf|]. apply CG_U, kern_U.
    + apply CG_U. intros nx I O m _ _ _ _ _. split; [intros a b _ o F []|intros l _ _ _; reflexivity].
  - set (n := dn row) in *. set (rs := dis row). set (cs := dos row).
    eapply CG_ext; [|apply (CG_two ip nd (x2c dr dc [] n rs cs) (xr2c R2HC n dr rs dc cs cs) (xzero n dc cs) fp
      [mkdim vl ivs ovs] (vloop vl ivs ovs (kern (xr2c R2HC n dr rs dc cs cs))) (vloop vl ivs ovs (zbody n dc cs)))].
    + intros nx I O m. cbn beta. unfold kr2c. generalize (vloop vl ivs ovs (kern (xr2c R2HC n dr rs dc cs cs)) nx I O m). intros m1.
      unfold vloop. apply zfor_ext. intros i m2 _. unfold zbody. cbn zeta. rewrite !sh_sh, !Z.add_assoc, (Z.add_comm dc (i * ovs)). reflexivity.
    + rewrite hcells_x2c. rewrite (Permutation_map _ (hidx_split n Hn)), map_app, map_map. unfold xr2c, xzero. cbn [R2HC_KINDP xo].
      rewrite !map_map. cbn [fst]. erewrite (map_ext (cpos _ _ _ _ _)); [reflexivity|]. intros k. cbn beta. symmetry. rewrite cpos_hpack; auto.
    + intros o F H. apply in_x2c_nil in H as (p & Hp & -> & ->).
      assert (Hp' := Hp). apply in_hidx in Hp' as [P1 P2].
      assert (EF : forall x, part (fst p) (dft n (fun j => RtoC (x (rpos dr rs j))) (snd p)) = hunpack n (fun i => Rsum n (fun j => x (rpos dr rs j) * rk R2HC n j i)%R) p).
      { intros x. rewrite (dft_hunpack n (fun j => x (rpos dr rs j)) (snd p) (fst p)) by auto. now destruct p. }
      apply (Permutation_in _ (hidx_split n Hn)) in Hp. apply in_app_iff in Hp as [Hp|Hp].
      * apply in_map_iff in Hp as (i & <- & Hi). exists (fun x => Rsum n (fun j => x (rpos dr rs j) * rk R2HC n j i)%R). split.
        -- left. unfold xr2c. cbn [R2HC_KINDP xo]. apply in_map_iff. exists i. split; auto. now rewrite cpos_hpack by auto.
        -- intros x. rewrite EF. apply in_zr in Hi. now rewrite hunpack_hpack.
      * exists (fun _ => 0%R). split; [right; apply in_map_iff; exists p; auto|]. intros x. rewrite EF. now apply hunpack_hzero.
    + reflexivity.
    + apply xzero_wf.
    + rewrite rcells_x2c. apply incl_refl.
    + rewrite rcells_x2c. auto.
    + apply CG_loop; [apply xr2c_wf|]. apply CG_U, kern_U.
    + apply CG_loop; [apply xzero_wf|]. eapply CG_ext; [|apply CG_U, kern_U]. intros. symmetry. now apply zbody_kern.
Qed.

(** ** rdft/rdft2-rdft.c *)
Definition xh2c (n dc cs : Z) : xform := mkX (locs [(n, 1)]) (map (fun p => (hcell dc cs p, fun x => hunpack n x p)) (hidx n)).
Definition xc2h (n dc cs : Z) : xform :=
  mkX (locs [(2, dc); (nc n, cs)]) (map (fun i => (i * 1, fun x => x (hcell dc cs (hpack n i)))) (zr n)).
Lemma in_locs1 n o : In o (locs [(n, 1)]) <-> 0 <= o < n.
Proof.
  cbn [locs]. rewrite lplus_0_r, in_dimlocs. split.
  - intros (j & Hj & ->). lia.
  - intros H. exists o. split; [auto|lia].
Qed.
Lemma hunpack_ext n h h' p : In p (hidx n) -> 0 < n -> (forall i, 0 <= i < n -> h i = h' i) -> hunpack n h p = hunpack n h' p.
Proof.
  intros Hp Hn H. apply in_hidx in Hp as [P1 P2]. destruct (nc_inv n _ Hn P2) as [K1 K2]. unfold hunpack.
  destruct (Z.eqb_spec (fst p) 0); [apply H; destruct (nc_half n Hn) as [N Q]; lia|].
  destruct (Z.eqb_spec (snd p) 0); [reflexivity|]. destruct (Z.eqb_spec (2 * snd p) n); [reflexivity|]. cbn [orb]. apply H. lia.
Qed.
Lemma xh2c_wf n dc cs : 0 < n -> xwf (xh2c n dc cs).
Proof.
  intros Hn o F H x y E. apply in_map_iff in H as (p & EE & Hp). injection EE as <- <-. apply hunpack_ext; auto.
  intros i Hi. apply E. now apply in_locs1.
Qed.
Lemma hpack_in n i : 0 <= i < n -> In (hpack n i) (hidx n).
Proof.
  intros Hi. eapply Permutation_in; [symmetry; apply hidx_split; lia|]. apply in_app_iff. left. apply in_map. now apply in_zr.
Qed.
Lemma xc2h_wf n dc cs : xwf (xc2h n dc cs).
Proof.
  intros o F H x y E. apply in_map_iff in H as (p & EE & Hp). injection EE as <- <-. apply in_zr in Hp.
  apply E. cbn [xi xc2h]. rewrite hcells_locs. apply in_map. now apply hpack_in.
Qed.
Lemma NoDup_cells nx I O X n dc cs : map fst (xo X) = map (hcell dc cs) (hidx n) -> Wf nx false I O X [] ->
  forall p q, In p (hidx n) -> In q (hidx n) -> sh O (hcell dc cs p) = sh O (hcell dc cs q) -> p = q.
Proof.
  intros E HW p q Hp Hq H. apply sh_inj in H. assert (N := wf_o _ _ _ _ _ _ HW). rewrite ol_nil, E, <- hcells_locs in N. eapply cells_inj; eauto.
Qed.
Lemma hc2c_correct nd n dc cs : 0 < n -> Correct nd false (xh2c n dc cs) [] (hc2c n dc cs).
Proof.
  intros Hn nx I O m HW. destruct (nc_half n Hn) as [EN Q]. destruct (hcnt_spec n Hn) as [H0 H1].
  set (v := fun i c => hunpack n (fun z => m (sh I z)) (c, i)). set (A := fun i c => sh O (hcell dc cs (c, i))).
  assert (Dis : forall z i c, 0 <= z < n -> 0 <= i < nc n -> 0 <= c < 2 -> sh I z <> A i c).
  { intros z i c Hz Hi Hc E. apply (wf_x _ _ _ _ _ _ HW (sh I z)).
    - apply InP_intro. rewrite il_nil. cbn [xi xh2c]. now apply in_locs1.
    - rewrite E. apply InP_intro. rewrite ol_nil. cbn [xo xh2c]. rewrite map_map. cbn [fst]. apply in_map. apply in_hidx. cbn. lia. }
  set (body := fun k m => upd (upd m (A k 0) (m (sh I k))) (A k 1)
     (if (k =? 0) || (2 * k =? n) then 0%R else upd m (A k 0) (m (sh I k)) (sh I (n - k)))).
  assert (EB : hc2c n dc cs nx I O m = zfor (nc n) body m).
  { assert (S0 : forall m, upd (upd m O (m I)) (sh O dc) 0%R = body 0 m).
    { intros m1. unfold body, A, hcell. cbn [fst snd Z.eqb orb]. replace (0 * dc + 0 * cs) with 0 by ring. replace (1 * dc + 0 * cs) with dc by ring. now rewrite !sh_0. }
    assert (Re : forall k, A k 0 = sh O (k * cs)) by (intros; unfold A, hcell; f_equal; cbn [fst snd]; ring).
    assert (Im : forall k, A k 1 = sh (sh O dc) (k * cs)) by (intros; unfold A, hcell; rewrite sh_sh; f_equal; cbn [fst snd]; ring).
    unfold hc2c. cbn zeta. rewrite S0. unfold pairs.
    assert (SP : zfor (hcnt n) (fun i' m0 => upd (upd m0 (sh O ((i' + 1) * cs)) (m0 (sh I (i' + 1)))) (sh (sh O dc) ((i' + 1) * cs))
        (upd m0 (sh O ((i' + 1) * cs)) (m0 (sh I (i' + 1))) (sh I (n - (i' + 1))))) (body 0 m) = zfor (hcnt n + 1) body m).
    { rewrite (zfor_first (hcnt n + 1)) by lia. replace (hcnt n + 1 - 1) with (hcnt n) by ring. apply zfor_ext. intros i m1 Hi.
      unfold body. replace (i + 1 =? 0) with false by lia. replace (2 * (i + 1) =? n) with false by lia. cbn [orb]. now rewrite Re, Im. }
    rewrite SP. unfold middle. cbn zeta. destruct (Z.eqb_spec (hcnt n + 1) (n - (hcnt n + 1))) as [E|E].
    - replace (nc n) with (hcnt n + 1 + 1) by lia. rewrite (zfor_succ (hcnt n + 1)) by lia. set (m2 := zfor (hcnt n + 1) body m). clearbody m2. unfold body.
      replace (2 * (hcnt n + 1) =? n) with true by lia. rewrite orb_true_r. now rewrite Re, Im.
    - replace (nc n) with (hcnt n + 1) by lia. reflexivity. }
  destruct (zfor_writes (nc n) 2 body A v m) as [L1 L2].
  - intros i m1 Hi Hm. rewrite zfor_2. unfold body.
    assert (Hr : forall z, 0 <= z < n -> m1 (sh I z) = m (sh I z)).
    { intros z Hz. apply Hm. intros j c Hj Hc. apply Dis; auto; lia. }
    f_equal; [f_equal|].
    + unfold v, hunpack. cbn [fst snd Z.eqb]. apply Hr. lia.
    + unfold v, hunpack. cbn [fst snd Z.eqb]. destruct (Z.eqb_spec i 0); [reflexivity|]. destruct (Z.eqb_spec (2 * i) n); [reflexivity|]. cbn [orb].
      rewrite upd_other; [apply Hr; lia|]. intros E. symmetry in E. revert E. apply Dis; lia.
  - intros i c j d Hi Hc Hj Hd E. eapply (NoDup_cells nx I O (xh2c n dc cs) n dc cs) in E; [|cbn [xo xh2c]; now rewrite map_map|exact HW|..].
    + injection E; auto.
    + apply in_hidx. cbn. lia.
    + apply in_hidx. cbn. lia.
  - rewrite EB. split.
    + intros a b Hab o F HF. cbn in Hab. destruct Hab as [E|[]]. injection E as <- <-. apply in_map_iff in HF as ([c i] & E & Hp). injection E as <- <-.
      apply in_hidx in Hp as [P1 P2]. cbn [fst snd] in *. rewrite Z.add_0_l. etransitivity; [exact (L1 i c P2 ltac:(lia))|]. reflexivity.
    + intros l Hl Ho _. apply L2. intros j c Hj Hc E. apply Ho. rewrite E. apply InP_intro. rewrite ol_nil. cbn [xo xh2c]. rewrite map_map. cbn [fst].
      apply in_map. apply in_hidx. cbn. lia.
Qed.
Lemma c2hc_correct nd n dc cs : 0 < n -> Correct nd false (xc2h n dc cs) [] (c2hc n dc cs).
Proof.
  intros Hn nx I O m HW.
  set (v := fun i => m (sh I (hcell dc cs (hpack n i)))). set (A := fun i => sh O i).
  assert (Dis : forall z p, 0 <= z < n -> In p (hidx n) -> A z <> sh I (hcell dc cs p)).
  { intros z p Hz Hp E. apply (wf_x _ _ _ _ _ _ HW (A z)).
    - rewrite E. apply InP_intro. rewrite il_nil. cbn [xi xc2h]. rewrite hcells_locs. now apply in_map.
    - apply InP_intro. rewrite ol_nil. cbn [xo xc2h]. rewrite map_map. cbn [fst]. apply in_map_iff. exists z. split; [ring|now apply in_zr]. }
  assert (Re : forall k, sh I (hcell dc cs (0, k)) = sh I (k * cs)) by (intros; unfold hcell; f_equal; cbn [fst snd]; ring).
  assert (Im : forall k, sh I (hcell dc cs (1, k)) = sh (sh I dc) (k * cs)) by (intros; unfold hcell; rewrite sh_sh; f_equal; cbn [fst snd]; ring).
  unfold c2hc. cbn zeta.
  destruct (fill_cells n (fun m => upd m O (m I))
     (fun i m => upd (upd m (sh O i) (m (sh I (i * cs)))) (sh O (n - i)) (upd m (sh O i) (m (sh I (i * cs))) (sh (sh I dc) (i * cs))))
     (fun i m => upd m (sh O i) (m (sh I (i * cs)))) m A v Hn) as [L1 L2].
  - unfold A, v, hpack. rewrite sh_0. replace (2 * 0 <=? n) with true by lia. rewrite Re, Z.mul_0_l, sh_0. apply upd_same.
  - intros l Hl. unfold A in Hl. rewrite sh_0 in Hl. apply upd_other. congruence.
  - intros i m1 I1 I2 Hm.
    assert (Hr : forall p, In p (hidx n) -> m1 (sh I (hcell dc cs p)) = m (sh I (hcell dc cs p))).
    { intros p Hp. apply Hm. intros k Hk E. symmetry in E. revert E. apply Dis; auto. lia. }
    assert (P0 : In (0, i) (hidx n)) by (apply in_hidx; cbn [fst snd]; split; auto; apply nc_in; lia).
    assert (P1 : In (1, i) (hidx n)) by (apply in_hidx; cbn [fst snd]; split; auto; apply nc_in; lia).
    rewrite <- Re, <- Im. fold (A i) (A (n - i)).
    destruct (upd2 m1 (A i) (A (n - i)) (m1 (sh I (hcell dc cs (0, i)))) (upd m1 (A i) (m1 (sh I (hcell dc cs (0, i)))) (sh I (hcell dc cs (1, i))))) as (U1 & U2 & U3).
    { unfold A. intros E. apply sh_inj in E. lia. }
    split; [|split].
    + rewrite U1. unfold v, hpack. replace (2 * i <=? n) with true by lia. now apply Hr.
    + rewrite U2. rewrite upd_other by (apply Dis; auto; lia). unfold v, hpack. replace (2 * (n - i) <=? n) with false by lia.
      replace (n - (n - i)) with i by ring. now apply Hr.
    + exact U3.
  - intros i m1 I1 I2 Hm.
    assert (Hr : forall p, In p (hidx n) -> p <> (0, i) -> True) by auto. clear Hr.
    assert (P0 : In (0, i) (hidx n)) by (apply in_hidx; cbn [fst snd]; split; auto; apply nc_in; lia).
    fold (A i). destruct (upd1 m1 (A i) (m1 (sh I (i * cs)))) as [U1 U2]. split; [|exact U2]. rewrite U1.
    unfold v, hpack. replace (2 * i <=? n) with true by lia. rewrite Re. apply Hm. intros k Hk Ne E. rewrite <- Re in E. symmetry in E. revert E. apply Dis; auto.
  - intros j k _ _ E. now apply sh_inj in E.
  - split.
    + intros a b Hab o F HF. cbn in Hab. destruct Hab as [E|[]]. injection E as <- <-. apply in_map_iff in HF as (i & E & Hp). injection E as <- <-.
      apply in_zr in Hp. rewrite Z.add_0_l, Z.mul_1_r. specialize (L1 i Hp). unfold A in L1. etransitivity; [exact L1|]. reflexivity.
    + intros l Hl Ho _. apply L2. intros k Hk E. apply Ho. rewrite E. apply InP_intro. rewrite ol_nil. cbn [xo xc2h]. rewrite map_map. cbn [fst].
      apply in_map_iff. exists k. split; [ring|now apply in_zr].
Qed.

Lemma rpos_lin dr rs j : rs = 2 * dr -> rpos dr rs j = j * dr.
Proof. intros ->. unfold rpos. rewrite (Z.div_mod j 2) at 3 by lia. ring. Qed.
Lemma rcells_lin n dr rs : rs = 2 * dr -> rcells n dr rs = locs [(n, dr)].
Proof.
  intros E. cbn [locs]. rewrite lplus_0_r. unfold rcells, dimlocs. cbn [fst snd]. apply map_ext. intros j. now apply rpos_lin.
Qed.
Lemma ol_xh2c n dc cs vec : ol (xh2c n dc cs) vec = locs ((2, dc) :: (nc n, cs) :: to_ vec).
Proof.
  change ((2, dc) :: (nc n, cs) :: to_ vec) with ([(2, dc); (nc n, cs)] ++ to_ vec). rewrite locs_app, hcells_locs. unfold ol, xh2c. cbn [xo].
  rewrite map_map. reflexivity.
Qed.
Lemma il_xh2c n dc cs vec : il (xh2c n dc cs) vec = locs ((n, 1) :: ti vec).
Proof. change ((n, 1) :: ti vec) with ([(n, 1)] ++ ti vec). now rewrite locs_app. Qed.
Lemma il_xc2h n dc cs vec : il (xc2h n dc cs) vec = locs ((2, dc) :: (nc n, cs) :: ti vec).
Proof. change ((2, dc) :: (nc n, cs) :: ti vec) with ([(2, dc); (nc n, cs)] ++ ti vec). now rewrite locs_app. Qed.
Lemma ol_xc2h n dc cs vec : ol (xc2h n dc cs) vec = locs ((n, 1) :: to_ vec).
Proof.
  change ((n, 1) :: to_ vec) with ([(n, 1)] ++ to_ vec). rewrite locs_app. unfold ol, xc2h. cbn [xo locs]. rewrite map_map, lplus_0_r. reflexivity.
Qed.

Lemma r2r_r2hc_batch nd dr dc n rs cs ivs ovs nb bd f :
  0 < n -> 0 < nb -> n <= bd -> rs = 2 * dr ->
  Correct nd false (rx (x1 R2HC n dr 1)) [mkdim nb ivs bd] f ->
  CorrectU nd (x2c dr dc [] n rs cs) [mkdim nb ivs ovs] (fun nx I O m => vloop nb bd ovs (hc2c n dc cs) (S nx) (nx, 0) O (f (S nx) I (nx, 0) m)).
Proof.
  intros Hn Hnb Hbd Ers Cf.
  refine (CorrectU_buf2 _ _ _ (rx (x1 R2HC n dr 1)) [mkdim nb ivs bd] (xh2c n dc cs) [mkdim nb bd ovs] f _ (fun nx => (nx, 0)) _ _ _ _ _ _ _ _ Cf _).
  - reflexivity.
  - repeat constructor; cbn; lia.
  - repeat constructor; cbn; lia.
  - rewrite il_x2c, il_rx, rcells_lin by auto. cbn [ds x1 map snd app]. change (ti [mkdim n dr 1; mkdim nb ivs bd]) with ([(n, dr)] ++ [(nb, ivs)]). now rewrite locs_app.
  - rewrite ol_x2c, ol_xh2c. reflexivity.
  - rewrite ol_rx. cbn [ds x1 map snd app to_ dn dos]. apply NoDup_rbuf; lia.
  - rewrite ol_rx, il_xh2c. reflexivity.
  - intros nx I O m m1 m2 V1 V2. rewrite vals_rx1 in V1. intros a b Hab o F HF.
    apply in_x2c_nil in HF as (p & Hp & -> & ->). apply offs1_inv in Hab as (i & Hi & -> & ->).
    rewrite (V2 _ _ (offs1_in nb bd ovs i Hi) (hcell dc cs p) (fun x => hunpack n x p)) by (apply in_map_iff; eauto).
    assert (Hp' := Hp). apply in_hidx in Hp' as [P1 P2].
    rewrite (dft_hunpack n (fun j => m (sh I (i * ivs + rpos dr rs j))) (snd p) (fst p)) by auto. rewrite <- surjective_pairing.
    apply hunpack_ext; auto. intros z Hz. replace (i * bd + z) with (i * bd + z * 1) by ring.
    rewrite (V1 _ _ (offs1_in nb ivs bd i Hi) z Hz). apply Rsum_ext. intros j _. now rewrite rpos_lin by auto.
  - apply Correct_loop; [now apply xh2c_wf|discriminate|now apply hc2c_correct].
Qed.
Lemma r2r_r2hc_correct ip nd dr dc n rs cs vl ivs ovs nb bd fp f fr :
  0 < n -> 0 < vl -> 0 < nb -> n <= bd -> rs = 2 * dr ->
  Correct (nd && negb ip) false (rx (x1 R2HC n dr 1)) [mkdim nb ivs bd] f ->
  CG (ip && (ivs * (nb * Z.quot vl nb) =? ovs * (nb * Z.quot vl nb))) nd (x2c dr dc [] n rs cs) fp [mkdim (Z.rem vl nb) ivs ovs] fr ->
  CG ip nd (x2c dr dc [] n rs cs) fp [mkdim vl ivs ovs] (r2r_apply_r2hc n dc cs vl nb bd ivs ovs f fr).
Proof.
  intros Hn Hv Hnb Hbd Ers Cf Cr.
  refine (CG_buffered ip nd _ fp vl ivs ovs nb (fun nx I O m => vloop nb bd ovs (hc2c n dc cs) (S nx) (nx, 0) O (f (S nx) I (nx, 0) m)) fr
    (x2c_wf _ _ _ _ _ _) Hnb Hv _ Cr).
  apply CG_U. now apply r2r_r2hc_batch.
Qed.
Lemma r2r_hc2r_correct ip nd dr dc n rs cs vl ivs ovs nb bd fp f fr :
  0 < n -> 0 < vl -> 0 < nb -> n <= bd -> rs = 2 * dr ->
  Correct false false (rx (x1 HC2R n 1 dr)) [mkdim nb bd ovs] f ->
  CG (ip && (ivs * (nb * Z.quot vl nb) =? ovs * (nb * Z.quot vl nb))) nd (x2r dr dc [] n rs cs) fp [mkdim (Z.rem vl nb) ivs ovs] fr ->
  CG ip nd (x2r dr dc [] n rs cs) fp [mkdim vl ivs ovs] (r2r_apply_hc2r n dc cs vl nb bd ivs ovs f fr).
Proof.
  intros Hn Hv Hnb Hbd Ers Cf Cr.
  refine (CG_buffered ip nd _ fp vl ivs ovs nb (fun nx I O m => f (S nx) (nx, 0) O (vloop nb ivs bd (c2hc n dc cs) (S nx) I (nx, 0) m)) fr
    (x2r_wf _ _ _ _ _ _) Hnb Hv _ Cr).
  apply CG_U. refine (CorrectU_buf2 _ _ _ (xc2h n dc cs) [mkdim nb ivs bd] (rx (x1 HC2R n 1 dr)) [mkdim nb bd ovs] _ f (fun nx => (nx, 0)) _ _ _ _ _ _ _ _ _ Cf).
  - reflexivity.
  - repeat constructor; cbn; lia.
  - repeat constructor; cbn; lia.
  - rewrite il_x2r, il_xc2h. reflexivity.
  - rewrite ol_x2r, ol_rx, rcells_lin by auto. cbn [ds x1 map snd app]. change (to_ [mkdim n 1 dr; mkdim nb bd ovs]) with ([(n, dr)] ++ [(nb, ovs)]). now rewrite locs_app.
  - rewrite ol_xc2h. apply (NoDup_rbuf n 1 nb bd); lia.
  - rewrite ol_xc2h, il_rx. reflexivity.
  - intros nx I O m m1 m2 V1 V2. rewrite vals_rx1 in V2. rewrite vals_row_r. intros a b Hab j Hj.
    apply offs1_inv in Hab as (i & Hi & -> & ->). rewrite rpos_lin by auto.
    rewrite (V2 _ _ (offs1_in nb bd ovs i Hi) j Hj). unfold hval. apply Rsum_ext. intros z Hz. f_equal.
    rewrite (V1 _ _ (offs1_in nb ivs bd i Hi) (z * 1) (fun x => x (hcell dc cs (hpack n z)))) by (apply in_map_iff; exists z; split; auto; now apply in_zr).
    unfold rdc, hpack, hcell. cbn [fst snd]. destruct (2 * z <=? n); cbn [fst snd]; rewrite ?sh_sh; do 2 f_equal; ring.
  - apply Correct_loop; [apply xc2h_wf|discriminate|now apply c2hc_correct].
Qed.

(** ** rdft/buffered2.c *)
Lemma NoDup_buf2 k nb bd e : 0 <= k -> 0 <= nb -> k * 2 <= bd -> e = 1 \/ e = -1 -> NoDup (locs [(2, e); (k, 2); (nb, bd)]).
Proof.
  assert (G : forall k nb bd, 0 <= k -> 0 <= nb -> k * 2 <= bd -> NoDup (locs [(2, 1); (k, 2); (nb, bd)])).
  { clear. intros n nb bd Hn Hnb Hbd.
    assert (A : NoDup (locs [(n, 2); (2, 1)]) /\ (forall x, In x (locs [(n, 2); (2, 1)]) -> 0 <= x < n * 2)).
    { refine (locs_nest n 2 _ (n * 2) _ _ _ _ _); try lia.
      - apply (locs_nest 2 1 [] 2); try lia; [constructor; [easy|constructor]|]. cbn. lia.
      - apply (locs_nest 2 1 [] 2); try lia; [constructor; [easy|constructor]|]. cbn. lia. }
    destruct A as [A1 A2].
    eapply Permutation_NoDup; [apply (locs_perm [(nb, bd); (n, 2); (2, 1)])|].
    - apply Permutation_sym. change [(nb, bd); (n, 2); (2, 1)] with (rev [(2, 1); (n, 2); (nb, bd)]). apply Permutation_rev.
    - refine (proj1 (locs_nest nb bd _ (nb * bd) Hnb ltac:(lia) ltac:(lia) A1 _)).
      intros x Hx. specialize (A2 x Hx). lia. }
  intros Hn Hnb Hbd [E|E]; subst e; [now apply G|].
  eapply Permutation_NoDup; [symmetry; apply locs_neg1|]. apply FinFun.Injective_map_NoDup; [intros x y; lia|]. now apply G.
Qed.
Lemma buf2_r2hc_correct ip nd nd2 dr dc e ro n rs cs vl ivs ovs nb bd fp fb fc fr :
  0 < n -> 0 < vl -> 0 < nb -> nc n * 2 <= bd -> e = 1 \/ e = -1 ->
  Correct (nd && negb ip) false (x2c dr e [] n rs 2) [mkdim nb ivs bd] fb ->
  Correct nd2 false (cx e dc []) [mkdim nb bd ovs; mkdim (nc n) 2 cs] fc ->
  CG (ip && (ivs * (nb * Z.quot vl nb) =? ovs * (nb * Z.quot vl nb))) nd (x2c dr dc [] n rs cs) fp [mkdim (Z.rem vl nb) ivs ovs] fr ->
  CG ip nd (x2c dr dc [] n rs cs) fp [mkdim vl ivs ovs] (buffered_apply vl nb ivs ovs ro fb fc fr).
Proof.
  intros Hn Hv Hnb Hbd He Cf Cc Cr. destruct (nc_half n Hn) as [N Q].
  refine (CG_buffered ip nd _ fp vl ivs ovs nb (fun nx I O m => fc (S nx) (sh (nx, 0) ro) O (fb (S nx) I (sh (nx, 0) ro) m)) fr
    (x2c_wf _ _ _ _ _ _) Hnb Hv _ Cr).
  apply CG_U. refine (CorrectU_buf2 _ _ _ (x2c dr e [] n rs 2) [mkdim nb ivs bd] (cx e dc []) [mkdim nb bd ovs; mkdim (nc n) 2 cs] fb fc (fun nx => sh (nx, 0) ro) _ _ _ _ _ _ _ _ Cf _).
  - reflexivity.
  - repeat constructor; cbn; lia.
  - repeat constructor; cbn; lia.
  - now rewrite !il_x2c.
  - rewrite ol_x2c, ol_cx. cbn [app to_ map dn dos]. apply locs_perm2, perm_swap.
  - rewrite ol_x2c. cbn [app to_ map dn dos]. apply NoDup_buf2; auto; lia.
  - rewrite ol_x2c, il_cx. cbn [app ti to_ map dn dis dos]. apply locs_perm2, perm_swap.
  - intros nx I O m m1 m2 V1 V2. rewrite vals_copy in V2. rewrite vals_row_c in *.
    intros a b Hab k Hk. apply offs1_inv in Hab as (iv & Hiv & -> & ->).
    rewrite <- (V1 _ _ (offs1_in nb ivs bd iv Hiv) k Hk).
    now rewrite (V2 _ _ (offs2_in nb bd ovs (nc n) 2 cs iv k Hiv Hk)).
  - destruct nd2; [|exact Cc]. now apply Correct_nd.
Qed.
Lemma buf2_hc2r_correct ip nd nd2 dr dc e ro n rs cs vl ivs ovs nb bd fp fb fc fr :
  0 < n -> 0 < vl -> 0 < nb -> nc n * 2 <= bd -> e = 1 \/ e = -1 -> (nd2 = false -> nd && negb ip = false) ->
  Correct false false (x2r dr e [] n rs 2) [mkdim nb bd ovs] fb ->
  Correct nd2 false (cx dc e []) [mkdim nb ivs bd; mkdim (nc n) cs 2] fc ->
  CG (ip && (ivs * (nb * Z.quot vl nb) =? ovs * (nb * Z.quot vl nb))) nd (x2r dr dc [] n rs cs) fp [mkdim (Z.rem vl nb) ivs ovs] fr ->
  CG ip nd (x2r dr dc [] n rs cs) fp [mkdim vl ivs ovs] (buffered_apply vl nb ivs ovs ro fc fb fr).
Proof.
  intros Hn Hv Hnb Hbd He Hnd Cf Cc Cr. destruct (nc_half n Hn) as [N Q].
  refine (CG_buffered ip nd _ fp vl ivs ovs nb (fun nx I O m => fb (S nx) (sh (nx, 0) ro) O (fc (S nx) I (sh (nx, 0) ro) m)) fr
    (x2r_wf _ _ _ _ _ _) Hnb Hv _ Cr).
  apply CG_U. refine (CorrectU_buf2 _ _ _ (cx dc e []) [mkdim nb ivs bd; mkdim (nc n) cs 2] (x2r dr e [] n rs 2) [mkdim nb bd ovs] fc fb (fun nx => sh (nx, 0) ro) _ _ _ _ _ _ _ _ _ Cf).
  - reflexivity.
  - repeat constructor; cbn; lia.
  - repeat constructor; cbn; lia.
  - rewrite il_x2r, il_cx. cbn [app ti to_ map dn dis dos]. apply locs_perm2, perm_swap.
  - now rewrite !ol_x2r.
  - rewrite ol_cx. cbn [app to_ map dn dos]. eapply Permutation_NoDup; [apply locs_perm2, perm_swap|]. apply NoDup_buf2; auto; lia.
  - rewrite ol_cx, il_x2r. cbn [app ti to_ map dn dis dos]. apply locs_perm2, perm_swap.
  - intros nx I O m m1 m2 V1 V2. rewrite vals_copy in V1. rewrite vals_row_r in *.
    intros a b Hab j Hj. apply offs1_inv in Hab as (iv & Hiv & -> & ->).
    rewrite (V2 _ _ (offs1_in nb bd ovs iv Hiv) j Hj). apply hval_ext. intros k Hk.
    now rewrite (V1 _ _ (offs2_in nb ivs bd (nc n) cs 2 iv k Hiv Hk)).
  - destruct nd2; [destruct (nd && negb ip); [exact Cc|now apply Correct_nd]|]. now rewrite Hnd.
Qed.

(** ** rdft/rank0-rdft2.c *)
Definition x0c (dc : Z) : xform := mkX [0] [(0, fun x => x 0); (dc, fun _ => 0%R)].
Lemma x0c_wf dc : xwf (x0c dc).
Proof. intros o F [E|[E|[]]] x y H; injection E as <- <-; [apply H; now left|reflexivity]. Qed.
Lemma dft1 x : dft 1 x 0 = x 0.
Proof. unfold dft. change (Csum 1 ?f) with (RtoC 0 + f 0)%C. cbn beta. replace (0 * 0) with 0 by ring. rewrite W_0. apply C_eq; cbn; ring. Qed.
Lemma lplus_0_l a : lplus [0] a = a.
Proof. unfold lplus. cbn [flat_map]. rewrite app_nil_r. erewrite map_ext; [apply map_id|]. intros. reflexivity. Qed.
Lemma xsim_x0c dr dc rs cs : xsim (x2c dr dc [] 1 rs cs) (x0c dc).
Proof.
  split; [|split].
  - rewrite rcells_x2c. reflexivity.
  - rewrite hcells_x2c. change (map (hcell dc cs) (hidx 1)) with [0 * dc + 0 * cs; 1 * dc + 0 * cs].
    replace (0 * dc + 0 * cs) with 0 by ring. replace (1 * dc + 0 * cs) with dc by ring. reflexivity.
  - intros o F HF. apply in_x2c_nil in HF as ([c k] & Hp & -> & ->). apply in_hidx in Hp as [P1 P2]. cbn [fst snd] in *.
    assert (k = 0) by (change (nc 1) with 1 in P2; lia). subst k.
    assert (E : forall x, dft 1 (fun j => RtoC (x (rpos dr rs j))) 0 = RtoC (x 0)) by (intros; now rewrite dft1).
    destruct P1 as [-> | ->].
    + exists (fun x => x 0). split; [left; f_equal; unfold hcell; cbn [fst snd]; ring|]. intros x. now rewrite E.
    + exists (fun _ => 0%R). split; [right; left; f_equal; unfold hcell; cbn [fst snd]; ring|]. intros x. now rewrite E.
Qed.
Lemma rank0_kern4 dc ivs ovs nx I O m :
  upd (upd (upd (upd (upd (upd (upd (upd m O (m I)) (sh O dc) 0) (sh O ovs) (m (sh I ivs))) (sh (sh O dc) ovs) 0)
     (sh O (2 * ovs)) (m (sh I (2 * ivs)))) (sh (sh O dc) (2 * ovs)) 0) (sh O (3 * ovs)) (m (sh I (3 * ivs)))) (sh (sh O dc) (3 * ovs)) 0%R
  = kern (xvec (x0c dc) [mkdim 4 ivs ovs]) nx I O m.
Proof.
  unfold kern.
  assert (E : offs [mkdim 4 ivs ovs] = [(0, 0); (ivs, ovs); (2 * ivs, 2 * ovs); (3 * ivs, 3 * ovs)]).
  { cbn [offs]. unfold oplus. change (zr 4) with [0; 1; 2; 3]. cbn [dn dis dos fst snd map flat_map app].
    unfold padd, dimoffs; cbn [fst snd dn dis dos]. change (zr 4) with [0; 1; 2; 3]. cbn [map flat_map app fst snd]. rewrite !Z.add_0_r, !Z.mul_0_l, !Z.mul_1_l. reflexivity. }
  unfold xvec, x0c. cbn [xo]. rewrite E. cbn [flat_map map app fst snd stores]. rewrite !sh_sh, !Z.add_0_r, !sh_0.
  rewrite (Z.add_comm dc ovs), (Z.add_comm dc (2 * ovs)), (Z.add_comm dc (3 * ovs)). reflexivity.
Qed.
Lemma rank0_r2hc_correct nd dr dc rs cs vl ivs ovs : 0 < vl -> Correct nd false (x2c dr dc [] 1 rs cs) [mkdim vl ivs ovs] (rank0_r2hc dc vl ivs ovs).
Proof.
  intros Hv. eapply Correct_sim; [apply xsim_x0c|reflexivity|auto|].
  pose proof (nsteps_spec 4 (vl + 1) 4 ltac:(lia)) as (A1 & A2 & A3).
  unfold rank0_r2hc. cbn zeta. set (cnt := nsteps 4 (vl + 1) 4) in *.
  assert (K : 0 <= cnt /\ cnt * 4 <= vl) by lia. clear A1 A2 A3.
  eapply Correct_ext; [|apply (Correct_batch nd false (x0c dc) vl ivs ovs cnt 4 (vl - 4 * cnt) (kern (xvec (x0c dc) [mkdim 4 ivs ovs]))
    (vloop (vl - 4 * cnt) ivs ovs (kern (x0c dc))) (x0c_wf dc))]; try lia.
  - intros nx I O m. cbn beta. unfold vloop.
    assert (EE : forall i m, 0 <= i < cnt -> kern (xvec (x0c dc) [mkdim 4 ivs ovs]) nx (sh I (i * (4 * ivs))) (sh O (i * (4 * ovs))) m =
       upd (upd (upd (upd (upd (upd (upd (upd m (sh O (4 * i * ovs)) (m (sh I (4 * i * ivs)))) (sh (sh O (4 * i * ovs)) dc) 0) (sh (sh O (4 * i * ovs)) ovs) (m (sh (sh I (4 * i * ivs)) ivs))) (sh (sh (sh O (4 * i * ovs)) dc) ovs) 0)
       (sh (sh O (4 * i * ovs)) (2 * ovs)) (m (sh (sh I (4 * i * ivs)) (2 * ivs)))) (sh (sh (sh O (4 * i * ovs)) dc) (2 * ovs)) 0) (sh (sh O (4 * i * ovs)) (3 * ovs)) (m (sh (sh I (4 * i * ivs)) (3 * ivs)))) (sh (sh (sh O (4 * i * ovs)) dc) (3 * ovs)) 0%R).
    { intros i m1 Hi. rewrite <- (rank0_kern4 dc ivs ovs nx). replace (i * (4 * ivs)) with (4 * i * ivs) by ring. replace (i * (4 * ovs)) with (4 * i * ovs) by ring. reflexivity. }
    rewrite (zfor_ext cnt (fun i => kern (xvec (x0c dc) [mkdim 4 ivs ovs]) nx (sh I (i * (4 * ivs))) (sh O (i * (4 * ovs)))) _ m EE). apply zfor_ext. intros i m1 Hi. unfold kern, x0c. cbn [xo map stores fst snd]. rewrite !sh_sh.
    rewrite !Z.add_0_r, !Z.add_assoc. replace (cnt * (4 * ivs) + i * ivs) with ((4 * cnt + i) * ivs) by ring. replace (cnt * (4 * ovs) + i * ovs) with ((4 * cnt + i) * ovs) by ring.
    reflexivity.
  - apply kern_vec_correct. repeat constructor. cbn. lia.
  - apply Correct_loop; [apply x0c_wf|discriminate|apply kern_correct].
Qed.
Lemma rank0_r2hc_inplace_correct dr dc rs cs fp vl ovs : CorrectI (x2c dr dc [] 1 rs cs) fp [mkdim vl ovs ovs] (rank0_r2hc_inplace dc vl ovs).
Proof.
  eapply CorrectI_sim; [apply xsim_x0c|reflexivity|reflexivity|auto|].
  change (rank0_r2hc_inplace dc vl ovs) with (vloop vl ovs ovs (fun nx I O m => upd m (sh O dc) 0%R)).
  apply CorrectI_loop; [apply x0c_wf|]. intros nx I m HW.
  assert (D : dc <> 0). { pose proof (wi_o _ _ _ _ _ HW) as H. cbn in H. inversion H; subst. cbn in *. lia. }
  split.
  - intros a b Hab o F HF. cbn in Hab. destruct Hab as [E|[]]. injection E as <- <-. destruct HF as [E|[E|[]]]; injection E as <- <-.
    + rewrite upd_other; [reflexivity|]. intros E. apply sh_inj in E. lia.
    + rewrite Z.add_0_l. apply upd_same.
  - intros l Hl Ho _. apply upd_other. intros <-. apply Ho. apply InP_intro. rewrite ol_nil. cbn. auto.
Qed.
(** the real part of a single coefficient *)
Lemma x2r1_vals dr dc rs cs vec I O m m' : (forall a b, In (a, b) (offs vec) -> m' (sh O b) = m (sh I a)) -> vals (x2r dr dc [] 1 rs cs) vec I O m m'.
Proof.
  intros H. apply vals_row_r. intros a b Hab j Hj. assert (j = 0) by lia. subst j. unfold rpos. rewrite Zmod_0_l, Zdiv_0_l. cbn [Z.mul].
  replace (b + (0 + 0)) with b by ring. rewrite (H a b Hab). unfold hval. change (Rsum 1 ?f) with (0 + f 0%Z)%R. change (2 * 0 <=? 1) with true. cbn [Z.mul].
  unfold rdc. cbn [fst snd]. rewrite Z.add_0_r. replace (rk HC2R 1 0 0) with 1%R; [change (0 <=? 1) with true; cbv iota; ring|].
  symmetry. apply (rk_triv HC2R). reflexivity.
Qed.
Lemma rank0_hc2r_correct ip nd dr dc rs cs fp vec f : (ip = true -> eqst vec -> Correct nd true (rx []) vec f) -> (ip = false -> Correct nd false (rx []) vec f) ->
  CG ip nd (x2r dr dc [] 1 rs cs) fp vec f.
Proof.
  intros H1 H2.
  assert (Ii : incl [0] (xi (x2r dr dc [] 1 rs cs))).
  { rewrite hcells_x2r. change (map (hcell dc cs) (hidx 1)) with [0 * dc + 0 * cs; 1 * dc + 0 * cs]. intros z [<-|[]]. left. ring. }
  assert (Ei : il (rx []) vec = locs (ti vec)) by (rewrite il_rx; reflexivity).
  assert (Eo : ol (rx []) vec = locs (to_ vec)) by (rewrite ol_rx; reflexivity).
  assert (Eo' : ol (x2r dr dc [] 1 rs cs) vec = locs (to_ vec)).
  { rewrite ol_x2r. cbn [app]. change (rcells 1 dr rs) with [0 * dr + 0 * rs]. replace (0 * dr + 0 * rs) with 0 by ring. apply lplus_0_l. }
  assert (Ei' : forall o, In o (locs (ti vec)) -> In o (il (x2r dr dc [] 1 rs cs) vec)).
  { intros o Ho. unfold il. apply in_lplus. exists 0, o. split; [apply Ii; now left|]. split; [auto|lia]. }
  destruct ip; cbn [CG].
  - intros nx I m HW. assert (He := wi_e _ _ _ _ _ HW).
    assert (NI : NoDup (locs (ti vec))).
    { pose proof (WI_ol _ _ _ _ _ HW) as N. rewrite Eo', eqst_ti in N; auto. }
    destruct (H1 eq_refl He nx I I m) as [V F].
    { constructor; try apply HW.
      - now rewrite Ei.
      - now rewrite Eo, eqst_ti.
      - split; auto. intros o. rewrite Ei, Eo, eqst_ti; tauto. }
    split.
    + apply x2r1_vals. rewrite rx_nil, vals_rx0 in V. exact V.
    + intros l Hl Ho [Hi|Hi]; [discriminate|]. apply F; [exact Hl|rewrite Eo, <- Eo'; exact Ho|right]. rewrite Ei. intros C. apply Hi. eapply InP_incl; [exact Ei'|exact C].
  - intros nx I O m [W1 W2 W3 W4 W5 W6].
    destruct (H2 eq_refl nx I O m) as [V F].
    { constructor; auto.
      - rewrite Ei. rewrite <- (lplus_0_l (locs (ti vec))). eapply lplus_NoDup_incl; [|exact Ii|exact W4]. repeat constructor. easy.
      - intros l Hl Hl'. rewrite Ei in Hl. rewrite Eo, <- Eo' in Hl'. apply (W6 l); auto. eapply InP_incl; [exact Ei'|exact Hl]. }
    split.
    + apply x2r1_vals. rewrite rx_nil, vals_rx0 in V. exact V.
    + intros l Hl Ho Hi. apply F; [exact Hl|rewrite Eo, <- Eo'; exact Ho|]. destruct Hi as [Hi|Hi]; auto. right. rewrite Ei. intros C. apply Hi. eapply InP_incl; [exact Ei'|exact C].
Qed.
Lemma nop2_correct dr dc rs cs fp vec : CorrectI (x2r dr dc [] 1 rs cs) fp vec (fun _ _ _ m => m).
Proof.
  intros nx I m HW. split; [|intros l _ _ _; reflexivity]. apply x2r1_vals. intros a b Hab. now rewrite (eqst_offs vec a b (wi_e _ _ _ _ _ HW) Hab).
Qed.
