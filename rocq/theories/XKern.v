(** * Load-all-then-store-all kernels, vector loops folded into a transform,
    copies and complex transforms as xforms (proof library). *)
From Coq Require Import Reals ZArith List Lia Bool Permutation.
From Verif Require Import NumTheory Cplx Spec TensorModel Offs TensorProofs XForm.
Import ListNotations.
Open Scope Z_scope.

Definition loc_eqb (a b : loc) : bool := Nat.eqb (fst a) (fst b) && (snd a =? snd b).
Lemma loc_eqb_spec a b : loc_eqb a b = true <-> a = b.
Proof.
  destruct a as [n x], b as [k y]. unfold loc_eqb. cbn. rewrite andb_true_iff, Nat.eqb_eq, Z.eqb_eq.
  split; [intros [-> ->]; auto|]. intros H; injection H; auto.
Qed.
Definition upd (m : mem) (l : loc) (v : R) : mem := fun x => if loc_eqb l x then v else m x.
Lemma upd_same m l v : upd m l v l = v.
Proof. unfold upd. now rewrite (proj2 (loc_eqb_spec l l) eq_refl). Qed.
Lemma upd_other m l v x : l <> x -> upd m l v x = m x.
Proof.
  intros H. unfold upd. destruct (loc_eqb l x) eqn:E; auto. apply loc_eqb_spec in E. contradiction.
Qed.

(** store a list of (offset, value) *)
Fixpoint stores (O : loc) (l : list (Z * R)) (m : mem) : mem :=
  match l with [] => m | (o, v) :: t => stores O t (upd m (sh O o) v) end.
Lemma stores_other O l m x : ~ InP O (map fst l) x -> stores O l m x = m x.
Proof.
  revert m. induction l as [|[o v] l IH]; intros m H; [reflexivity|]. cbn [stores]. rewrite IH.
  - apply upd_other. intros E. apply H. exists o. split; [now left|auto].
  - intros (z & Hz & ->). apply H. exists z. split; [now right|auto].
Qed.
Lemma stores_in O l m o v : NoDup (map fst l) -> In (o, v) l -> stores O l m (sh O o) = v.
Proof.
  revert m. induction l as [|[z w] l IH]; intros m Hn Hi; [easy|]. cbn [stores]. inversion Hn; subst.
  destruct Hi as [E|Hi].
  - injection E as -> ->. rewrite stores_other; [apply upd_same|].
    intros (z & Hz & E). apply sh_inj in E. subst. contradiction.
  - apply IH; auto.
Qed.

(** Load all inputs, compute all outputs, store all outputs. *)
Definition kern (X : xform) : rapply :=
  fun nx I O m => stores O (map (fun oF => (fst oF, snd oF (fun z => m (sh I z)))) (xo X)) m.

Lemma il_nil X : il X [] = xi X.
Proof. unfold il. cbn. apply lplus_0_r. Qed.
Lemma ol_nil X : ol X [] = map fst (xo X).
Proof. unfold ol. cbn. apply lplus_0_r. Qed.

Lemma kern_correct nd ip X : Correct nd ip X [] (kern X).
Proof.
  intros nx I O m [W1 W2 W3 W4 W5 W6]. rewrite ol_nil in W5. unfold kern. split.
  - intros a b Hab o F HoF. cbn in Hab. destruct Hab as [E|[]]. injection E as <- <-.
    rewrite Z.add_0_l. replace (fun z => m (sh I (0 + z))) with (fun z => m (sh I z)) by reflexivity.
    apply stores_in.
    + rewrite map_map. cbn. exact W5.
    + apply in_map_iff. exists (o, F). auto.
  - intros l Hl Ho _. apply stores_other. rewrite map_map. cbn. now rewrite ol_nil in Ho.
Qed.

(** ** Folding vector dimensions into the transform *)
Definition xvec (X : xform) (vec : list iodim) : xform :=
  mkX (il X vec)
      (flat_map (fun ab => map (fun oF => (snd ab + fst oF, fun x => snd oF (fun z => x (fst ab + z)))) (xo X)) (offs vec)).

Lemma xvec_xo X vec o F : In (o, F) (xo (xvec X vec)) <->
  exists a b o' F', In (a, b) (offs vec) /\ In (o', F') (xo X) /\ o = b + o' /\ F = (fun x => F' (fun z => x (a + z))).
Proof.
  cbn. rewrite in_flat_map. split.
  - intros ((a & b) & Hab & H). apply in_map_iff in H as ((o' & F') & E & H). injection E as <- <-.
    exists a, b, o', F'. auto.
  - intros (a & b & o' & F' & Hab & H & -> & ->). exists (a, b). split; auto. apply in_map_iff. exists (o', F'). auto.
Qed.
Lemma xvec_wf X vec : xwf X -> xwf (xvec X vec).
Proof.
  intros H o F HoF x y E. apply xvec_xo in HoF as (a & b & o' & F' & Hab & HF & -> & ->).
  eapply H; eauto. intros z Hz. apply E. cbn. eapply in_il_intro; eauto.
Qed.
Lemma xvec_fst X vec : map fst (xo (xvec X vec)) = lplus (locs (to_ vec)) (map fst (xo X)).
Proof.
  cbn. rewrite <- olocs_offs. unfold lplus. induction (offs vec) as [|[a b] l IH]; [reflexivity|].
  cbn [flat_map map]. rewrite map_app, IH. f_equal. rewrite !map_map. reflexivity.
Qed.

Lemma xvec_il X v1 v2 : Permutation (il (xvec X v1) v2) (il X (v1 ++ v2)).
Proof.
  unfold il. cbn [xi xvec]. unfold il. rewrite ti_app, locs_app, lplus_assoc. reflexivity.
Qed.
Lemma xvec_ol X v1 v2 : Permutation (ol (xvec X v1) v2) (ol X (v1 ++ v2)).
Proof.
  unfold ol. rewrite xvec_fst, to_app, locs_app, <- (lplus_assoc (map fst (xo X))).
  apply lplus_perm_l, lplus_comm.
Qed.

Lemma Correct_xvec nd ip X v1 v2 f : nnegd v1 -> Correct nd ip (xvec X v1) v2 f -> Correct nd ip X (v1 ++ v2) f.
Proof.
  intros Hn H nx I O m HW.
  pose proof (xvec_il X v1 v2) as Pi. pose proof (xvec_ol X v1 v2) as Po.
  destruct (H nx I O m) as [V F].
  { eapply Wf_perm; [symmetry; exact Pi|symmetry; exact Po| |exact HW].
    pose proof (wf_vec _ _ _ _ _ _ HW) as Hv. apply Forall_app in Hv. tauto. }
  split.
  - intros a b Hab o G HG. rewrite offs_app in Hab. apply in_oplus in Hab as ((a1 & b1) & (a2 & b2) & H1 & H2 & E).
    unfold padd in E. cbn in E. injection E as -> ->.
    specialize (V a2 b2 H2 (b1 + o) (fun x => G (fun z => x (a1 + z)))).
    replace (b1 + b2 + o) with (b2 + (b1 + o)) by ring. rewrite V.
    + f_equal. apply FunctionalExtensionality.functional_extensionality. intros z. do 2 f_equal. ring.
    + apply xvec_xo. exists a1, b1, o, G. auto.
  - eapply frame_perm; [symmetry; exact Pi|symmetry; exact Po|exact F].
Qed.
Lemma Correct_xvec_inv nd ip X v1 v2 f : nnegd v1 -> Correct nd ip X (v1 ++ v2) f -> Correct nd ip (xvec X v1) v2 f.
Proof.
  intros Hn H nx I O m HW.
  pose proof (xvec_il X v1 v2) as Pi. pose proof (xvec_ol X v1 v2) as Po.
  destruct (H nx I O m) as [V F].
  { eapply Wf_perm; [exact Pi|exact Po| |exact HW]. apply Forall_app. split; auto. apply HW. }
  split.
  - intros a b Hab o G HG. apply xvec_xo in HG as (a1 & b1 & o1 & G1 & H1 & H2 & -> & ->).
    replace (b + (b1 + o1)) with (b1 + b + o1) by ring. rewrite (V (a1 + a) (b1 + b)) with (o := o1) (F := G1); auto.
    + f_equal. apply FunctionalExtensionality.functional_extensionality. intros z. do 2 f_equal. ring.
    + rewrite offs_app. apply in_oplus. exists (a1, b1), (a, b). auto.
  - eapply frame_perm; [exact Pi|exact Po|exact F].
Qed.

(** load-all/store-all over a whole vector of transforms *)
Lemma kern_vec_correct nd ip X vec : nnegd vec -> Correct nd ip X vec (kern (xvec X vec)).
Proof.
  intros Hn. rewrite <- (app_nil_r vec) at 1. apply Correct_xvec; auto. apply kern_correct.
Qed.

(** ** Copies *)
Definition xcopy : xform := mkX [0] [(0, fun x => x 0)].
Lemma xcopy_wf : xwf xcopy.
Proof. intros o F [E|[]] x y H. injection E as <- <-. apply H. now left. Qed.
Lemma il_xcopy vec : il xcopy vec = locs (ti vec).
Proof. unfold il. cbn [xi xcopy]. apply lplus_0_l. Qed.
Lemma ol_xcopy vec : ol xcopy vec = locs (to_ vec).
Proof. unfold ol. cbn [xo xcopy map fst]. apply lplus_0_l. Qed.

(** ** Complex transforms *)
Fixpoint boxl (t : list iodim) : list (list Z) :=
  match t with
  | [] => [[]]
  | d :: t' => flat_map (fun k => map (cons k) (boxl t')) (zr (dn d))
  end.
Lemma in_boxl t ks : In ks (boxl t) <-> in_box t ks.
Proof.
  revert ks. induction t as [|d t IH]; intros ks; cbn.
  - destruct ks; intuition; try easy. 
  - rewrite in_flat_map. split.
    + intros (k & Hk & H). apply in_map_iff in H as (ks' & <- & H). apply in_zr in Hk. apply IH in H. auto.
    + destruct ks as [|k ks]; [easy|]. intros [Hk H]. exists k. split; [now apply in_zr|]. apply in_map. now apply IH.
Qed.
Lemma boxl_ooff t : map (ooff t) (boxl t) = locs (to_ t).
Proof.
  induction t as [|d t IH]; [reflexivity|]. cbn [boxl to_ map locs]. fold (to_ t). rewrite <- IH.
  unfold lplus, dimlocs. cbn [fst snd]. induction (zr (dn d)) as [|k l IHl]; [reflexivity|].
  cbn [flat_map map]. rewrite map_app, IHl. f_equal. rewrite !map_map. reflexivity.
Qed.

(** real and imaginary part *)
Definition part (c : Z) (z : C) : R := if c =? 0 then fst z else snd z.

(** the complex array seen through a real array whose imaginary parts are [di]
    after the real parts *)
Definition cview (di : Z) (x : Z -> R) (z : Z) : C := (x z, x (di + z)).

(** A complex-valued transform whose outputs [ks] in [box] go to [oo ks] and have
    value [G ks] of the complex inputs, which sit at offsets [ii]. *)
Definition cxf (di do_ : Z) (ii : list Z) (box : list (list Z)) (oo : list Z -> Z)
    (G : list Z -> (Z -> C) -> C) : xform :=
  mkX (lplus (dimlocs (2, di)) ii)
      (flat_map (fun c => map (fun ks => (c * do_ + oo ks, fun x => part c (G ks (cview di x)))) box) (zr 2)).

(** The DFT over [sz]. *)
Definition cx (di do_ : Z) (sz : list iodim) : xform :=
  cxf di do_ (locs (ti sz)) (boxl sz) (ooff sz) (fun ks x => mdft sz x ks).

Lemma cxf_xo di do_ ii box oo G o F : In (o, F) (xo (cxf di do_ ii box oo G)) <->
  exists c ks, (c = 0 \/ c = 1) /\ In ks box /\ o = c * do_ + oo ks /\ F = (fun x => part c (G ks (cview di x))).
Proof.
  unfold cxf. cbn [xo]. rewrite in_flat_map. split.
  - intros (c & Hc & H). apply in_map_iff in H as (ks & E & H). injection E as <- <-. apply in_zr in Hc.
    exists c, ks. split; [lia|auto].
  - intros (c & ks & Hc & Hk & -> & ->). exists c. split; [apply in_zr; lia|]. apply in_map_iff. exists ks. auto.
Qed.
Lemma cxf_in di do_ ii box oo G c ks : c = 0 \/ c = 1 -> In ks box ->
  In (c * do_ + oo ks, fun x => part c (G ks (cview di x))) (xo (cxf di do_ ii box oo G)).
Proof. intros Hc Hk. apply cxf_xo. exists c, ks. auto. Qed.
Lemma cxf_fst di do_ ii box oo G : map fst (xo (cxf di do_ ii box oo G)) = lplus (dimlocs (2, do_)) (map oo box).
Proof.
  unfold cxf. cbn [xo]. unfold lplus, dimlocs. cbn [fst snd].
  induction (zr 2) as [|c l IH]; [reflexivity|]. cbn [flat_map map]. rewrite map_app, IH. f_equal.
  rewrite !map_map. reflexivity.
Qed.
Definition cvals (box : list (list Z)) (oo : list Z -> Z) (G : list Z -> (Z -> C) -> C)
    (vec : list iodim) (pi po : cptr) (m m' : mem) : Prop :=
  forall a b, In (a, b) (offs vec) -> forall ks, In ks box ->
    rdc m' po (b + oo ks) = G ks (fun o => rdc m pi (a + o)).

Lemma vals_cxf di do_ ii box oo G vec I O m m' :
  vals (cxf di do_ ii box oo G) vec I O m m' <-> cvals box oo G vec (I, sh I di) (O, sh O do_) m m'.
Proof.
  assert (E : forall a, cview di (fun z => m (sh I (a + z))) = (fun o => rdc m (I, sh I di) (a + o))).
  { intros a. apply FunctionalExtensionality.functional_extensionality. intros z. unfold cview, rdc. cbn.
    rewrite sh_sh. replace (a + (di + z)) with (di + (a + z)) by ring. reflexivity. }
  split.
  - intros H a b Hab ks Hks. apply C_eq; unfold rdc at 1; cbn [fst snd].
    + pose proof (H a b Hab (0 * do_ + oo ks) (fun x => part 0 (G ks (cview di x)))
        (cxf_in di do_ ii box oo G 0 ks ltac:(lia) Hks)) as H'. clear H. rename H' into H.
      rewrite Z.mul_0_l, Z.add_0_l in H. rewrite H. unfold part. cbn. now rewrite E.
    + pose proof (H a b Hab (1 * do_ + oo ks) (fun x => part 1 (G ks (cview di x)))
        (cxf_in di do_ ii box oo G 1 ks ltac:(lia) Hks)) as H'. clear H. rename H' into H.
      rewrite sh_sh. replace (do_ + (b + oo ks)) with (b + (1 * do_ + oo ks)) by ring. rewrite H.
      unfold part. cbn. now rewrite E.
  - intros H a b Hab o F HF. apply cxf_xo in HF as (c & ks & Hc & Hk & -> & ->). rewrite E.
    specialize (H a b Hab ks Hk). rewrite <- H. unfold rdc, part. destruct Hc as [-> | ->]; cbn [fst snd Z.eqb].
    + change (0 =? 0) with true. cbn iota. f_equal; f_equal; ring.
    + rewrite sh_sh. change (1 =? 0) with false. cbn iota. f_equal; f_equal; ring.
Qed.

Lemma vals_cx di do_ sz vec I O m m' : vals (cx di do_ sz) vec I O m m' <->
  (forall a b, In (a, b) (offs vec) -> forall ks, in_box sz ks ->
    rdc m' (O, sh O do_) (b + ooff sz ks) = mdft sz (fun o => rdc m (I, sh I di) (a + o)) ks).
Proof.
  unfold cx. rewrite vals_cxf. unfold cvals. split; intros H a b Hab ks Hk; apply H; auto; now apply in_boxl.
Qed.

Lemma cxf_wf di do_ ii box oo G :
  (forall ks, In ks box -> forall x y, (forall z, In z ii -> x z = y z) -> G ks x = G ks y) ->
  xwf (cxf di do_ ii box oo G).
Proof.
  intros H o F HF x y E. apply cxf_xo in HF as (c & ks & Hc & Hk & -> & ->). f_equal. apply H; auto.
  intros z Hz. unfold cview. f_equal; apply E; unfold cxf; cbn [xi]; apply in_lplus_dim.
  - exists 0, z. split; [lia|]. auto.
  - exists 1, z. split; [lia|]. split; auto. ring.
Qed.
Lemma cx_wf di do_ sz : xwf (cx di do_ sz).
Proof.
  apply cxf_wf. intros ks Hk x y E. apply in_boxl in Hk. apply mdft_ext; auto. intros js Hj. apply E.
  apply in_ilocs. eauto.
Qed.

Lemma cx_xi di do_ sz : xi (cx di do_ sz) = locs ((2, di) :: ti sz).
Proof. reflexivity. Qed.
Lemma cx_fst di do_ sz : map fst (xo (cx di do_ sz)) = locs ((2, do_) :: to_ sz).
Proof. unfold cx. rewrite cxf_fst, boxl_ooff. reflexivity. Qed.
Lemma il_cx di do_ sz vec : il (cx di do_ sz) vec = locs ((2, di) :: ti (sz ++ vec)).
Proof. unfold il. rewrite cx_xi, ti_app. cbn [locs]. now rewrite locs_app, lplus_assoc. Qed.
Lemma ol_cx di do_ sz vec : ol (cx di do_ sz) vec = locs ((2, do_) :: to_ (sz ++ vec)).
Proof. unfold ol. rewrite cx_fst, to_app. cbn [locs]. now rewrite locs_app, lplus_assoc. Qed.

Lemma xsim_cx di do_ sz sz' : Permutation (offs sz) (offs sz') -> sz_sim sz sz' -> xsim (cx di do_ sz) (cx di do_ sz').
Proof.
  intros P Hs. split; [|split].
  - rewrite !cx_xi. cbn [locs]. apply lplus_perm_r. rewrite <- !ilocs_offs. now apply Permutation_map.
  - rewrite !cx_fst. cbn [locs]. apply lplus_perm_r. rewrite <- !olocs_offs. now apply Permutation_map.
  - intros o F HF. unfold cx in HF. apply cxf_xo in HF as (c & ks & Hc & Hk & -> & ->). apply in_boxl in Hk.
    destruct (Hs ks Hk) as (ks' & Hk' & E1 & E2).
    exists (fun x => part c (mdft sz' (cview di x) ks')). split.
    + unfold cx. apply cxf_xo. exists c, ks'. split; auto. split; [now apply in_boxl|]. split; [congruence|auto].
    + intros x. cbn. now rewrite E2.
Qed.
