(** * Real/complex transforms as xforms, and how they compose (proof library) *)
From Coq Require Import Reals ZArith List Lia Lra Bool Permutation FunctionalExtensionality.
From Verif Require Import NumTheory Cplx Spec SpecR2R Base TensorModel Offs TensorProofs XForm XKern XSeq CopyProofs
  Rank0Model DftModel RdftModel R2Model DftTw2 DftComp DftSplit RSum RMath IForm.
Import ListNotations.
Open Scope Z_scope.

Definition nc (n : Z) : Z := n / 2 + 1.
Definition rcells (n dr rs : Z) : list Z := map (rpos dr rs) (zr n).
(** value of coefficient (ks, k) of the transform of real data *)
Definition cval (outer : list iodim) (n dr rs : Z) (x : Z -> R) (ks : list Z) (k : Z) : C :=
  mdft outer (fun o => dft n (fun j => RtoC (x (o + rpos dr rs j)%Z)) k) ks.
(** backward transform along the outer dimensions, the code's way *)
Definition bval (outer : list iodim) (y : Z -> C) (js : list Z) : C := swapc (mdft outer (fun o => swapc (y o)) js).
(** element j of the backward transform of a half-spectrum *)
Definition hval (n : Z) (Y : Z -> C) (j : Z) : R :=
  Rsum n (fun i => (if 2 * i <=? n then fst (Y i) else snd (Y (n - i)%Z)) * rk HC2R n i j)%R.
Definition rval (outer : list iodim) (n dc cs : Z) (x : Z -> R) (js : list Z) (j : Z) : R :=
  hval n (fun k => bval outer (fun o => cview dc x (o + k * cs)) js) j.

Definition x2c (dr dc : Z) (outer : list iodim) (n rs cs : Z) : xform :=
  mkX (lplus (rcells n dr rs) (locs (ti outer)))
      (flat_map (fun c => flat_map (fun k => map (fun ks =>
         (c * dc + (k * cs + ooff outer ks), fun x => part c (cval outer n dr rs x ks k))) (boxl outer)) (zr (nc n))) [0; 1]).
Definition x2r (dr dc : Z) (outer : list iodim) (n rs cs : Z) : xform :=
  mkX (locs ((2, dc) :: (nc n, cs) :: ti outer))
      (flat_map (fun j => map (fun js => (rpos dr rs j + ooff outer js, fun x => rval outer n dc cs x js j)) (boxl outer)) (zr n)).
Definition xr2 (c2r : bool) (dr dc : Z) (outer : list iodim) (row : iodim) : xform :=
  if c2r then x2r dr dc outer (dn row) (dos row) (dis row) else x2c dr dc outer (dn row) (dis row) (dos row).

Lemma in_x2c dr dc outer n rs cs o F : In (o, F) (xo (x2c dr dc outer n rs cs)) <->
  exists c k ks, (c = 0 \/ c = 1) /\ 0 <= k < nc n /\ in_box outer ks /\ o = c * dc + (k * cs + ooff outer ks) /\
    F = (fun x => part c (cval outer n dr rs x ks k)).
Proof.
  unfold x2c. cbn [xo]. rewrite in_flat_map. split.
  - intros (c & Hc & H). apply in_flat_map in H as (k & Hk & H). apply in_map_iff in H as (ks & E & H). injection E as <- <-.
    exists c, k, ks. split; [cbn in Hc; destruct Hc as [<-|[<-|[]]]; auto|]. split; [now apply in_zr|]. split; [now apply in_boxl|auto].
  - intros (c & k & ks & Hc & Hk & Hks & -> & ->). exists c. split; [destruct Hc as [-> | ->]; cbn; auto|]. apply in_flat_map. exists k. split; [now apply in_zr|].
    apply in_map_iff. exists ks. split; auto. now apply in_boxl.
Qed.
Lemma in_x2r dr dc outer n rs cs o F : In (o, F) (xo (x2r dr dc outer n rs cs)) <->
  exists j js, 0 <= j < n /\ in_box outer js /\ o = rpos dr rs j + ooff outer js /\ F = (fun x => rval outer n dc cs x js j).
Proof.
  unfold x2r. cbn [xo]. rewrite in_flat_map. split.
  - intros (j & Hj & H). apply in_map_iff in H as (js & E & H). injection E as <- <-.
    exists j, js. split; [now apply in_zr|]. split; [now apply in_boxl|auto].
  - intros (j & js & Hj & Hjs & -> & ->). exists j. split; [now apply in_zr|]. apply in_map_iff. exists js. split; auto. now apply in_boxl.
Qed.
Lemma map_flat_map {A B C} (f : B -> C) (g : A -> list B) l : map f (flat_map g l) = flat_map (fun a => map f (g a)) l.
Proof. induction l; cbn; auto. now rewrite map_app, IHl. Qed.
Lemma flat_map_map {A B C} (f : A -> B) (g : B -> list C) l : flat_map g (map f l) = flat_map (fun a => g (f a)) l.
Proof. induction l; cbn; auto. now rewrite IHl. Qed.
Lemma fst_x2c dr dc outer n rs cs : map fst (xo (x2c dr dc outer n rs cs)) = locs ((2, dc) :: (nc n, cs) :: to_ outer).
Proof.
  unfold x2c. cbn [xo locs]. unfold lplus. rewrite map_flat_map. unfold dimlocs. cbn [fst snd]. rewrite flat_map_map.
  change (zr 2) with [0; 1]. apply flat_map_ext. intros c. rewrite map_flat_map, flat_map_map.
  assert (G : forall l, flat_map (fun k => map fst (map (fun ks => (c * dc + (k * cs + ooff outer ks), fun x => part c (cval outer n dr rs x ks k))) (boxl outer))) l =
     map (Z.add (c * dc)) (flat_map (fun k => map (Z.add (k * cs)) (locs (to_ outer))) l)).
  { induction l as [|k l IH]; [reflexivity|]. cbn [flat_map]. rewrite IH, map_app. f_equal. rewrite <- boxl_ooff, !map_map. reflexivity. }
  apply G.
Qed.
Lemma fst_x2r dr dc outer n rs cs : map fst (xo (x2r dr dc outer n rs cs)) = lplus (rcells n dr rs) (locs (to_ outer)).
Proof.
  unfold x2r, rcells, lplus. cbn [xo]. rewrite map_flat_map, flat_map_map. apply flat_map_ext. intros j.
  rewrite <- boxl_ooff, !map_map. reflexivity.
Qed.

Lemma ol_x2c dr dc outer n rs cs vec : ol (x2c dr dc outer n rs cs) vec = locs ((2, dc) :: (nc n, cs) :: to_ (outer ++ vec)).
Proof. unfold ol. rewrite fst_x2c, to_app. change ((2, dc) :: (nc n, cs) :: to_ outer ++ to_ vec) with (((2, dc) :: (nc n, cs) :: to_ outer) ++ to_ vec). now rewrite locs_app. Qed.
Lemma il_x2c dr dc outer n rs cs vec : il (x2c dr dc outer n rs cs) vec = lplus (rcells n dr rs) (locs (ti (outer ++ vec))).
Proof. unfold il. cbn [xi x2c]. now rewrite lplus_assoc, ti_app, locs_app. Qed.
Lemma il_x2r dr dc outer n rs cs vec : il (x2r dr dc outer n rs cs) vec = locs ((2, dc) :: (nc n, cs) :: ti (outer ++ vec)).
Proof. unfold il. cbn [xi x2r]. rewrite ti_app. change ((2, dc) :: (nc n, cs) :: ti outer ++ ti vec) with (((2, dc) :: (nc n, cs) :: ti outer) ++ ti vec). now rewrite locs_app. Qed.
Lemma ol_x2r dr dc outer n rs cs vec : ol (x2r dr dc outer n rs cs) vec = lplus (rcells n dr rs) (locs (to_ (outer ++ vec))).
Proof. unfold ol. rewrite fst_x2r. now rewrite lplus_assoc, to_app, locs_app. Qed.

(** ** values *)
Lemma vals_x2c dr dc outer n rs cs vec I O m m' : vals (x2c dr dc outer n rs cs) vec I O m m' <->
  (forall a b, In (a, b) (offs vec) -> forall k ks, 0 <= k < nc n -> in_box outer ks ->
    rdc m' (O, sh O dc) (b + (k * cs + ooff outer ks)) = cval outer n dr rs (fun z => m (sh I (a + z))) ks k).
Proof.
  split.
  - intros H a b Hab k ks Hk Hks.
    assert (A : forall c, c = 0 \/ c = 1 -> m' (sh O (b + (c * dc + (k * cs + ooff outer ks)))) = part c (cval outer n dr rs (fun z => m (sh I (a + z))) ks k)).
    { intros c Hc. apply (H a b Hab _ (fun x => part c (cval outer n dr rs x ks k))). apply in_x2c. exists c, k, ks. auto. }
    apply C_eq; unfold rdc; cbn [fst snd].
    + etransitivity; [|exact (A 0 (or_introl eq_refl))]. f_equal.
    + rewrite sh_sh. etransitivity; [|exact (A 1 (or_intror eq_refl))]. f_equal. f_equal. ring.
  - intros H a b Hab o F HF. apply in_x2c in HF as (c & k & ks & Hc & Hk & Hks & -> & ->).
    rewrite <- (H a b Hab k ks Hk Hks). unfold rdc. cbn [fst snd]. destruct Hc as [-> | ->]; cbn [part Z.eqb fst snd].
    + f_equal.
    + rewrite sh_sh. do 2 f_equal. ring.
Qed.
Lemma vals_x2r dr dc outer n rs cs vec I O m m' : vals (x2r dr dc outer n rs cs) vec I O m m' <->
  (forall a b, In (a, b) (offs vec) -> forall j js, 0 <= j < n -> in_box outer js ->
    m' (sh O (b + (rpos dr rs j + ooff outer js))) = rval outer n dc cs (fun z => m (sh I (a + z))) js j).
Proof.
  split.
  - intros H a b Hab j js Hj Hjs. apply (H a b Hab _ (fun x => rval outer n dc cs x js j)). apply in_x2r. exists j, js. auto.
  - intros H a b Hab o F HF. apply in_x2r in HF as (j & js & Hj & Hjs & -> & ->). now apply H.
Qed.

Lemma nc_bound n k : 0 <= k < nc n <-> 0 <= k /\ 2 * k <= n \/ (n < 0 /\ 0 <= k < nc n).
Proof.
  unfold nc. pose proof (Z.div_mod n 2 ltac:(lia)). pose proof (Z.mod_pos_bound n 2 ltac:(lia)). lia.
Qed.
Lemma nc_in n k : 0 <= k -> 2 * k <= n -> 0 <= k < nc n.
Proof. unfold nc. pose proof (Z.div_mod n 2 ltac:(lia)). pose proof (Z.mod_pos_bound n 2 ltac:(lia)). lia. Qed.
Lemma nc_inv n k : 0 < n -> 0 <= k < nc n -> 0 <= k /\ 2 * k <= n.
Proof. unfold nc. pose proof (Z.div_mod n 2 ltac:(lia)). pose proof (Z.mod_pos_bound n 2 ltac:(lia)). lia. Qed.
Lemma nc_quot n : 0 < n -> Z.quot n 2 + 1 = nc n.
Proof. intros. unfold nc. rewrite Z.quot_div_nonneg; lia. Qed.

(** ** the values depend on the cells read *)
Lemma cval_ext outer n dr rs x y ks k : in_box outer ks ->
  (forall o js, in_box outer js -> o = ioff outer js -> forall j, 0 <= j < n -> x (o + rpos dr rs j) = y (o + rpos dr rs j)) ->
  cval outer n dr rs x ks k = cval outer n dr rs y ks k.
Proof.
  intros Hk H. unfold cval. apply mdft_ext; auto. intros js Hjs. unfold dft. apply Csum_ext. intros j Hj. do 2 f_equal. eapply H; eauto.
Qed.
Lemma hval_ext n Y Z' j : (forall k, 0 <= k < nc n -> Y k = Z' k) -> hval n Y j = hval n Z' j.
Proof.
  intros H. unfold hval. apply Rsum_ext. intros i Hi. destruct (Z.leb_spec (2 * i) n); rewrite H; auto; apply nc_in; lia.
Qed.
Lemma bval_ext outer y z js : in_box outer js -> (forall is, in_box outer is -> y (ioff outer is) = z (ioff outer is)) ->
  bval outer y js = bval outer z js.
Proof. intros Hj H. unfold bval. f_equal. apply mdft_ext; auto. intros is His. now rewrite H. Qed.

Lemma x2c_wf dr dc outer n rs cs : xwf (x2c dr dc outer n rs cs).
Proof.
  intros o F HF x y E. apply in_x2c in HF as (c & k & ks & Hc & Hk & Hks & -> & ->). f_equal. apply cval_ext; auto.
  intros o js Hjs -> j Hj. apply E. cbn [xi x2c]. apply in_lplus. exists (rpos dr rs j), (ioff outer js).
  split; [apply in_map; now apply in_zr|]. split; [apply in_ilocs; eauto|lia].
Qed.
Lemma x2r_wf dr dc outer n rs cs : xwf (x2r dr dc outer n rs cs).
Proof.
  intros o F HF x y E. apply in_x2r in HF as (j & js & Hj & Hjs & -> & ->). unfold rval. apply hval_ext. intros k Hk.
  apply bval_ext; auto. intros is His.
  assert (G : forall c, c = 0 \/ c = 1 -> x (c * dc + (ioff outer is + k * cs)) = y (c * dc + (ioff outer is + k * cs))).
  { intros c Hc. apply E. cbn [xi x2r locs]. apply in_lplus. exists (c * dc), (k * cs + ioff outer is). split; [|split].
    - apply in_dimlocs. exists c. split; [lia|auto].
    - apply in_lplus. exists (k * cs), (ioff outer is). split; [apply in_dimlocs; eauto|]. split; [apply in_ilocs; eauto|auto].
    - lia. }
  unfold cview. f_equal; [exact (G 0 (or_introl eq_refl))|]. rewrite <- (Z.mul_1_l dc). exact (G 1 (or_intror eq_refl)).
Qed.
Lemma xr2_wf c2r dr dc outer row : xwf (xr2 c2r dr dc outer row).
Proof. destruct c2r; [apply x2r_wf|apply x2c_wf]. Qed.

(** ** reordering the outer dimensions *)
Lemma xsim_xr2 c2r dr dc a b row row' : Permutation (offs a) (offs b) -> sz_sim a b ->
  (row = row' \/ (dn row = 1 /\ dn row' = 1)) -> xsim (xr2 c2r dr dc a row) (xr2 c2r dr dc b row').
Proof.
  intros P Hs Hr.
  assert (Pi : Permutation (locs (ti a)) (locs (ti b))) by (rewrite <- !ilocs_offs; now apply Permutation_map).
  assert (Po : Permutation (locs (to_ a)) (locs (to_ b))) by (rewrite <- !olocs_offs; now apply Permutation_map).
  assert (En : dn row = dn row') by (destruct Hr as [->|[-> ->]]; auto).
  assert (Er : forall j, 0 <= j < dn row -> rpos dr (rstr c2r row) j = rpos dr (rstr c2r row') j).
  { intros j Hj. destruct Hr as [->|[E1 E2]]; auto. assert (j = 0) by lia. subst. unfold rpos. cbn. reflexivity. }
  assert (Ec : forall k, 0 <= k < nc (dn row) -> k * cstr c2r row = k * cstr c2r row').
  { intros k Hk. destruct Hr as [->|[E1 E2]]; auto. rewrite E1 in Hk. unfold nc in Hk. cbn in Hk. assert (k = 0) by lia. subst. ring. }
  assert (RC : rcells (dn row) dr (rstr c2r row) = rcells (dn row') dr (rstr c2r row')).
  { unfold rcells. rewrite <- En. apply map_ext_in. intros j Hj. apply in_zr in Hj. now apply Er. }
  assert (CC : dimlocs (nc (dn row), cstr c2r row) = dimlocs (nc (dn row'), cstr c2r row')).
  { unfold dimlocs. cbn [fst snd]. rewrite <- En. apply map_ext_in. intros j Hj. apply in_zr in Hj. now apply Ec. }
  destruct c2r; unfold xr2; cbn [rstr cstr] in *; (split; [|split]).
  - cbn [xi x2r locs]. rewrite CC. now do 2 apply lplus_perm_r.
  - rewrite !fst_x2r. rewrite RC. now apply lplus_perm_r.
  - intros o F HF. apply in_x2r in HF as (j & js & Hj & Hjs & -> & ->). destruct (Hs js Hjs) as (js' & Hjs' & E1 & E2).
    exists (fun x => rval b (dn row') dc (dis row') x js' j). split.
    + apply in_x2r. exists j, js'. rewrite <- En. split; auto. split; auto. split; auto. rewrite E1, Er; auto.
    + intros x. unfold rval. rewrite <- En. apply hval_ext. intros k Hk. unfold bval. rewrite E2, (Ec k Hk). reflexivity.
  - cbn [xi x2c]. rewrite RC. now apply lplus_perm_r.
  - rewrite !fst_x2c. cbn [locs]. rewrite CC. now do 2 apply lplus_perm_r.
  - intros o F HF. apply in_x2c in HF as (c & k & ks & Hc & Hk & Hks & -> & ->). destruct (Hs ks Hks) as (ks' & Hks' & E1 & E2).
    exists (fun x => part c (cval b (dn row') dr (dis row') x ks' k)). split.
    + apply in_x2c. exists c, k, ks'. rewrite <- En. split; auto. split; auto. split; auto. split; auto. rewrite E1, (Ec k Hk). reflexivity.
    + intros x. f_equal. unfold cval. rewrite E2, <- En. f_equal. apply functional_extensionality. intros o. unfold dft. apply Csum_ext. intros j Hj.
      rewrite (Er j Hj). reflexivity.
Qed.

(** ** Real and complex formulas *)
Lemma dft_real n x k : 0 < n -> 0 <= k -> 2 * k <= n ->
  dft n (fun j => RtoC (x j)) k =
  (Rsum n (fun j => x j * rk R2HC n j k)%R,
   if (k =? 0) || (2 * k =? n) then 0%R else Rsum n (fun j => x j * rk R2HC n j (n - k)%Z)%R).
Proof.
  intros Hn H0 Hk. unfold dft. apply C_eq; cbn [fst snd].
  - rewrite Csum_fst, hc_re by auto. apply Rsum_ext. intros j Hj. rewrite W_cs. cbn. ring.
  - rewrite Csum_snd. 
    transitivity (- Rsum n (fun j => x j * sn n (j * k)%Z))%R.
    { rewrite <- Rsum_opp. apply Rsum_ext. intros j Hj. rewrite W_cs. cbn. ring. }
    destruct (Z.eqb_spec k 0) as [->|H1]; cbn [orb].
    + rewrite Rsum_zero; [ring|]. intros j Hj. rewrite Z.mul_0_r, sn_0. ring.
    + destruct (Z.eqb_spec (2 * k) n) as [E|H2].
      * rewrite Rsum_zero; [ring|]. intros j Hj. subst n.
        replace (sn (2 * k) (j * k)) with 0%R; [ring|]. pose proof (sn_W (2 * k) (j * k)) as E.
        assert (G : (sn (2 * k) (j * k) = - sn (2 * k) (j * k))%R); [|lra].
        rewrite <- sn_neg. apply sn_congr; [lia|]. exists j. ring.
      * rewrite hc_im; auto; lia.
Qed.
