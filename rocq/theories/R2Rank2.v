(** * rdft/rank-geq2-rdft2.c: a transform by rows and then along the other dimensions (proof library) *)
From Coq Require Import Reals ZArith List Lia Lra Bool Permutation FunctionalExtensionality.
From Verif Require Import NumTheory Cplx Spec SpecR2R Base TensorModel Offs TensorProofs XForm XKern XSeq CopyProofs
  Rank0Model DftModel RdftModel R2Model DftTw DftTw2 DftComp DftSplit DftPrime RSum RMath RdftX RdftLib RdftLoop RdftCanon IForm R2X R2Lib R2Row.
Import ListNotations.
Open Scope Z_scope.

Lemma mdft_comm A B f ja jb :
  mdft B (fun o => mdft A (fun o' => f o o') ja) jb = mdft A (fun o' => mdft B (fun o => f o o') jb) ja.
Proof.
  revert f ja. induction A as [|d A IH]; intros f [|k ja]; cbn [mdft]; try reflexivity.
  rewrite (mdft_Csum B (dn d) (fun j o => mdft A (fun o' => f o (j * dis d + o')%Z) ja * W (dn d) (j * k)%Z)%C).
  apply Csum_ext. intros j Hj. rewrite (mdft_mul_r B (fun o => mdft A (fun o' => f o (j * dis d + o')) ja)). f_equal.
  apply (IH (fun o o' => f o (j * dis d + o'))).
Qed.

Lemma NoDup_lplus_l S L : L <> [] -> NoDup (lplus S L) -> NoDup S.
Proof.
  intros HL. destruct L as [|l L]; [easy|]. induction S as [|a S IH]; intros H; [constructor|].
  change (lplus (a :: S) (l :: L)) with (map (Z.add a) (l :: L) ++ lplus S (l :: L)) in H.
  apply NoDup_app_inv in H as (H1 & H2 & H3). constructor; [|auto]. intros Ha.
  apply (H3 (a + l)); [cbn; auto|]. apply in_lplus. exists a, l. cbn; auto.
Qed.
Lemma posd_locs A : posd A -> locs (ti A) <> [].
Proof.
  intros H E. assert (In 0 (locs (ti A))); [|now rewrite E in *].
  clear E. induction H as [|d A Hd _ IH]; [cbn; auto|]. cbn [ti map locs]. apply in_lplus. exists 0, 0. split; [|split; [exact IH|auto]].
  apply in_dimlocs. exists 0. cbn. lia.
Qed.
Lemma WI_outer nx I X X' C1 C2 fp0 A B vec : posd A -> eqst (A ++ B) -> incl C1 fp0 -> incl C2 fp0 ->
  xi X = lplus C1 (locs (ti (A ++ B))) -> map fst (xo X) = lplus C2 (locs (to_ (A ++ B))) ->
  xi X' = lplus C1 (locs (ti B)) -> map fst (xo X') = lplus C2 (locs (to_ B)) ->
  WI nx I X (lplus fp0 (locs (ti (A ++ B)))) vec -> WI nx I X' (lplus fp0 (locs (ti B))) (vec ++ A).
Proof.
  intros HA HE I1 I2 X1 X2 X3 X4 [W1 W2 W3 W4 W5 W6 W7 W8].
  assert (HEA : eqst A /\ eqst B) by (apply Forall_app; exact HE). destruct HEA as [EA EB].
  assert (R : forall C, Permutation (lplus C (locs (ti (A ++ B)))) (lplus (lplus C (locs (ti B))) (locs (ti A)))).
  { intros C. rewrite ti_app, locs_app, lplus_assoc. apply lplus_perm_r, lplus_comm. }
  assert (D : forall C, NoDup (lplus C (locs (ti (A ++ B)))) -> NoDup (lplus C (locs (ti B)))).
  { intros C H. apply (NoDup_lplus_l _ (locs (ti A))); [now apply posd_locs|]. exact (Permutation_NoDup (R C) H). }
  constructor; auto.
  - apply nnegd_app. split; auto. now apply posd_nneg.
  - apply Forall_app; auto.
  - rewrite X3. apply D. now rewrite <- X1.
  - rewrite X4, eqst_ti by auto. apply D. rewrite X2, eqst_ti in W5 by auto. exact W5.
  - rewrite X3. intros o Ho. apply in_lplus in Ho as (a & b & Ha & Hb & ->). apply in_lplus. exists a, b. auto.
  - rewrite X4, eqst_ti by auto. intros o Ho. apply in_lplus in Ho as (a & b & Ha & Hb & ->). apply in_lplus. exists a, b. auto.
  - unfold il in *. cbn [xi xf] in *. rewrite ti_app, locs_app.
    eapply Permutation_NoDup; [|exact W8]. etransitivity; [apply lplus_perm_l, R|]. rewrite !lplus_assoc. apply lplus_perm_r, lplus_perm_r, lplus_comm.
Qed.

Lemma fst_x2c' dr dc outer n rs cs : map fst (xo (x2c dr dc outer n rs cs)) = lplus (locs [(2, dc); (nc n, cs)]) (locs (to_ outer)).
Proof. rewrite fst_x2c. change ((2, dc) :: (nc n, cs) :: to_ outer) with ([(2, dc); (nc n, cs)] ++ to_ outer). now rewrite locs_app. Qed.
Lemma xi_x2r' dr dc outer n rs cs : xi (x2r dr dc outer n rs cs) = lplus (locs [(2, dc); (nc n, cs)]) (locs (ti outer)).
Proof. cbn [xi x2r]. change ((2, dc) :: (nc n, cs) :: ti outer) with ([(2, dc); (nc n, cs)] ++ ti outer). now rewrite locs_app. Qed.

Lemma rank2_r2hc_correct ip nd nd2 dr dc n rs cs A B vec fp0 f1 f2 :
  posd A -> posd B -> 0 < n -> (ip = true -> eqst (A ++ B)) ->
  incl (rcells n dr rs) fp0 -> incl (locs [(2, dc); (nc n, cs)]) fp0 ->
  CG ip nd (x2c dr dc B n rs cs) (lplus fp0 (locs (ti B))) (vec ++ A) f1 ->
  Correct nd2 true (cx dc dc (tensor_copy_inplace A INPLACE_OS))
    (tensor_copy_inplace vec INPLACE_OS ++ (tensor_copy_inplace B INPLACE_OS ++ [mkdim (nc n) cs cs])) f2 ->
  CG ip nd (x2c dr dc (A ++ B) n rs cs) (lplus fp0 (locs (ti (A ++ B)))) vec (fun nx I O m => f2 nx O O (f1 nx I O m)).
Proof.
  intros PA PB Hn HE I1 I2 C1 C2. pose proof (nc_half n Hn) as Hnc.
  assert (N : nnegd [mkdim (nc n) cs cs]) by (repeat constructor; cbn [dn]; pose proof (nc_in n 0); lia).
  refine (CG_after ip nd nd2 _ _ _ _ _ _ _ _ f1 f2 _ _ _ _ _ _ _ _ C1 C2).
  - intros H. apply nnegd_app. split; auto. now apply posd_nneg.
  - intros H. rewrite !nnegd_app. split; [now apply copy_inplace_nneg|]. split; [|exact N]. now apply copy_inplace_nneg, posd_nneg.
  - rewrite !il_x2c. apply lplus_perm_r, locs_perm. rewrite !ti_app.
    rewrite <- app_assoc, (app_assoc (ti B)). apply Permutation_app_comm.
  - rewrite !ol_x2c. apply locs_perm. do 2 apply perm_skip. rewrite !to_app.
    rewrite <- app_assoc, (app_assoc (to_ B)). apply Permutation_app_comm.
  - rewrite il_cx, ol_x2c, !ti_app, !to_app, !ti_ipo. apply locs_perm. apply perm_skip. cbn [ti map dn dis].
    etransitivity; [apply Permutation_cons_append|]. rewrite <- !app_assoc. apply Permutation_app_head. rewrite !app_assoc. apply Permutation_app_tail, Permutation_app_comm.
  - rewrite ol_cx, ol_x2c, !to_app, !to_ipo. apply locs_perm. apply perm_skip. cbn [to_ map dn dos].
    etransitivity; [apply Permutation_cons_append|]. rewrite <- !app_assoc. apply Permutation_app_head. rewrite !app_assoc. apply Permutation_app_tail, Permutation_app_comm.
  - intros E nx I. apply (WI_outer nx I _ _ (rcells n dr rs) (locs [(2, dc); (nc n, cs)])); auto; try reflexivity; apply fst_x2c'.
  - intros I O m m1 m2 V1 V2. rewrite vals_x2c in *. rewrite vals_cx in V2. intros a b Hab k ks Hk Hks.
    apply in_box_app in Hks as (k1 & k2 & -> & B1 & B2).
    pose proof (in_box_len _ _ B1) as L1. unfold cval. rewrite mdft_app, ooff_app by auto.
    assert (A2 : In (b + (ooff B k2 + k * cs), b + (ooff B k2 + k * cs))
       (offs (tensor_copy_inplace vec INPLACE_OS ++ (tensor_copy_inplace B INPLACE_OS ++ [mkdim (nc n) cs cs])))).
    { apply offs_app_in; [now apply offs_ip_os with (a := a)|]. apply offs_app_in.
      - apply offs_ip_os with (a := ioff B k2). now apply in_offs_box.
      - now apply offs1_in. }
    specialize (V2 _ _ A2 k1 (proj2 (box_ip _ _ _) B1)). rewrite ooff_ip in V2.
    replace (b + (k * cs + (ooff A k1 + ooff B k2))) with (b + (ooff B k2 + k * cs) + ooff A k1) by ring. rewrite V2.
    apply mdft_same; [unfold tensor_copy_inplace; now rewrite map_map|unfold tensor_copy_inplace; now rewrite map_length|].
    intros js Hjs. rewrite box_ip in Hjs. rewrite ioff_ip.
    specialize (V1 _ _ (offs_app_in _ _ _ _ _ _ Hab (in_offs_box _ _ Hjs)) k k2 Hk B2).
    replace (b + (ooff B k2 + k * cs) + ooff A js) with (b + ooff A js + (k * cs + ooff B k2)) by ring. rewrite V1.
    unfold cval. f_equal. apply functional_extensionality. intros o. unfold dft. apply Csum_ext. intros j Hj. do 4 f_equal. ring.
Qed.

(** the complex transforms of an HC2R problem exchange real and imaginary parts *)
Lemma vals_swapped dc sz vec I m m1 :
  vals (xshift dc dc (cx (- dc) (- dc) sz)) vec I I m m1 ->
  forall a b, In (a, b) (offs vec) -> forall ks, in_box sz ks ->
    rdc m1 (I, sh I dc) (b + ooff sz ks) = bval sz (fun o => rdc m (I, sh I dc) (a + o)) ks.
Proof.
  intros V a b Hab ks Hks. rewrite vals_xshift, vals_cx in V. specialize (V a b Hab ks Hks).
  rewrite sh_sh in V. replace (dc + - dc) with 0 in V by ring. rewrite sh_0 in V.
  unfold bval. transitivity (swapc (rdc m1 (sh I dc, I) (b + ooff sz ks))); [reflexivity|]. rewrite V. f_equal.
Qed.
Lemma rdc_cview m I dc a z : rdc m (I, sh I dc) (a + z) = cview dc (fun o => m (sh I (a + o))) z.
Proof. unfold rdc, cview. cbn [fst snd]. f_equal. rewrite sh_sh. do 2 f_equal. ring. Qed.

Lemma rank2_hc2r_correct ip nd nd1 dr dc n rs cs A B vec fp0 f1 f2 : ip = true \/ nd = false ->
  posd A -> posd B -> 0 < n -> (ip = true -> eqst (A ++ B)) ->
  incl (rcells n dr rs) fp0 -> incl (locs [(2, dc); (nc n, cs)]) fp0 ->
  CG ip nd (x2r dr dc B n rs cs) (lplus fp0 (locs (ti B))) (vec ++ A) f2 ->
  Correct nd1 true (cx (- dc) (- dc) (tensor_copy_inplace A INPLACE_IS))
    (tensor_copy_inplace vec INPLACE_IS ++ (tensor_copy_inplace B INPLACE_IS ++ [mkdim (nc n) cs cs])) f1 ->
  CG ip nd (x2r dr dc (A ++ B) n rs cs) (lplus fp0 (locs (ti (A ++ B)))) vec
     (fun nx I O m => f2 nx I O (f1 nx (sh I dc) (sh I dc) m)).
Proof.
  intros Hd PA PB Hn HE I1 I2 C2 C1.
  apply (Correct_shift nd1 true dc dc _ _ _ (fun _ => eq_refl)) in C1.
  assert (N : nnegd [mkdim (nc n) cs cs]) by (repeat constructor; cbn [dn]; pose proof (nc_in n 0); lia).
  assert (PL : forall t, Permutation (map (Z.add dc) (locs ((2, - dc) :: t))) (locs ((2, dc) :: t))).
  { intros t. cbn [locs]. rewrite <- lplus_shift_l. apply lplus_perm_l. unfold dimlocs. cbn [fst snd]. change (zr 2) with [0; 1]. cbn [map].
    replace (dc + 0 * - dc) with (1 * dc) by ring. replace (dc + 1 * - dc) with (0 * dc) by ring. apply perm_swap. }
  refine (CG_before ip nd nd1 _ _ _ _ _ _ _ _ (fun nx I O => f1 nx (sh I dc) (sh O dc)) f2 Hd _ _ _ _ _ _ _ _ C1 C2).
  - intros H. rewrite !nnegd_app. split; [now apply copy_inplace_nneg|]. split; [|exact N]. now apply copy_inplace_nneg, posd_nneg.
  - intros H. apply nnegd_app. split; auto. now apply posd_nneg.
  - rewrite il_xshift, il_cx, il_x2r, !ti_app, !ti_ipi. etransitivity; [|symmetry; apply PL]. apply locs_perm. apply perm_skip. cbn [ti map dn dis].
    etransitivity; [apply Permutation_cons_append|]. rewrite <- !app_assoc. apply Permutation_app_head. rewrite !app_assoc. apply Permutation_app_tail, Permutation_app_comm.
  - rewrite ol_xshift, ol_cx, il_x2r, !ti_app, !to_app, !to_ipi. etransitivity; [|symmetry; apply PL]. apply locs_perm. apply perm_skip. cbn [to_ map dn dos].
    etransitivity; [apply Permutation_cons_append|]. rewrite <- !app_assoc. apply Permutation_app_head. rewrite !app_assoc. apply Permutation_app_tail, Permutation_app_comm.
  - rewrite !il_x2r. apply locs_perm. do 2 apply perm_skip. rewrite !ti_app.
    rewrite <- app_assoc, (app_assoc (ti B)). apply Permutation_app_comm.
  - rewrite !ol_x2r. apply lplus_perm_r, locs_perm. rewrite !to_app.
    rewrite <- app_assoc, (app_assoc (to_ B)). apply Permutation_app_comm.
  - intros E nx I. apply (WI_outer nx I _ _ (locs [(2, dc); (nc n, cs)]) (rcells n dr rs)); auto; first [apply xi_x2r'|apply fst_x2r].
  - intros I O m m1 m2 V1 V2. rewrite vals_x2r in *. intros a b Hab j js Hj Hjs.
    apply in_box_app in Hjs as (j1 & j2 & -> & B1 & B2).
    pose proof (in_box_len _ _ B1) as L1. rewrite ooff_app by auto.
    specialize (V2 _ _ (offs_app_in _ _ _ _ _ _ Hab (in_offs_box _ _ B1)) j j2 Hj B2).
    replace (b + (rpos dr rs j + (ooff A j1 + ooff B j2))) with (b + ooff A j1 + (rpos dr rs j + ooff B j2)) by ring. rewrite V2.
    unfold rval. apply hval_ext. intros k Hk.
    transitivity (bval B (fun o => bval A (fun o' => cview dc (fun z => m (sh I (a + z))) (o' + o + k * cs)) j1) j2).
    + apply bval_ext; auto. intros is His.
      assert (A2 : In (a + (ioff B is + k * cs), a + (ioff B is + k * cs))
        (offs (tensor_copy_inplace vec INPLACE_IS ++ (tensor_copy_inplace B INPLACE_IS ++ [mkdim (nc n) cs cs])))).
      { apply offs_app_in; [now apply offs_ip_is with (b := b)|]. apply offs_app_in.
        - apply offs_ip_is with (b := ooff B is). now apply in_offs_box.
        - now apply offs1_in. }
      pose proof (vals_swapped _ _ _ _ _ _ V1 _ _ A2 j1 (proj2 (box_ip _ _ _) B1)) as E. rewrite ooff_ipi in E.
      rewrite <- rdc_cview. replace (a + ioff A j1 + (ioff B is + k * cs)) with (a + (ioff B is + k * cs) + ioff A j1) by ring. rewrite E.
      unfold bval. f_equal. apply mdft_same; [unfold tensor_copy_inplace; now rewrite map_map|unfold tensor_copy_inplace; now rewrite map_length|].
      intros ls _. rewrite ioff_ipi. f_equal. rewrite <- rdc_cview. f_equal. ring.
    + unfold bval. rewrite mdft_app by auto. f_equal.
      transitivity (mdft B (fun o => mdft A (fun o' => swapc (cview dc (fun z => m (sh I (a + z))) (o' + o + k * cs))) j1) j2).
      * f_equal. apply functional_extensionality. intros o. apply sw_sw.
      * apply mdft_comm.
Qed.
