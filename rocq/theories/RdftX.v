(** * Real transforms as xforms, and how they compose (proof library) *)
From Coq Require Import Reals ZArith List Lia Lra Bool Permutation FunctionalExtensionality.
From Verif Require Import NumTheory Cplx Spec SpecR2R Base TensorModel Offs TensorProofs XForm XKern XSeq CopyProofs
  TransProofs Rank0Model Rank0Proofs Rank0Trans DftModel RdftModel DftTw2 DftComp DftSplit RSum.
Import ListNotations.
Open Scope Z_scope.

Definition rx (sz : list rdim) : xform :=
  mkX (locs (ti (ds sz))) (map (fun ks => (ooff (ds sz) ks, fun x => rmx sz x ks)) (boxl (ds sz))).
Lemma ds_rip sz k : ds (rip sz k) = tensor_copy_inplace (ds sz) k.
Proof. unfold ds, rip, tensor_copy_inplace. rewrite !map_map. apply map_ext. intros [kd d]. now destruct k. Qed.
Lemma ds_app a b : ds (a ++ b) = ds a ++ ds b. Proof. apply map_app. Qed.
Lemma rx_nil : rx [] = xcopy. Proof. reflexivity. Qed.

Lemma in_rx sz o F : In (o, F) (xo (rx sz)) <-> exists ks, in_box (ds sz) ks /\ o = ooff (ds sz) ks /\ F = (fun x => rmx sz x ks).
Proof.
  unfold rx. cbn [xo]. rewrite in_map_iff. split.
  - intros (ks & E & H). injection E as <- <-. exists ks. split; [now apply in_boxl|auto].
  - intros (ks & H & -> & ->). exists ks. split; auto. now apply in_boxl.
Qed.
Lemma rx_fst sz : map fst (xo (rx sz)) = locs (to_ (ds sz)).
Proof. unfold rx. cbn [xo]. rewrite map_map. cbn [fst]. apply boxl_ooff. Qed.
Lemma il_rx sz vec : il (rx sz) vec = locs (ti (ds sz ++ vec)).
Proof. unfold il. cbn [xi rx]. now rewrite ti_app, locs_app. Qed.
Lemma ol_rx sz vec : ol (rx sz) vec = locs (to_ (ds sz ++ vec)).
Proof. unfold ol. rewrite rx_fst. now rewrite to_app, locs_app. Qed.

Lemma vals_rx sz vec I O m m' : vals (rx sz) vec I O m m' <->
  (forall a b, In (a, b) (offs vec) -> forall ks, in_box (ds sz) ks ->
    m' (sh O (b + ooff (ds sz) ks)) = rmx sz (fun o => m (sh I (a + o))) ks).
Proof.
  split.
  - intros H a b Hab ks Hk. apply (H a b Hab _ (fun x => rmx sz x ks)). apply in_rx. eauto.
  - intros H a b Hab o F HF. apply in_rx in HF as (ks & Hk & -> & ->). now apply H.
Qed.

(** ** rmx *)
Lemma rmx_ext sz x y ks : in_box (ds sz) ks -> (forall js, in_box (ds sz) js -> x (ioff (ds sz) js) = y (ioff (ds sz) js)) ->
  rmx sz x ks = rmx sz y ks.
Proof.
  revert x y ks. induction sz as [|[kd d] sz IH]; intros x y [|k ks] Hk H; cbn in *; try easy.
  - apply (H []). exact I.
  - apply Rsum_ext. intros j Hj. f_equal. apply IH; [tauto|]. intros js Hjs. apply (H (j :: js)). auto.
Qed.
Lemma rx_wf sz : xwf (rx sz).
Proof.
  intros o F HF x y E. apply in_rx in HF as (ks & Hk & -> & ->). apply rmx_ext; auto. intros js Hj. apply E.
  cbn [xi rx]. apply in_ilocs. eauto.
Qed.
(** the transform depends on kinds, lengths, and values at the indices *)
Lemma rmx_same sz sz' x y ks : map (fun kd => (fst kd, dn (snd kd))) sz = map (fun kd => (fst kd, dn (snd kd))) sz' ->
  length ks = length sz ->
  (forall js, in_box (ds sz) js -> x (ioff (ds sz) js) = y (ioff (ds sz') js)) -> rmx sz x ks = rmx sz' y ks.
Proof.
  revert sz' x y ks. induction sz as [|[kd d] sz IH]; intros [|[kd' d'] sz'] x y ks E L H; try discriminate.
  - destruct ks; [|discriminate]. apply (H []); exact I.
  - cbn in E. injection E as E1 E2 E3. destruct ks as [|k ks]; [discriminate|]. injection L as L. cbn [rmx].
    rewrite <- E2, <- E1. apply Rsum_ext. intros j Hj. f_equal. apply IH; auto. intros js Hjs. exact (H (j :: js) (Logic.conj Hj Hjs)).
Qed.
Lemma rip_kn sz k : map (fun kd => (fst kd, dn (snd kd))) sz = map (fun kd => (fst kd, dn (snd kd))) (rip sz k).
Proof. unfold rip. rewrite map_map. apply map_ext. intros [kd d]. now destruct k. Qed.

Lemma rmx_app a b x ks ls : length ks = length a ->
  rmx (a ++ b) x (ks ++ ls) = rmx a (fun o => rmx b (fun o' => x (o + o')) ls) ks.
Proof.
  revert x ks. induction a as [|[kd d] a IH]; intros x [|k ks] E; cbn [app rmx]; try discriminate.
  - reflexivity.
  - apply Rsum_ext. intros j Hj. f_equal. rewrite IH by (cbn in E; lia). f_equal.
    assert (X : forall o, rmx b (fun o' => x (j * dis d + (o + o'))) ls = rmx b (fun o' => x (j * dis d + o + o')) ls).
    { intros o. f_equal. apply functional_extensionality. intros o'. f_equal. ring. }
    apply functional_extensionality. exact X.
Qed.

Definition rsim (a b : list rdim) : Prop :=
  forall ks, in_box (ds a) ks -> exists ks', in_box (ds b) ks' /\ ooff (ds a) ks = ooff (ds b) ks' /\
    forall x, rmx a x ks = rmx b x ks'.
Lemma rsim_refl a : rsim a a.
Proof. intros ks H. exists ks. auto. Qed.
Lemma rsim_trans a b c : rsim a b -> rsim b c -> rsim a c.
Proof.
  intros H1 H2 ks Hk. destruct (H1 ks Hk) as (ks' & Hk' & E1 & E2).
  destruct (H2 ks' Hk') as (ks'' & Hk'' & E3 & E4). exists ks''. split; auto. split; [congruence|].
  intros x. now rewrite E2.
Qed.
Lemma rsim_cons d a b : rsim a b -> rsim (d :: a) (d :: b).
Proof.
  destruct d as [kd d]. intros H [|k ks] Hk; [easy|]. cbn in Hk. destruct Hk as [H1 H2].
  destruct (H ks H2) as (ks' & Hk' & E1 & E2). exists (k :: ks'). split; [split; auto|]. split; [cbn [ds map snd ooff]; unfold ds in *; now rewrite E1|].
  intros x. apply Rsum_ext. intros j Hj. now rewrite E2.
Qed.
Lemma rsim_swap d e a : rsim (d :: e :: a) (e :: d :: a).
Proof.
  destruct d as [kd d], e as [ke e].
  intros [|k [|l ks]] Hk; try (cbn in Hk; tauto). cbn in Hk. exists (l :: k :: ks).
  split; [cbn; tauto|]. split; [cbn; lia|]. intros x. cbn [rmx].
  transitivity (Rsum (dn d) (fun j => Rsum (dn e) (fun i =>
     rmx a (fun o => x (j * dis d + (i * dis e + o))%Z) ks * rk ke (dn e) i l * rk kd (dn d) j k)%R)).
  { apply Rsum_ext. intros j Hj. now rewrite <- Rsum_mul_r. }
  rewrite Rsum_swap. apply Rsum_ext. intros i Hi. rewrite <- Rsum_mul_r. apply Rsum_ext. intros j Hj.
  replace (rmx a (fun o => x (j * dis d + (i * dis e + o))) ks)
    with (rmx a (fun o => x (i * dis e + (j * dis d + o))) ks); [ring|].
  f_equal. apply functional_extensionality. intros o. f_equal. ring.
Qed.
Lemma rsim_perm a b : Permutation a b -> rsim a b.
Proof.
  induction 1.
  - apply rsim_refl.
  - now apply rsim_cons.
  - apply rsim_swap.
  - eapply rsim_trans; eauto.
Qed.
Lemma rsim_drop1 kd d a : dn d = 1 -> rk kd 1 0 0 = 1%R -> rsim ((kd, d) :: a) a.
Proof.
  intros Hd Hr [|k ks] Hk; [easy|]. cbn in Hk. exists ks. split; [tauto|]. assert (k = 0) by lia. subst k.
  split; [unfold ds in *; cbn [map snd ooff dos]; lia|]. intros x. cbn [rmx]. rewrite Hd, Rsum_1, Hr, Z.mul_0_l. rewrite Rmult_1_r. reflexivity.
Qed.
Lemma rsim_kind kd kd' d a : (forall j k, 0 <= j < dn d -> 0 <= k < dn d -> rk kd (dn d) j k = rk kd' (dn d) j k) ->
  rsim ((kd, d) :: a) ((kd', d) :: a).
Proof.
  intros H [|k ks] Hk; [easy|]. exists (k :: ks). split; [exact Hk|]. split; [reflexivity|]. intros x. cbn [rmx].
  cbn in Hk. apply Rsum_ext. intros j Hj. now rewrite H by tauto.
Qed.

Lemma xsim_rx sz sz' : Permutation (offs (ds sz)) (offs (ds sz')) -> rsim sz sz' -> xsim (rx sz) (rx sz').
Proof.
  intros P Hs. split; [|split].
  - cbn [xi rx]. rewrite <- !ilocs_offs. now apply Permutation_map.
  - rewrite !rx_fst. rewrite <- !olocs_offs. now apply Permutation_map.
  - intros o F HF. apply in_rx in HF as (ks & Hk & -> & ->).
    destruct (Hs ks Hk) as (ks' & Hk' & E1 & E2).
    exists (fun x => rmx sz' x ks'). split; auto. apply in_rx. exists ks'. split; auto.
Qed.

Lemma same_set_rx sz vec : Permutation (locs (ti (ds sz ++ vec))) (locs (to_ (ds sz ++ vec))) -> same_set (rx sz) vec.
Proof. intros H o. rewrite il_rx, ol_rx. split; apply Permutation_in; auto. now symmetry. Qed.

(** ** rdft/rank-geq2.c and apply_before of rdft/indirect.c *)
Lemma rrank2_correct nd nd2 ip sz1 sz2 vec f1 f2 : nnegd (ds sz1) -> nnegd (ds sz2) ->
  Correct nd ip (rx sz2) (vec ++ ds sz1) f1 ->
  Correct nd2 true (rx (rip sz1 INPLACE_OS))
    (tensor_copy_inplace vec INPLACE_OS ++ tensor_copy_inplace (ds sz2) INPLACE_OS) f2 ->
  Correct nd ip (rx (sz1 ++ sz2)) vec (fun nx I O m => f2 nx O O (f1 nx I O m)).
Proof.
  intros N1 N2 C1 C2.
  refine (Correct_after nd nd2 ip _ _ _ _ _ _ f1 f2 _ _ _ _ _ _ _ C1 C2).
  - intros H. now apply nnegd_app.
  - intros H. apply nnegd_app. split; now apply copy_inplace_nneg.
  - rewrite !il_rx, ds_app, !ti_app. apply locs_perm. rewrite <- app_assoc, (app_assoc (ti (ds sz2))). apply Permutation_app_comm.
  - rewrite !ol_rx, ds_app, !to_app. apply locs_perm. rewrite <- app_assoc, (app_assoc (to_ (ds sz2))). apply Permutation_app_comm.
  - rewrite il_rx, ol_rx, ds_rip, ds_app, !ti_app, !to_app, !ti_ipo. apply locs_perm. rewrite <- app_assoc. apply Permutation_app_head, Permutation_app_comm.
  - rewrite !ol_rx, ds_rip, ds_app, !to_app, !to_ipo. apply locs_perm. rewrite <- app_assoc. apply Permutation_app_head, Permutation_app_comm.
  - intros I O m m1 m2 V1 V2. rewrite vals_rx in *. intros a b Hab ks Hks. rewrite ds_app in *.
    apply in_box_app in Hks as (k1 & k2 & -> & B1 & B2).
    pose proof (in_box_len _ _ B1) as L1. unfold ds in L1. rewrite map_length in L1.
    rewrite rmx_app, ooff_app by (auto; unfold ds; now rewrite map_length).
    assert (A2 : In (b + ooff (ds sz2) k2, b + ooff (ds sz2) k2) (offs (tensor_copy_inplace vec INPLACE_OS ++ tensor_copy_inplace (ds sz2) INPLACE_OS))).
    { apply offs_app_in; [now apply offs_ip_os with (a := a)|]. apply offs_ip_os with (a := ioff (ds sz2) k2). now apply in_offs_box. }
    rewrite ds_rip in V2. specialize (V2 _ _ A2 k1 (proj2 (box_ip _ _ _) B1)). rewrite ooff_ip in V2.
    replace (b + (ooff (ds sz1) k1 + ooff (ds sz2) k2)) with (b + ooff (ds sz2) k2 + ooff (ds sz1) k1) by ring. rewrite V2.
    apply rmx_same; [symmetry; apply rip_kn|unfold rip; now rewrite map_length|].
    intros js Hjs. rewrite ds_rip in *. rewrite box_ip in Hjs. rewrite ioff_ip.
    specialize (V1 _ _ (offs_app_in _ _ _ _ _ _ Hab (in_offs_box _ _ Hjs)) k2 B2).
    replace (b + ooff (ds sz2) k2 + ooff (ds sz1) js) with (b + ooff (ds sz1) js + ooff (ds sz2) k2) by ring. rewrite V1.
    f_equal. apply functional_extensionality. intros o. do 2 f_equal. ring.
Qed.

(** ** apply_after of rdft/indirect.c *)
Lemma rafter_correct nd nd1 ip sz vec fc f : ip = true \/ nd = false -> nnegd (ds sz) ->
  Correct nd ip xcopy (vec ++ ds sz) fc ->
  Correct nd1 true (rx (rip sz INPLACE_IS)) (tensor_copy_inplace vec INPLACE_IS) f ->
  Correct nd ip (rx sz) vec (fun nx I O m => fc nx I O (f nx I I m)).
Proof.
  intros Hd N C2 C1. rewrite <- rx_nil in C2.
  refine (Correct_before nd nd1 ip _ _ _ _ _ _ f fc Hd _ _ _ _ _ _ _ C1 C2).
  - intros H. now apply copy_inplace_nneg.
  - intros H. now apply nnegd_app.
  - rewrite !il_rx, ds_rip, !ti_app, !ti_ipi. reflexivity.
  - rewrite il_rx, ol_rx, ds_rip, !ti_app, !to_app, !to_ipi. reflexivity.
  - rewrite !il_rx, !ti_app. apply locs_perm. cbn [ti ds map app]. apply Permutation_app_comm.
  - rewrite !ol_rx, !to_app. apply locs_perm. cbn [to_ ds map app]. apply Permutation_app_comm.
  - intros I O m m1 m2 V1 V2. rewrite vals_rx in *. intros a b Hab ks Hks.
    pose proof (V2 _ _ (offs_app_in _ _ _ _ _ _ Hab (in_offs_box _ _ Hks)) [] Logic.I) as E. cbn [ds map ooff rmx] in E.
    rewrite !Z.add_0_r in E. rewrite E. rewrite ds_rip in V1.
    specialize (V1 _ _ (offs_ip_is _ _ _ Hab) ks (proj2 (box_ip _ _ _) Hks)). rewrite ooff_ipi in V1. rewrite V1.
    pose proof (in_box_len _ _ Hks) as L.
    apply rmx_same; [symmetry; apply rip_kn|unfold rip; rewrite map_length; unfold ds in L; now rewrite map_length in L|].
    intros js _. now rewrite ds_rip, ioff_ipi.
Qed.

(** ** rdft/vrank-geq1.c *)
Lemma rvrank_correct nd ip sz vec i d f : nth_error vec i = Some d -> (ip = true -> dis d = dos d) ->
  Correct nd ip (rx sz) (tensor_copy_except vec i) f ->
  (ip = true -> Permutation (locs (ti (ds sz ++ tensor_copy_except vec i))) (locs (to_ (ds sz ++ tensor_copy_except vec i)))) ->
  Correct nd ip (rx sz) vec (vloop (dn d) (dis d) (dos d) f).
Proof.
  intros E H C S. eapply Correct_vperm; [apply copy_except_perm; exact E|]. destruct d as [n s u]. cbn [dn dis dos] in *.
  apply Correct_loop; [apply rx_wf| |exact C]. intros Ei. split; [auto|]. apply same_set_rx. auto.
Qed.

(** ** one-dimensional problems *)
Definition x1 (kd : rkind) (n is os : Z) : list rdim := [(kd, mkdim n is os)].
Lemma x1_rmx kd n is os x k : rmx (x1 kd n is os) x [k] = Rsum n (fun j => x (j * is)%Z * rk kd n j k)%R.
Proof. cbn [rmx x1 dn dis]. apply Rsum_ext. intros j _. do 2 f_equal. ring. Qed.
Lemma vals_rx1 kd n is os vec I O m m' : vals (rx (x1 kd n is os)) vec I O m m' <->
  (forall a b, In (a, b) (offs vec) -> forall k, 0 <= k < n ->
    m' (sh O (b + k * os)) = Rsum n (fun j => m (sh I (a + j * is)%Z) * rk kd n j k)%R).
Proof.
  rewrite vals_rx. split.
  - intros H a b Hab k Hk. specialize (H a b Hab [k]). cbn [ds x1 map snd in_box ooff dn dos] in H. rewrite Z.add_0_r in H.
    rewrite H by auto. now rewrite x1_rmx.
  - intros H a b Hab ks Hks. destruct ks as [|k [|? ?]]; cbn in Hks; try tauto. cbn [ds x1 map snd ooff dos]. rewrite Z.add_0_r.
    rewrite (H a b Hab) by tauto. now rewrite x1_rmx.
Qed.
Definition inj1 (n s : Z) : Prop := forall i j, 0 <= i < n -> 0 <= j < n -> i * s = j * s -> i = j.
Lemma inj1_NoDup n s : NoDup (locs [(n, s)]) <-> inj1 n s.
Proof.
  cbn [locs]. rewrite lplus_0_r. split.
  - intros H i j Hi Hj E. eapply NoDup_dimlocs; eauto.
  - intros H. unfold dimlocs. cbn [fst snd]. apply NoDup_map_inj; [|apply NoDup_zr]. intros i j Hi Hj. apply in_zr in Hi, Hj. now apply H.
Qed.
Lemma inj1_le n n' s : n' <= n -> inj1 n s -> inj1 n' s.
Proof. intros H K i j Hi Hj. apply K; lia. Qed.
Lemma inj1_1 n : inj1 n 1. Proof. intros i j _ _. lia. Qed.
Lemma InP_x1 P n s l : InP P (locs [(n, s)]) l <-> exists k, 0 <= k < n /\ l = sh P (k * s).
Proof.
  unfold InP. cbn [locs]. rewrite lplus_0_r. split.
  - intros (o & Ho & ->). apply in_dimlocs in Ho as (k & Hk & ->). eauto.
  - intros (k & Hk & ->). exists (k * s). split; auto. apply in_dimlocs. eauto.
Qed.
Lemma il_x1 kd n is os : il (rx (x1 kd n is os)) [] = locs [(n, is)].
Proof. rewrite il_rx. reflexivity. Qed.
Lemma ol_x1 kd n is os : ol (rx (x1 kd n is os)) [] = locs [(n, os)].
Proof. rewrite ol_rx. reflexivity. Qed.
