(** * Canonicalisation of real-to-real problems (proof library) *)
From Coq Require Import Reals ZArith List Lia Lra Bool Permutation.
From Verif Require Import NumTheory Cplx Spec SpecR2R Base TensorModel Offs TensorProofs XForm XKern XSeq
  TransProofs Rank0Model Rank0Proofs DftModel RdftModel DftTw DftTw2 DftComp DftSplit RSum RdftX RdftLib.
Import ListNotations.
Open Scope Z_scope.

Lemma rk_triv kd : nontrivial (kd, mkdim 1 0 0) = false -> rk kd 1 0 0 = 1%R.
Proof.
  destruct kd; cbn [nontrivial fst snd dn reodft rkind_eqb negb andb orb Z.ltb Z.compare Pos.compare Pos.compare_cont]; try discriminate; intros _;
    unfold rk; cbn [Z.mul Z.eqb Z.leb Z.ltb Z.compare Z.sub Z.add Z.opp Pos.compare Pos.compare_cont Z.pos_sub Pos.eqb];
    try reflexivity; rewrite ?Rmult_0_r, ?Rmult_0_l; unfold Rdiv; rewrite ?Rmult_0_l, ?cos_0, ?sin_0; try lra.
Qed.
Lemma rk_kind2 kd j k : kd = REDFT00 \/ kd = DHT \/ kd = HC2R -> 0 <= j < 2 -> 0 <= k < 2 -> rk kd 2 j k = rk R2HC 2 j k.
Proof.
  assert (sin (PI * 1) = 0)%R by (rewrite Rmult_1_r; apply sin_PI).
  assert (sin (PI * 0) = 0)%R by (rewrite Rmult_0_r; apply sin_0).
  assert (cos (PI * 0) = 1)%R by (rewrite Rmult_0_r; apply cos_0).
  intros Hkd Hj Hk. assert (Cj : j = 0 \/ j = 1) by lia. assert (Ck : k = 0 \/ k = 1) by lia.
  assert (E0 : forall a, (2 * PI * 0 * a / 2 = PI * 0)%R) by (intros; field).
  assert (E0' : (2 * PI * 1 * 0 / 2 = PI * 0)%R) by field.
  assert (E1 : (2 * PI * 1 * 1 / 2 = PI * 1)%R) by field.
  destruct Hkd as [->|[->| ->]], Cj as [->| ->], Ck as [->| ->]; unfold rk;
    cbv -[cos sin PI IZR Rplus Rmult Rdiv Rinv Ropp Rminus]; rewrite ?E0, ?E0', ?E1; try lra.
Qed.

Lemma exch_perm l : forall x h t, exch x l = (h, t) -> Permutation (x :: l) (h :: t).
Proof.
  induction l as [|y l IH]; intros x h t; cbn [exch].
  - intros E. injection E as <- <-. reflexivity.
  - destruct (0 <? _).
    + destruct (exch y l) as [h' t'] eqn:E. intros F. injection F as <- <-. rewrite (IH _ _ _ E). apply perm_swap.
    + destruct (exch x l) as [h' t'] eqn:E. intros F. injection F as <- <-. rewrite perm_swap, (IH _ _ _ E). apply perm_swap.
Qed.
Lemma exch_sort_perm n : forall l, Permutation l (exch_sort n l).
Proof.
  induction n as [|n IH]; intros l; cbn [exch_sort]; [reflexivity|]. destruct l as [|x l]; [reflexivity|].
  destruct (exch x l) as [h t] eqn:E. rewrite (exch_perm _ _ _ _ E). constructor. apply IH.
Qed.
Lemma ds_kind2 l : ds (map kind2 l) = ds l.
Proof. unfold ds. rewrite map_map. apply map_ext. intros [kd d]. unfold kind2. now destruct (_ && _). Qed.
Lemma nontrivial_1 kd d : 0 < dn d -> nontrivial (kd, d) = false -> dn d = 1 /\ rk kd 1 0 0 = 1%R.
Proof.
  intros H E. pose proof E as E'. unfold nontrivial in E'. cbn [fst snd] in E'. apply orb_false_iff in E' as [E1 E2].
  assert (D : dn d = 1) by lia. split; auto. apply rk_triv. unfold nontrivial. cbn [fst snd dn]. now rewrite E2.
Qed.
Definition rpos_d (sz : list rdim) : Prop := Forall (fun kd => 0 < dn (snd kd)) sz.
Lemma rpos_ds sz : rpos_d sz <-> posd (ds sz).
Proof. unfold rpos_d, posd, ds. rewrite Forall_map. tauto. Qed.
Lemma filter_sim sz : rpos_d sz -> rsim sz (filter nontrivial sz) /\ offs (ds sz) = offs (ds (filter nontrivial sz)).
Proof.
  induction sz as [|[kd d] sz IH]; intros H; [split; [apply rsim_refl|reflexivity]|].
  pose proof (Forall_inv H) as Hd. cbn [snd] in Hd. destruct (IH (Forall_inv_tail H)) as [I1 I2]. cbn [filter].
  destruct (nontrivial (kd, d)) eqn:E.
  - split; [now apply rsim_cons|]. change (offs (d :: ds sz) = offs (d :: ds (filter nontrivial sz))). cbn [offs]. now rewrite I2.
  - destruct (nontrivial_1 _ _ Hd E) as [D K]. split.
    + eapply rsim_trans; [apply rsim_drop1; auto|exact I1].
    + change (offs (d :: ds sz) = offs (ds (filter nontrivial sz))). now rewrite offs_1.
Qed.
Lemma rkind_eqb_eq a b : rkind_eqb a b = true <-> a = b.
Proof. destruct a, b; cbn; split; intros; congruence. Qed.
Lemma kind2_sim sz : rsim sz (map kind2 sz).
Proof.
  induction sz as [|[kd d] sz IH]; [apply rsim_refl|]. cbn [map]. eapply rsim_trans; [apply rsim_cons, IH|].
  unfold kind2 at 2. cbn [fst snd]. destruct (_ && _) eqn:E; [|apply rsim_refl]. apply andb_true_iff in E as [E1 E2]. apply Z.eqb_eq in E1.
  apply rsim_kind. intros j k. rewrite E1. apply rk_kind2. rewrite !orb_true_iff, !rkind_eqb_eq in E2. tauto.
Qed.
Lemma rcompress_perm sz : Permutation (map kind2 (filter nontrivial sz)) (rcompress sz).
Proof. apply Permutation_map, exch_sort_perm. Qed.
Lemma rcompress_sim sz : rpos_d sz -> rsim sz (rcompress sz) /\ Permutation (offs (ds sz)) (offs (ds (rcompress sz))).
Proof.
  intros H. destruct (filter_sim sz H) as [F1 F2]. split.
  - eapply rsim_trans; [exact F1|]. eapply rsim_trans; [apply kind2_sim|]. apply rsim_perm, rcompress_perm.
  - rewrite F2. transitivity (offs (ds (map kind2 (filter nontrivial sz)))); [now rewrite ds_kind2|].
    apply offs_perm. unfold ds. apply Permutation_map, rcompress_perm.
Qed.
Lemma rchild_correct qs nd ip sz vec vec' f : qsort_perm qs -> rpos_d sz -> nnegd vec ->
  tensor_compress_contiguous qs vec = Some vec' ->
  Correct nd ip (rx (rcompress sz)) vec' f -> Correct nd ip (rx sz) vec f.
Proof.
  intros Hq Ps Nv E C. destruct (compress_contiguous_offs _ _ _ Hq Nv E) as [P Q]. destruct (rcompress_sim sz Ps) as [S1 S2].
  eapply Correct_sim; [|exact P| |exact C].
  - now apply xsim_rx.
  - intros _. now apply posd_nneg.
Qed.
Lemma rempty_correct qs nd ip sz vec : tensor_compress_contiguous qs vec = None -> nnegd vec ->
  Correct nd ip (rx sz) vec (fun _ _ _ m => m).
Proof.
  intros H N. apply compress_contiguous_None in H. intros nx I O m HW. split.
  - intros p q Hp. now rewrite tensor_sz_0_offs in Hp.
  - intros l _ _ _. reflexivity.
Qed.

(** ** same_strides is preserved *)
Lemma ss_app a b : same_strides (a ++ b) <-> same_strides a /\ same_strides b.
Proof. apply Forall_app. Qed.
Lemma ss_perm a b : Permutation a b -> same_strides a -> same_strides b.
Proof. unfold same_strides. intros P. now rewrite P. Qed.
Lemma ss_os t k : same_strides (tensor_copy_inplace t k).
Proof. unfold same_strides, tensor_copy_inplace. rewrite Forall_map. apply Forall_forall. intros d _. right. now destruct k. Qed.
Lemma ss_really t : same_strides t -> eqst (really_compress t).
Proof.
  intros H. apply Forall_forall. intros d Hd. apply filter_In in Hd as [Hd E]. unfold same_strides in H. rewrite Forall_forall in H.
  apply negb_true_iff, Z.eqb_neq in E. destruct (H d Hd); [easy|auto].
Qed.
Lemma merge_loop_eqst prev cur rest : eqst [cur] -> eqst rest -> eqst (merge_loop prev cur rest).
Proof.
  revert prev cur. induction rest as [|d rest IH]; intros prev cur Hc Hr; cbn [merge_loop]; auto.
  inversion Hr; subst. destruct (strides_contig prev d).
  - apply IH; auto. constructor; auto.
  - inversion Hc; subst. constructor; auto. apply IH; auto. constructor; auto.
Qed.
Lemma eqst_ss t : eqst t -> same_strides t.
Proof. apply Forall_impl. intros d. auto. Qed.
Lemma ss_compress_contiguous qs t t' : qsort_perm qs -> same_strides t -> tensor_compress_contiguous qs t = Some t' -> same_strides t'.
Proof.
  intros Hq H E. apply eqst_ss. revert E. unfold tensor_compress_contiguous. destruct (tensor_sz t =? 0); [discriminate|].
  pose proof (ss_really _ H) as S.
  destruct (Nat.leb (length (really_compress t)) 1).
  - intros E; injection E as <-. auto.
  - pose proof (Hq compare_by_istride (really_compress t)) as P.
    destruct (qs compare_by_istride (really_compress t)) as [|d rest].
    + intros E; injection E as <-. constructor.
    + intros E; injection E as <-. apply (Permutation_Forall P) in S. inversion S; subst.
      eapply Permutation_Forall; [now apply canonicalize_perm|]. apply merge_loop_eqst; auto. constructor; auto.
Qed.
(** the condition on in-place problems *)
Definition okip (ip : bool) (sz : list rdim) (vec : list iodim) : Prop :=
  ip = true -> Forall (fun kd => reodft (fst kd) = false) sz \/ same_strides (ds sz ++ vec).
Lemma in_rcompress sz kd : In kd (rcompress sz) -> exists kd', In kd' sz /\ nontrivial kd' = true /\ kd = kind2 kd'.
Proof.
  intros H. apply (Permutation_in _ (Permutation_sym (rcompress_perm sz))) in H. apply in_map_iff in H as (kd' & <- & H).
  apply filter_In in H as [H1 H2]. eauto.
Qed.
Lemma rcompress_Forall (P Q : rdim -> Prop) sz : (forall kd, P kd -> nontrivial kd = true -> Q (kind2 kd)) -> Forall P sz -> Forall Q (rcompress sz).
Proof.
  intros H F. rewrite Forall_forall in *. intros kd Hkd. apply in_rcompress in Hkd as (kd' & H1 & H2 & ->). auto.
Qed.
Lemma snd_kind2 kd : snd (kind2 kd) = snd kd.
Proof. unfold kind2. now destruct (_ && _). Qed.
Lemma okip_compress qs ip sz vec vec' : qsort_perm qs -> tensor_compress_contiguous qs vec = Some vec' ->
  okip ip sz vec -> okip ip (rcompress sz) vec'.
Proof.
  intros Hq E H Ei. destruct (H Ei) as [H'|H'].
  - left. eapply rcompress_Forall; [|exact H']. intros [kd d] K _. unfold kind2. cbn [fst] in *. now destruct (_ && _).
  - right. apply ss_app in H' as [H1 H2]. apply ss_app. split; [|eapply ss_compress_contiguous; eauto].
    unfold same_strides, ds in *. rewrite Forall_map in *. eapply rcompress_Forall; [|exact H1].
    intros kd K _. now rewrite snd_kind2.
Qed.
Lemma rcompress_pos sz : rpos_d sz -> rpos_d (rcompress sz).
Proof. apply rcompress_Forall. intros kd H _. now rewrite snd_kind2. Qed.
