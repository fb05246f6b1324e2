(** * Correctness of the rank-0 solvers of rdft/rank0.c and of the looping solver (proofs). *)
From Coq Require Import Reals ZArith List Lia Bool Permutation.
From Verif Require Import NumTheory Cplx Spec Base PrimesModel TensorModel Offs TensorProofs XForm XKern XSeq
  CopyModel CopyProofs CopyBounds TransProofs Rank0Model.
Import ListNotations.
Open Scope Z_scope.

Lemma fill_loop_spec dims : forall vl d vl' d', fill_loop vl d dims = Some (vl', d') ->
  Permutation (offs (dims ++ mkdim vl 1 1 :: d)) (offs (mkdim vl' 1 1 :: d')) /\
  (0 < vl -> posd d -> posd dims -> 0 < vl' /\ posd d').
Proof.
  induction dims as [|x t IH]; intros vl d vl' d' H; cbn [fill_loop] in H.
  - injection H as <- <-. split; [reflexivity|auto].
  - destruct ((vl =? 1) && (dis x =? 1) && (dos x =? 1)) eqn:E.
    + apply andb_true_iff in E as [E E3]. apply andb_true_iff in E as [E1 E2].
      apply Z.eqb_eq in E1, E2, E3. destruct (IH _ _ _ _ H) as [P Q]. split.
      * rewrite <- P. transitivity (offs (mkdim vl 1 1 :: x :: t ++ d)).
        { apply offs_perm. cbn [app]. etransitivity; [apply perm_skip, Permutation_sym, Permutation_middle|]. apply perm_swap. }
        rewrite offs_1 by auto. destruct x as [n s u]. cbn in E2, E3. subst. cbn [dn].
        apply offs_perm. apply Permutation_middle.
      * intros H1 H2 H3. inversion H3; subst. apply Q; auto.
    + destruct (Nat.eqb _ _); [discriminate|]. destruct (IH _ _ _ _ H) as [P Q]. split.
      * rewrite <- P. apply offs_perm. cbn [app].
        transitivity ((t ++ mkdim vl 1 1 :: d) ++ [x]); [apply Permutation_cons_append|rewrite <- app_assoc; reflexivity].
      * intros H1 H2 H3. inversion H3; subst. apply Q; auto. apply Forall_app. split; auto.
Qed.

Lemma fill_iodim_spec vec vl d : fill_iodim vec = Some (vl, d) -> posd vec ->
  Permutation (offs vec) (offs (d ++ [mkdim vl 1 1])) /\ 0 < vl /\ posd d.
Proof.
  intros H Hp. destruct (fill_loop_spec _ _ _ _ _ H) as [P Q]. destruct Q as [Q1 Q2]; auto; [lia|constructor|].
  split; auto. transitivity (offs (mkdim 1 1 1 :: vec)); [now rewrite offs_1|].
  etransitivity; [apply offs_perm, (Permutation_app_comm [_] vec)|]. rewrite P. apply offs_perm, (Permutation_app_comm [_] d).
Qed.

Lemma copy_nd_correct nd vl (cp : cpy2d_func) d : nnegd d ->
  (forall n0 is0 os0 n1 is1 os1, 0 <= n0 -> 0 <= n1 ->
     Correct nd false xcopy [mkdim n0 is0 os0; mkdim n1 is1 os1; mkdim vl 1 1] (cp n0 is0 os0 n1 is1 os1 vl)) ->
  (2 <= length d)%nat -> Correct nd false xcopy (d ++ [mkdim vl 1 1]) (copy_nd d vl cp).
Proof.
  intros Hp Hc. induction d as [|d0 t IH]; intros HL; [cbn in HL; lia|].
  destruct t as [|d1 t]; [cbn in HL; lia|]. inversion Hp; subst. destruct t as [|d2 t].
  - inversion H2; subst. cbn. destruct d0, d1. cbn in *. now apply Hc.
  - change (copy_nd (d0 :: d1 :: d2 :: t) vl cp) with (vloop (dn d0) (dis d0) (dos d0) (copy_nd (d1 :: d2 :: t) vl cp)).
    destruct d0 as [n s u]. apply Correct_vloop_copy. apply IH; auto. cbn. lia.
Qed.

Lemma transposep_same vl d : transposep d = true ->
  Permutation (locs (ti (d ++ [mkdim vl 1 1]))) (locs (to_ (d ++ [mkdim vl 1 1]))).
Proof.
  induction d as [|a t IH]; intros H; [discriminate|]. destruct t as [|b t]; [discriminate|].
  destruct t as [|c t].
  - cbn in H. apply andb_true_iff in H as [H E3]. apply andb_true_iff in H as [E1 E2].
    apply Z.eqb_eq in E1, E2, E3. apply locs_perm. cbn. rewrite E1, E2, E3. apply perm_swap.
  - change (transposep (a :: b :: c :: t)) with ((dis a =? dos a) && transposep (b :: c :: t)) in H.
    apply andb_true_iff in H as [E H]. apply Z.eqb_eq in E. specialize (IH H).
    change (locs (ti ((a :: b :: c :: t) ++ [mkdim vl 1 1]))) with
      (lplus (dimlocs (dn a, dis a)) (locs (ti ((b :: c :: t) ++ [mkdim vl 1 1])))).
    change (locs (to_ ((a :: b :: c :: t) ++ [mkdim vl 1 1]))) with
      (lplus (dimlocs (dn a, dos a)) (locs (to_ ((b :: c :: t) ++ [mkdim vl 1 1])))).
    rewrite E. now apply lplus_perm_r.
Qed.

Lemma same_set_locs vec : Permutation (locs (ti vec)) (locs (to_ vec)) -> same_set xcopy vec.
Proof.
  intros P o. rewrite il_xcopy, ol_xcopy. split; apply Permutation_in; [exact P|now symmetry].
Qed.

Lemma transpose_nd_correct nd vl (tr : transpose_func) d : nnegd d ->
  (forall n s0 s1, 0 <= n -> Correct nd true xcopy [mkdim n s0 s1; mkdim n s1 s0; mkdim vl 1 1] (fun nx I _ m => tr nx I n s0 s1 vl m)) ->
  transposep d = true -> Correct nd true xcopy (d ++ [mkdim vl 1 1]) (transpose_nd d vl tr).
Proof.
  intros Hp Hc. induction d as [|a t IH]; intros H; [discriminate|]. destruct t as [|b t]; [discriminate|].
  inversion Hp; subst.
  destruct t as [|c t].
  - cbn in H. apply andb_true_iff in H as [H E3]. apply andb_true_iff in H as [E1 E2].
    apply Z.eqb_eq in E1, E2, E3. destruct a as [n s u], b as [n' s' u']. cbn in *. subst. now apply Hc.
  - change (transposep (a :: b :: c :: t)) with ((dis a =? dos a) && transposep (b :: c :: t)) in H.
    apply andb_true_iff in H as [E H]. apply Z.eqb_eq in E.
    pose proof (IH H3 H) as C. destruct a as [n s u]. cbn in E. subst u.
    pose proof (Correct_loop nd true xcopy _ n s s _ xcopy_wf (fun _ => Logic.conj eq_refl (same_set_locs _ (transposep_same vl _ H))) C) as C2.
    cbn [app] in *.
    intros nx I O m HW. pose proof (wf_x _ _ _ _ _ _ HW) as [-> _].
    exact (C2 nx O O m HW).
Qed.

Lemma memcpy_loop_correct nd vl d : (0 < length d)%nat ->
  Correct nd false xcopy (d ++ [mkdim vl 1 1]) (memcpy_loop d vl).
Proof.
  induction d as [|d0 t IH]; intros HL; [cbn in HL; lia|]. destruct d0 as [n s u].
  destruct t as [|d1 t].
  - cbn. exact (mv_loop nd n s u vl).
  - change (memcpy_loop (mkdim n s u :: d1 :: t) vl) with (vloop n s u (memcpy_loop (d1 :: t) vl)).
    apply Correct_vloop_copy. apply IH. cbn. lia.
Qed.

Lemma tilesz_vl vl k : 1 <= vl -> 1 <= k -> 4 < compute_tilesz vl k -> vl <= 512.
Proof.
  intros Hv Hk Ht. destruct (compute_tilesz_spec vl k Hv Hk) as (A & B & _). unfold CACHESIZE, sizeof_R in B.
  set (t := compute_tilesz vl k) in *. clearbody t.
  assert (25 <= t * t) by nia. assert (25 * vl <= t * t * vl) by nia.
  assert (t * t * vl * 8 <= t * t * vl * 8 * k) by nia. lia.
Qed.

Theorem rank0_solver_correct nd ip vl d f : rank0_solver ip vl d f -> 0 < vl -> posd d ->
  Correct nd ip xcopy (d ++ [mkdim vl 1 1]) f.
Proof.
  intros H Hv Hd. apply posd_nneg in Hd. destruct H; subst.
  - exact (mv_correct nd false vl).
  - now apply memcpy_loop_correct.
  - eapply Correct_sim; [apply xsim_refl| |intros _|apply (cpy1d_correct nd vl 1 1 1); lia].
    + cbn [app]. symmetry. etransitivity; [apply offs_perm, perm_swap|]. now rewrite offs_1.
    + repeat constructor; cbn; lia.
  - inversion Hd; subst. destruct d0. cbn in *. apply cpy1d_correct; auto; lia.
  - apply copy_nd_correct; auto. intros. apply cpy2d_ci_correct. lia.
  - apply copy_nd_correct; auto. intros. apply cpy2d_co_correct. lia.
  - apply copy_nd_correct; auto. intros. apply cpy2d_tiled_correct; auto. split; [lia|]. apply (tilesz_vl vl 1); lia.
  - apply copy_nd_correct; auto. intros. apply cpy2d_tiledbuf_correct; auto. split; [lia|]. apply (tilesz_vl vl 1); lia.
  - apply transpose_nd_correct; auto. intros. now apply transpose_correct.
  - apply transpose_nd_correct; auto. intros. apply transpose_tiled_correct; auto. split; [lia|]. apply (tilesz_vl vl 2); lia.
  - apply transpose_nd_correct; auto. intros. apply transpose_tiledbuf_correct; auto. split; [lia|]. apply (tilesz_vl vl 2); lia.
Qed.

Lemma copy_except_perm (vec : list iodim) i d : nth_error vec i = Some d -> Permutation vec (d :: tensor_copy_except vec i).
Proof.
  intros H. apply nth_error_split in H as (l1 & l2 & -> & <-). unfold tensor_copy_except.
  rewrite firstn_app, Nat.sub_diag, firstn_all. cbn [firstn]. rewrite app_nil_r.
  rewrite skipn_app, (skipn_all2 l1) by lia.
  replace (S (length l1) - length l1)%nat with 1%nat by lia. cbn [skipn app].
  apply Permutation_sym, Permutation_middle.
Qed.

Lemma nop_correct nd vec : tensor_inplace_strides vec = true -> Correct nd true xcopy vec (fun _ _ _ m => m).
Proof.
  intros H nx I O m HW. pose proof (wf_x _ _ _ _ _ _ HW) as [-> _]. split.
  - apply vals_xcopy. intros ks Hk. f_equal. f_equal. symmetry. clear Hk HW. revert ks.
    unfold tensor_inplace_strides in H. induction vec as [|d t IH]; intros ks; [destruct ks; reflexivity|].
    cbn in H. apply andb_true_iff in H as [E H]. apply Z.eqb_eq in E. destruct ks as [|k ks]; [reflexivity|].
    cbn. rewrite E. f_equal. now apply IH.
  - intros l _ _ _. reflexivity.
Qed.
