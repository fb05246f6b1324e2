(** * Property C24: in-place transposition of non-square matrices, and every other
    plan for a rank-0 real problem *)
From Coq Require Import Reals ZArith List Lia Bool Permutation.
From Verif Require Import NumTheory Cplx Spec Base PrimesModel TensorModel Offs TensorProofs XForm XKern XSeq
  CopyModel CopyProofs CopyBounds TransProofs Rank0Model Rank0Proofs Rank0Trans Toms513 Rank0Plans PropCopy.
Import ListNotations.
Open Scope Z_scope.

(** ** Specification

    The array at [I] holds an n x m matrix, row-major and without gaps, of
    vl-vectors of reals.  Afterwards it holds the m x n transpose in the same
    format; no other location of an existing array (block < nx) has changed. *)
Definition matrix_transposed (nx : nat) (I : loc) (n m vl : Z) (mm mm' : mem) : Prop :=
  (forall i j v, 0 <= i < n -> 0 <= j < m -> 0 <= v < vl ->
     mm' (sh I ((j * n + i) * vl + v)) = mm (sh I ((i * m + j) * vl + v))) /\
  (forall l, (fst l < nx)%nat -> (forall x, 0 <= x < n * m * vl -> l <> sh I x) -> mm' l = mm l).

Lemma Correct_matrix nx I n m vl mm f : (fst I < nx)%nat -> 0 < n -> 0 < m -> 0 < vl ->
  Correct true true xcopy (Tr n m vl) f -> matrix_transposed nx I n m vl mm (f nx I I mm).
Proof.
  intros HI Hn Hm Hv HC. destruct (Tr_use _ _ _ _ _ nx I mm HC HI Hn Hm Hv) as [V F]. split.
  - intros i j v Hi Hj Hv'. specialize (V i j v Hi Hj Hv').
    replace ((j * n + i) * vl + v) with (j * (n * vl) + i * vl + v) by ring.
    replace ((i * m + j) * vl + v) with (i * (m * vl) + j * vl + v) by ring. exact V.
  - intros l Hl H. apply F; auto. intros x Hx. apply H. rewrite <- Z.mul_assoc. exact Hx.
Qed.

(** the cycle-following algorithm: terminates, and transposes *)
Theorem C24_toms513 : forall nx I n m vl mm, (fst I < nx)%nat -> 2 <= n -> 2 <= m -> 1 <= vl ->
  exists mm', transpose_toms513 I (nx, 0) n m vl (Z.quot (n + m) 2) mm = Some mm' /\
              matrix_transposed nx I n m vl mm mm' /\
              apply_toms513 n m vl nx I I mm = mm'.
Proof.
  intros nx I n m vl mm HI Hn Hm Hv.
  destruct (toms513_ok n m Hn Hm I (nx, 0) vl ltac:(cbn; lia) ltac:(lia) (Z.quot (n + m) 2) mm) as (m' & E & _).
  exists m'. split; auto. assert (E' : apply_toms513 n m vl nx I I mm = m') by (unfold apply_toms513; now rewrite E).
  split; auto. rewrite <- E'. apply Correct_matrix; auto; try lia. apply apply_toms513_correct; lia.
Qed.
Print Assumptions C24_toms513.

(** ... for any size of the [move] array, i.e. whatever memory is available for it *)
Theorem C24_toms513_any_move_size : forall nx I n m vl ms mm, (fst I < nx)%nat -> 2 <= n -> 2 <= m -> 1 <= vl ->
  exists mm', transpose_toms513 I (nx, 0) n m vl ms mm = Some mm' /\ matrix_transposed nx I n m vl mm mm'.
Proof.
  intros nx I n m vl ms mm HI Hn Hm Hv.
  destruct (toms513_ok n m Hn Hm I (nx, 0) vl ltac:(cbn; lia) ltac:(lia) ms mm) as (m' & E & V & F).
  exists m'. split; auto. split.
  - intros i j v Hi Hj Hv'. specialize (V (j * n + i) v (qr_rg n m Hn Hm j i Hj Hi) Hv'). rewrite pi_spec in V by lia.
    unfold vl_ in V. rewrite !sh_sh in V.
    replace ((j * n + i) * vl + v) with (vl * (j * n + i) + v) by ring. rewrite V. f_equal. f_equal. ring.
  - intros l Hl H. apply F; [cbn; lia|]. intros y v Hy Hv'. rewrite sh_sh. apply H. unfold rg in Hy.
    assert (0 <= vl * y) by nia. assert (vl * (y + 1) <= vl * (m * n)) by nia. lia.
Qed.
Print Assumptions C24_toms513_any_move_size.

(** the divide-by-gcd algorithm, with any plans for its three sub-copies *)
Theorem C24_gcd : forall qs nx I n m d vl c1 c2 c3 mm, qsort_perm qs ->
  (fst I < nx)%nat -> 0 < n -> 0 < m -> 0 < d -> 0 < vl ->
  (1 < n -> rchild0 qs false [mkdim n (d * m * vl) (m * vl); mkdim d (m * vl) (n * m * vl); mkdim (m * vl) 1 1] c1) ->
  rchild0 qs true [mkdim d (d * n * m * vl) (n * m * vl); mkdim d (n * m * vl) (d * n * m * vl); mkdim (n * m * vl) 1 1] c2 ->
  (1 < m -> rchild0 qs false [mkdim (d * n) (m * vl) vl; mkdim m vl (d * n * vl); mkdim vl 1 1] c3) ->
  matrix_transposed nx I (d * n) (d * m) vl mm (apply_gcd n m d vl c1 c2 c3 nx I I mm).
Proof.
  intros qs nx I n m d vl c1 c2 c3 mm Hq HI Hn Hm Hd Hv H1 H2 H3. destruct (rank0_correct qs Hq) as [_ HR].
  assert (0 <= m * vl) by nia. assert (0 <= n * m * vl) by (rewrite <- Z.mul_assoc; nia).
  apply Correct_matrix; auto; try nia. apply apply_gcd_correct; auto.
  - intros Hx. apply (HR _ _ _ (H1 Hx)). repeat constructor; cbn; lia.
  - apply (HR _ _ _ H2). repeat constructor; cbn; lia.
  - intros Hx. apply (HR _ _ _ (H3 Hx)). repeat constructor; cbn; nia.
Qed.
Print Assumptions C24_gcd.

(** the cut algorithm, with any plans for its three sub-copies *)
Theorem C24_cut : forall qs nx I n m nc mc vl c1 c2 c3 mm, qsort_perm qs ->
  (fst I < nx)%nat -> 0 < n -> 0 < m -> 0 < vl -> choose_cut n m vl = (nc, mc) ->
  (mc < m -> rchild0 qs false [mkdim nc (m * vl) vl; mkdim (m - mc) vl (nc * vl); mkdim vl 1 1] c1) ->
  rchild0 qs true [mkdim nc (mc * vl) vl; mkdim mc vl (nc * vl); mkdim vl 1 1] c2 ->
  (nc < n -> rchild0 qs false [mkdim (n - nc) (m * vl) vl; mkdim m vl (n * vl); mkdim vl 1 1] c3) ->
  matrix_transposed nx I n m vl mm (apply_cut n m nc mc vl c1 c2 c3 nx I I mm).
Proof.
  intros qs nx I n m nc mc vl c1 c2 c3 mm Hq HI Hn Hm Hv Hc H1 H2 H3. destruct (rank0_correct qs Hq) as [_ HR].
  destruct (choose_cut_ok _ _ _ _ _ Hn Hm Hc) as [Bn Bm].
  apply Correct_matrix; auto; try nia. apply apply_cut_correct; auto.
  - intros Hx. apply (HR _ _ _ (H1 Hx)). repeat constructor; cbn; lia.
  - apply (HR _ _ _ H2). repeat constructor; cbn; lia.
  - intros Hx. apply (HR _ _ _ (H3 Hx)). repeat constructor; cbn; nia.
Qed.
Print Assumptions C24_cut.

(** Every plan the planner can return for a copy problem ([rchild0]: what a caller
    passes to the problem constructor), in place or not, copies; in place this
    includes all the transpositions above and their combinations. *)
Record inplace_args (nx : nat) (t : list iodim) (I : loc) : Prop := {
  ia_I : (fst I < nx)%nat;
  ia_n : Forall (fun d => 0 <= dn d) t;
  ia_in : forall ks js, in_box t ks -> in_box t js -> ioff t ks = ioff t js -> ks = js;
  ia_out : forall ks js, in_box t ks -> in_box t js -> ooff t ks = ooff t js -> ks = js
}.
Theorem C24_any_copy_plan : forall qs nx t I O m f, qsort_perm qs ->
  (rchild0 qs false t f -> copy_args nx t I O -> copies nx t I O m (f nx I O m)) /\
  (rchild0 qs true t f -> inplace_args nx t I -> copies nx t I I m (f nx I I m)).
Proof.
  intros qs nx t I O m f Hq. destruct (rank0_correct qs Hq) as [_ HR]. split.
  - intros HP HA. apply Correct_copies; auto. apply (HR _ _ _ HP), HA.
  - intros HP [A1 A2 A3 A4]. destruct (HR _ _ _ HP A2) as [HC HS].
    destruct (HC nx I I m) as [V F].
    { constructor; auto.
      - rewrite il_xcopy. now apply inj_NoDup_i.
      - rewrite ol_xcopy. now apply inj_NoDup_o.
      - split; auto. apply same_set_locs. auto. }
    rewrite vals_xcopy in V. split; auto. intros l Hl Hn. apply F; auto. rewrite ol_xcopy.
    intros (o & Ho & ->). apply in_olocs in Ho as (ks & Hk & ->). exact (Hn ks Hk eq_refl).
Qed.
Print Assumptions C24_any_copy_plan.

(** ** Concrete cases: a 4 x 6 matrix of pairs.  Each algorithm is applicable, its
    children are planned by concrete solvers, and the whole is a plan for the
    in-place problem. *)
Definition ex46 : list iodim := [mkdim 4 12 2; mkdim 6 2 8; mkdim 2 1 1].
Lemma ex46_canon : tensor_compress_contiguous isort ex46 = Some ex46.
Proof. reflexivity. Qed.
Example C24_case_toms : rchild0 isort true ex46 (apply_toms513 4 6 2).
Proof.
  eapply RC_plan; [reflexivity|exact ex46_canon|].
  apply (RP_toms isort ex46 (mkdim 4 12 2) (mkdim 6 2 8) 2 1); [|discriminate|reflexivity].
  apply (TD3 ex46 _ _ (mkdim 2 1 1)); reflexivity.
Qed.
Example C24_case_gcd : exists c1 c2 c3, rchild0 isort true ex46 (apply_gcd 2 3 2 2 c1 c2 c3).
Proof.
  do 3 eexists. eapply RC_plan; [reflexivity|exact ex46_canon|].
  eapply (RP_gcd isort ex46 (mkdim 4 12 2) (mkdim 6 2 8) 2 1 2);
    [apply (TD3 ex46 _ _ (mkdim 2 1 1)); reflexivity|discriminate|reflexivity|reflexivity|lia|reflexivity|reflexivity| | |].
  - intros _. eapply RC_plan; [discriminate|reflexivity|]. eapply RP_rank0; [reflexivity|]. apply R0_iter; [reflexivity|cbn; lia].
  - eapply RC_plan; [reflexivity|reflexivity|]. eapply RP_rank0; [reflexivity|]. apply R0_ip_sq; [reflexivity|cbn; lia|reflexivity].
  - intros _. eapply RC_plan; [discriminate|reflexivity|]. eapply RP_rank0; [reflexivity|]. apply R0_tiledbuf; [reflexivity|cbn; lia|reflexivity].
Qed.
Example C24_case_cut : exists c1 c2 c3, rchild0 isort true ex46 (apply_cut 4 6 4 4 2 c1 c2 c3).
Proof.
  do 3 eexists. eapply RC_plan; [reflexivity|exact ex46_canon|].
  eapply (RP_cut isort ex46 (mkdim 4 12 2) (mkdim 6 2 8) 2 1 4 4);
    [apply (TD3 ex46 _ _ (mkdim 2 1 1)); reflexivity|discriminate|reflexivity|reflexivity|reflexivity|reflexivity| | |].
  - intros _. eapply RC_plan; [discriminate|reflexivity|]. eapply RP_rank0; [reflexivity|]. apply R0_iter; [reflexivity|cbn; lia].
  - eapply RC_plan; [reflexivity|reflexivity|]. eapply RP_rank0; [reflexivity|]. apply R0_ip_sq; [reflexivity|cbn; lia|reflexivity].
  - intros Hlt. exfalso. lia.
  Unshelve. exact (fun _ _ _ m => m).
Qed.
Example C24_case_args : inplace_args 1 ex46 (0%nat, 3).
Proof.
  constructor; [cbn; lia|repeat constructor; cbn; lia| |].
  - intros ks js Hk Hj. destruct ks as [|a [|b [|c [|]]]]; cbn in Hk; try tauto.
    destruct js as [|a' [|b' [|c' [|]]]]; cbn in Hj; try tauto. cbn. intros E.
    assert (a = a' /\ b = b' /\ c = c') as (-> & -> & ->) by lia. reflexivity.
  - intros ks js Hk Hj. destruct ks as [|a [|b [|c [|]]]]; cbn in Hk; try tauto.
    destruct js as [|a' [|b' [|c' [|]]]]; cbn in Hj; try tauto. cbn. intros E.
    assert (a = a' /\ b = b' /\ c = c') as (-> & -> & ->) by lia. reflexivity.
Qed.
