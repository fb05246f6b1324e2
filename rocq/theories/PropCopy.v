(** * Properties C22, C23: the copy kernels and the in-place square transposes *)
From Coq Require Import Reals ZArith List Lia Bool Permutation.
From Verif Require Import NumTheory Cplx Spec Base PrimesModel TensorModel Offs TensorProofs XForm XKern CopyModel CopyProofs CopyBounds TransProofs.
Import ListNotations.
Open Scope Z_scope.

(** ** Specification (independent of the model)

    [t] describes a copy from [I] to [O]: the element of multi-index [ks] is
    read at offset [ioff t ks] and written at offset [ooff t ks].  [nx] is the
    first block that is not a user array (blocks [nx], [nx+1].. are the
    kernels' own stack buffers). *)
Record copy_args (nx : nat) (t : list iodim) (I O : loc) : Prop := {
  ca_I : (fst I < nx)%nat;
  ca_O : (fst O < nx)%nat;
  ca_n : Forall (fun d => 0 <= dn d) t;
  ca_in : forall ks js, in_box t ks -> in_box t js -> ioff t ks = ioff t js -> ks = js;
  ca_out : forall ks js, in_box t ks -> in_box t js -> ooff t ks = ooff t js -> ks = js;
  ca_disj : forall ks js, in_box t ks -> in_box t js -> sh I (ioff t ks) <> sh O (ooff t js)
}.
Definition copies (nx : nat) (t : list iodim) (I O : loc) (m m' : mem) : Prop :=
  (forall ks, in_box t ks -> m' (sh O (ooff t ks)) = m (sh I (ioff t ks))) /\
  (forall l, (fst l < nx)%nat -> (forall ks, in_box t ks -> l <> sh O (ooff t ks)) -> m' l = m l).

Lemma Correct_copies nx t I O m f : Correct true false xcopy t f -> copy_args nx t I O -> copies nx t I O m (f nx I O m).
Proof.
  intros HC [A1 A2 A3 A4 A5 A6]. destruct (HC nx I O m) as [V F].
  { constructor; auto.
    - rewrite il_xcopy. now apply inj_NoDup_i.
    - rewrite ol_xcopy. now apply inj_NoDup_o.
    - intros l (o & Ho & ->) (o' & Ho' & E). rewrite il_xcopy in Ho. rewrite ol_xcopy in Ho'.
      apply in_ilocs in Ho as (ks & Hk & ->). apply in_olocs in Ho' as (js & Hj & ->). exact (A6 ks js Hk Hj E). }
  rewrite vals_xcopy in V. split; auto. intros l Hl Hn. apply F; auto. rewrite ol_xcopy.
  intros (o & Ho & ->). apply in_olocs in Ho as (ks & Hk & ->). exact (Hn ks Hk eq_refl).
Qed.

Theorem C22_cpy1d : forall nx n is os vl I O m, 0 <= n -> 0 <= vl ->
  let t := [mkdim n is os; mkdim vl 1 1] in
  copy_args nx t I O -> copies nx t I O m (cpy1d n is os vl nx I O m).
Proof. intros. apply Correct_copies; auto. now apply cpy1d_correct. Qed.
Print Assumptions C22_cpy1d.

Theorem C22_cpy2d : forall nx n0 is0 os0 n1 is1 os1 vl I O m, 0 <= vl ->
  let t := [mkdim n0 is0 os0; mkdim n1 is1 os1; mkdim vl 1 1] in
  copy_args nx t I O ->
  copies nx t I O m (cpy2d n0 is0 os0 n1 is1 os1 vl nx I O m) /\
  copies nx t I O m (cpy2d_ci n0 is0 os0 n1 is1 os1 vl nx I O m) /\
  copies nx t I O m (cpy2d_co n0 is0 os0 n1 is1 os1 vl nx I O m).
Proof.
  intros. split; [|split]; apply Correct_copies; auto; [apply cpy2d_correct|apply cpy2d_ci_correct|apply cpy2d_co_correct]; auto.
Qed.
Print Assumptions C22_cpy2d.

(** The tiled kernels.  [vl <= 512] is what makes the tile size positive (the
    assertion in tile2d); the solvers that call them ask for more. *)
Theorem C22_cpy2d_tiled : forall nx n0 is0 os0 n1 is1 os1 vl I O m, 1 <= vl <= 512 ->
  let t := [mkdim n0 is0 os0; mkdim n1 is1 os1; mkdim vl 1 1] in
  copy_args nx t I O ->
  copies nx t I O m (cpy2d_tiled n0 is0 os0 n1 is1 os1 vl nx I O m) /\
  copies nx t I O m (cpy2d_tiledbuf n0 is0 os0 n1 is1 os1 vl nx I O m).
Proof.
  intros nx n0 is0 os0 n1 is1 os1 vl I O m Hv t H. pose proof (ca_n _ _ _ _ H) as Hn. inversion Hn as [|? ? Hn0 Hr]; subst.
  inversion Hr as [|? ? Hn1 _]; subst. cbn [dn] in *.
  split; apply Correct_copies; auto; [apply cpy2d_tiled_correct|apply cpy2d_tiledbuf_correct]; auto.
Qed.
Print Assumptions C22_cpy2d_tiled.

(** The stack buffer [R buf[CACHESIZE / (2 * sizeof(R))]] has 512 elements:
    nothing outside it is written, whatever the sizes and strides. *)
Theorem C22_tiledbuf_no_overrun : forall nx n0 is0 os0 n1 is1 os1 vl I O m o, 0 <= n0 -> 0 <= n1 -> 1 <= vl <= 512 ->
  (fst O < nx)%nat -> ~ 0 <= o < 512 ->
  cpy2d_tiledbuf n0 is0 os0 n1 is1 os1 vl nx I O m (nx, o) = m (nx, o).
Proof.
  intros nx n0 is0 os0 n1 is1 os1 vl I O m o H0 H1 Hv HO Ho. unfold cpy2d_tiledbuf.
  destruct (compute_tilesz_spec vl 2 ltac:(lia) ltac:(lia)) as (T0 & T1 & T2). unfold CACHESIZE, sizeof_R in T1.
  apply (tile2d_inv (fun m' => m' (nx, o) = m (nx, o))); try lia; auto.
  intros a b c d m' Ha Hc Hb Hd <-. eapply dotile_buf_other; eauto. lia.
Qed.
Print Assumptions C22_tiledbuf_no_overrun.

(** Pairs of arrays (split complex): element offsets shared by both arrays. *)
Theorem C22_cpy2d_pair : forall nx n0 is0 os0 n1 is1 os1 di do_ I O m,
  let t := [mkdim 2 di do_; mkdim n0 is0 os0; mkdim n1 is1 os1] in
  copy_args nx t I O ->
  copies nx t I O m (cpy2d_pair n0 is0 os0 n1 is1 os1 I (sh I di) O (sh O do_) m) /\
  copies nx t I O m (cpy2d_pair_ci n0 is0 os0 n1 is1 os1 I (sh I di) O (sh O do_) m) /\
  copies nx t I O m (cpy2d_pair_co n0 is0 os0 n1 is1 os1 I (sh I di) O (sh O do_) m).
Proof.
  intros nx n0 is0 os0 n1 is1 os1 di do_ I O m t H.
  assert (G : forall f : rapply, Correct true false (cx di do_ []) [mkdim n0 is0 os0; mkdim n1 is1 os1] f ->
     copies nx t I O m (f nx I O m)).
  { intros f HC. apply Correct_copies; auto. now apply cx_nil_xcopy. }
  split; [|split].
  - apply (G (fun _ I O m => cpy2d_pair n0 is0 os0 n1 is1 os1 I (sh I di) O (sh O do_) m)), cpy2d_pair_correct.
  - apply (G (fun _ I O m => cpy2d_pair_ci n0 is0 os0 n1 is1 os1 I (sh I di) O (sh O do_) m)), cpy2d_pair_ci_correct.
  - apply (G (fun _ I O m => cpy2d_pair_co n0 is0 os0 n1 is1 os1 I (sh I di) O (sh O do_) m)), cpy2d_pair_co_correct.
Qed.
Print Assumptions C22_cpy2d_pair.

(** A concrete instance meeting the hypotheses: a 3x5 matrix of pairs transposed
    out of place into another array. *)
Example C22_case : copy_args 2 [mkdim 3 10 2; mkdim 5 2 6; mkdim 2 1 1] (0%nat, 0) (1%nat, 7).
Proof.
  constructor; try (cbn; lia).
  - repeat constructor; cbn; lia.
  - intros ks js Hk Hj. destruct ks as [|a [|b [|c [|]]]]; cbn in Hk; try tauto.
    destruct js as [|a' [|b' [|c' [|]]]]; cbn in Hj; try tauto. cbn. intros E.
    assert (a = a' /\ b = b' /\ c = c') as (-> & -> & ->) by lia. reflexivity.
  - intros ks js Hk Hj. destruct ks as [|a [|b [|c [|]]]]; cbn in Hk; try tauto.
    destruct js as [|a' [|b' [|c' [|]]]]; cbn in Hj; try tauto. cbn. intros E.
    assert (a = a' /\ b = b' /\ c = c') as (-> & -> & ->) by lia. reflexivity.
  - intros ks js _ _ E. discriminate E.
Qed.

(** ** C23: in-place square transposition

    The n x n matrix of vl-vectors stored at [I] with row stride [s0] and column
    stride [s1]: afterwards element (i,j) holds what (j,i) held, and no other
    location of the user's arrays has changed. *)
Record square_matrix (nx : nat) (I : loc) (n s0 s1 vl : Z) : Prop := {
  sm_I : (fst I < nx)%nat;
  sm_n : 0 <= n;
  sm_inj : forall i j v i' j' v', 0 <= i < n -> 0 <= j < n -> 0 <= v < vl ->
     0 <= i' < n -> 0 <= j' < n -> 0 <= v' < vl ->
     i * s0 + j * s1 + v = i' * s0 + j' * s1 + v' -> i = i' /\ j = j' /\ v = v'
}.
Definition transposed (nx : nat) (I : loc) (n s0 s1 vl : Z) (m m' : mem) : Prop :=
  (forall i j v, 0 <= i < n -> 0 <= j < n -> 0 <= v < vl ->
     m' (sh I (i * s0 + j * s1 + v)) = m (sh I (j * s0 + i * s1 + v))) /\
  (forall l, (fst l < nx)%nat ->
     (forall i j v, 0 <= i < n -> 0 <= j < n -> 0 <= v < vl -> l <> sh I (i * s0 + j * s1 + v)) -> m' l = m l).

Lemma Correct_transposed nx I n s0 s1 vl m f : square_matrix nx I n s0 s1 vl -> 0 <= vl ->
  Correct true true xcopy [mkdim n s0 s1; mkdim n s1 s0; mkdim vl 1 1] f ->
  transposed nx I n s0 s1 vl m (f nx I I m).
Proof.
  intros [A1 A2 A3] Hvl HC. set (t := [mkdim n s0 s1; mkdim n s1 s0; mkdim vl 1 1]) in *.
  destruct (HC nx I I m) as [V F].
  { constructor; auto.
    - repeat constructor; auto.
    - rewrite il_xcopy. apply inj_NoDup_i. intros ks js Hk Hj E.
      destruct ks as [|a [|b [|c [|]]]]; cbn in Hk; try tauto.
      destruct js as [|a' [|b' [|c' [|]]]]; cbn in Hj; try tauto. cbn in E.
      destruct (A3 a b c a' b' c') as (-> & -> & ->); try tauto. lia.
    - rewrite ol_xcopy. apply inj_NoDup_o. intros ks js Hk Hj E.
      destruct ks as [|a [|b [|c [|]]]]; cbn in Hk; try tauto.
      destruct js as [|a' [|b' [|c' [|]]]]; cbn in Hj; try tauto. cbn in E.
      destruct (A3 b a c b' a' c') as (-> & -> & ->); try tauto. lia.
    - split; auto. intros o. rewrite il_xcopy, ol_xcopy, in_ilocs, in_olocs. split.
      + intros (ks & Hk & ->). destruct ks as [|a [|b [|c [|]]]]; cbn in Hk; try tauto.
        exists [b; a; c]. cbn. split; [tauto|ring].
      + intros (ks & Hk & ->). destruct ks as [|a [|b [|c [|]]]]; cbn in Hk; try tauto.
        exists [b; a; c]. cbn. split; [tauto|ring]. }
  rewrite vals_xcopy in V. split.
  - intros i j v Hi Hj Hv. specialize (V [j; i; v]). cbn in V. rewrite !Z.mul_1_r, !Z.add_0_r in V.
    replace (i * s0 + j * s1 + v) with (j * s1 + (i * s0 + v)) by ring.
    replace (j * s0 + i * s1 + v) with (j * s0 + (i * s1 + v)) by ring. apply V. tauto.
  - intros l Hl Hn. apply F; auto. rewrite ol_xcopy. intros (o & Ho & ->). apply in_olocs in Ho as (ks & Hk & ->).
    destruct ks as [|a [|b [|c [|]]]]; cbn in Hk; try tauto. apply (Hn b a c); try tauto. cbn. f_equal. ring.
Qed.

Theorem C23_transpose : forall nx I n s0 s1 vl m, 1 <= vl ->
  square_matrix nx I n s0 s1 vl -> transposed nx I n s0 s1 vl m (transpose I n s0 s1 vl m).
Proof.
  intros nx I n s0 s1 vl m Hv H. pose proof (sm_n _ _ _ _ _ _ H).
  apply (Correct_transposed nx I n s0 s1 vl m (fun _ I _ m => transpose I n s0 s1 vl m)); auto; [lia|].
  apply transpose_correct; lia.
Qed.
Print Assumptions C23_transpose.

Theorem C23_transpose_tiled : forall nx I n s0 s1 vl m, 1 <= vl <= 512 ->
  square_matrix nx I n s0 s1 vl ->
  transposed nx I n s0 s1 vl m (transpose_tiled I n s0 s1 vl m) /\
  transposed nx I n s0 s1 vl m (transpose_tiledbuf nx I n s0 s1 vl m).
Proof.
  intros nx I n s0 s1 vl m Hv H. pose proof (sm_n _ _ _ _ _ _ H). split.
  - apply (Correct_transposed nx I n s0 s1 vl m (fun _ I _ m => transpose_tiled I n s0 s1 vl m)); auto; [lia|].
    apply transpose_tiled_correct; lia.
  - apply (Correct_transposed nx I n s0 s1 vl m (fun nx I _ m => transpose_tiledbuf nx I n s0 s1 vl m)); auto; [lia|].
    apply transpose_tiledbuf_correct; lia.
Qed.
Print Assumptions C23_transpose_tiled.

(** neither of the two 512-element stack buffers is overrun *)
Theorem C23_tiledbuf_no_overrun : forall nx I n s0 s1 vl m k o, 1 <= vl <= 512 -> (fst I < nx)%nat ->
  k = nx \/ k = S nx -> ~ 0 <= o < 512 ->
  transpose_tiledbuf nx I n s0 s1 vl m (k, o) = m (k, o).
Proof.
  intros nx I n s0 s1 vl m k o Hv HI Hk Ho. unfold transpose_tiledbuf, transpose_rec.
  destruct (compute_tilesz_spec vl 2 ltac:(lia) ltac:(lia)) as (T0 & T1 & T2). unfold CACHESIZE, sizeof_R in T1.
  assert (HT : 0 < compute_tilesz vl 2) by lia.
  enough (G : forall fuel J n m, (fst J < nx)%nat ->
     transpose_rec_fuel fuel J n s0 s1 (compute_tilesz vl 2) (fun I => tr_dotile_buf (nx, 0) (S nx, 0) I s0 s1 vl) m (k, o) = m (k, o))
    by (now apply G).
  clear m n HI. induction fuel as [|fu IH]; intros J n m HJ; cbn [transpose_rec_fuel]; auto.
  destruct (Z.ltb_spec 1 n) as [Hn|]; auto. cbn zeta.
  rewrite IH by (cbn; lia). rewrite IH by auto.
  assert (H2 : 0 <= Z.quot n 2 <= n) by (rewrite Z.quot_div_nonneg by lia; split; [apply Z.div_pos; lia|apply Z.div_le_upper_bound; lia]).
  apply (tile2d_inv (fun m' => m' (k, o) = m (k, o))); try lia; auto.
  intros a b c d m' Ha Hc Hb Hd <-. eapply tr_dotile_buf_other; eauto; try lia.
Qed.
Print Assumptions C23_tiledbuf_no_overrun.

Example C23_case : square_matrix 1 (0%nat, 100) 7 3 (-21) 3.
Proof. constructor; [cbn; lia|lia|]. intros; lia. Qed.
