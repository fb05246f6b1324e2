(** * Properties C25, C26: tensors *)
From Coq Require Import Reals ZArith List Lia Bool Permutation.
From Verif Require Import NumTheory Cplx Spec TensorModel Offs TensorProofs XForm XKern.
Import ListNotations.
Open Scope Z_scope.

(** ** Specification

    [boxl t] lists every multi-index of the tensor exactly once, so
    [data_movement t] is the multiset of (input offset, output offset) pairs. *)
Definition data_movement (t : list iodim) : list (Z * Z) :=
  map (fun ks => (ioff t ks, ooff t ks)) (boxl t).

Lemma boxl_complete t ks : In ks (boxl t) <-> in_box t ks.
Proof. apply in_boxl. Qed.
Lemma boxl_NoDup t : NoDup (boxl t).
Proof.
  induction t as [|d t IH]; cbn [boxl]; [repeat constructor; easy|].
  generalize (NoDup_zr (dn d)). induction (zr (dn d)) as [|k l IHl]; intros H; cbn [flat_map]; [constructor|].
  inversion H; subst. apply NoDup_app_intro.
  - apply FinFun.Injective_map_NoDup; auto. intros a b E. now injection E.
  - now apply IHl.
  - intros x Hx Hy. apply in_map_iff in Hx as (a & <- & _). apply in_flat_map in Hy as (j & Hj & Hy).
    apply in_map_iff in Hy as (b & E & _). injection E as -> _. contradiction.
Qed.
Lemma data_movement_offs t : data_movement t = offs t.
Proof.
  unfold data_movement. induction t as [|d t IH]; [reflexivity|]. cbn [boxl offs]. rewrite <- IH.
  unfold oplus, dimoffs. induction (zr (dn d)) as [|k l IHl]; [reflexivity|].
  cbn [flat_map map]. rewrite map_app, IHl. f_equal. rewrite !map_map. apply map_ext. reflexivity.
Qed.

(** C25: canonicalisation of the vector loop.  [qs] is any function that
    permutes its argument (the C library's qsort). *)
Theorem C25_compress_contiguous : forall qs t, qsort_perm qs -> Forall (fun d => 0 <= dn d) t ->
  match tensor_compress_contiguous qs t with
  | None => data_movement t = []
  | Some t' => Permutation (data_movement t) (data_movement t') /\ Forall (fun d => 0 < dn d) t'
  end.
Proof.
  intros qs t Hq Ht. destruct (tensor_compress_contiguous qs t) as [t'|] eqn:E.
  - rewrite !data_movement_offs. apply (compress_contiguous_offs qs); auto.
  - rewrite data_movement_offs. apply tensor_sz_0_offs; auto. now apply compress_contiguous_None in E.
Qed.
Print Assumptions C25_compress_contiguous.

(** C25: canonicalisation of the transform sizes: same data movement, no unit
    dimension left, and every output index names the same DFT coefficient. *)
Theorem C25_compress : forall qs t, qsort_perm qs -> Forall (fun d => 0 < dn d) t ->
  let t' := tensor_compress qs t in
  Permutation (data_movement t) (data_movement t') /\ Forall (fun d => 1 < dn d) t' /\
  forall ks, in_box t ks -> exists ks', in_box t' ks' /\ ooff t ks = ooff t' ks' /\
    forall x, mdft t x ks = mdft t' x ks'.
Proof.
  intros qs t Hq Ht t'. split; [|split].
  - rewrite !data_movement_offs. now apply tensor_compress_offs.
  - apply Forall_forall. intros d Hd. pose proof (tensor_compress_pos qs t Hq Ht) as Hp.
    unfold posd in Hp. rewrite Forall_forall in Hp. specialize (Hp d Hd). pose proof (tensor_compress_no1 qs t d Hq Hd). lia.
  - now apply tensor_compress_sim.
Qed.
Print Assumptions C25_compress.

(** two tensors with the same canonical form move the same data *)
Theorem C25_identified : forall qs a b, qsort_perm qs ->
  Forall (fun d => 0 <= dn d) a -> Forall (fun d => 0 <= dn d) b ->
  tensor_equal (tensor_compress_contiguous qs a) (tensor_compress_contiguous qs b) = true ->
  Permutation (data_movement a) (data_movement b).
Proof.
  intros qs a b Hq Ha Hb E.
  pose proof (C25_compress_contiguous qs a Hq Ha) as A. pose proof (C25_compress_contiguous qs b Hq Hb) as B.
  destruct (tensor_compress_contiguous qs a) as [a'|], (tensor_compress_contiguous qs b) as [b'|]; cbn in E; try discriminate.
  - apply dims_equal_eq in E. subst. destruct A as [A _], B as [B _]. now rewrite A, B.
  - now rewrite A, B.
Qed.
Print Assumptions C25_identified.

(** splitting, appending and removing dimensions *)
Theorem C25_append_split : forall t k i, (k <= length t)%nat -> (i < length t)%nat ->
  (let (a, b) := tensor_split t k in tensor_append (Some a) (Some b) = Some t) /\
  Permutation (data_movement t) (data_movement (nth i t (mkdim 1 0 0) :: tensor_copy_except t i)).
Proof.
  intros t k i Hk Hi. split.
  - cbn. unfold tensor_copy_sub. rewrite skipn_O. f_equal. rewrite (firstn_all2 (skipn k t)) by (rewrite skipn_length; lia).
    apply firstn_skipn.
  - rewrite !data_movement_offs. apply offs_perm. unfold tensor_copy_except.
    clear k Hk. revert i Hi. induction t as [|d t IH]; intros i Hi; [cbn in Hi; lia|].
    destruct i as [|i]; [reflexivity|]. cbn [nth firstn skipn]. cbn in Hi.
    cbn [app]. rewrite perm_swap. apply perm_skip. apply IH. lia.
Qed.
Print Assumptions C25_append_split.

(** the total size and the largest index reached *)
Theorem C25_max_index : forall t ks, in_box t ks ->
  Z.abs (ioff t ks) <= tensor_max_index t /\ Z.abs (ooff t ks) <= tensor_max_index t.
Proof.
  intros t ks H. unfold tensor_max_index.
  enough (G : Z.abs (ioff t ks) <= fold_right (fun d s => (dn d - 1) * Z.abs (dis d) + s) 0 t /\
              Z.abs (ooff t ks) <= fold_right (fun d s => (dn d - 1) * Z.abs (dos d) + s) 0 t) by lia.
  revert ks H. induction t as [|d t IH]; intros [|k ks] H; cbn in H; try easy. destruct H as [Hk H].
  specialize (IH ks H). cbn [ioff ooff fold_right].
  assert (A : Z.abs (k * dis d) <= (dn d - 1) * Z.abs (dis d)) by (rewrite Z.abs_mul; nia).
  assert (B : Z.abs (k * dos d) <= (dn d - 1) * Z.abs (dos d)) by (rewrite Z.abs_mul; nia).
  lia.
Qed.
Print Assumptions C25_max_index.
Theorem C25_size : forall t, Forall (fun d => 0 <= dn d) t ->
  tensor_sz t = Z.of_nat (length (boxl t)).
Proof.
  induction 1 as [|d t Hd Ht IH]; [reflexivity|]. cbn [tensor_sz boxl]. rewrite IH.
  assert (G : forall l, Z.of_nat (length (flat_map (fun k => map (cons k) (boxl t)) l)) = Z.of_nat (length l) * Z.of_nat (length (boxl t))).
  { induction l as [|k l IHl]; [reflexivity|]. cbn [flat_map length]. rewrite app_length, map_length. lia. }
  rewrite G. f_equal. unfold zr. rewrite length_zrange. lia.
Qed.
Print Assumptions C25_size.

(** Non-vacuity: merging a contiguous 3x4 loop behind a unit dimension. *)
Example C25_case :
  tensor_compress_contiguous isort [mkdim 1 5 9; mkdim 4 2 6; mkdim 3 8 24] = Some [mkdim 12 2 6] /\
  qsort_perm isort.
Proof. split; [reflexivity|apply isort_perm]. Qed.

(** ** C26 *)
Theorem C26_inplace_locations : forall qs sz vec, qsort_perm qs ->
  Forall (fun d => 0 <= dn d) (sz ++ vec) ->
  tensor_inplace_locations qs sz vec = true ->
  forall a, (exists ks, in_box (sz ++ vec) ks /\ a = ioff (sz ++ vec) ks) <->
            (exists ks, in_box (sz ++ vec) ks /\ a = ooff (sz ++ vec) ks).
Proof.
  intros qs sz vec Hq Hn H a. rewrite <- in_ilocs, <- in_olocs.
  pose proof (inplace_locations_sound qs sz vec Hq Hn H) as P. split; apply Permutation_in; [|symmetry]; exact P.
Qed.
Print Assumptions C26_inplace_locations.
(** with equal strides an in-place problem is always accepted *)
Theorem C26_equal_strides_accepted : forall qs sz vec,
  Forall (fun d => dis d = dos d) (sz ++ vec) -> tensor_inplace_locations qs sz vec = true.
Proof.
  intros qs sz vec H. unfold tensor_inplace_locations.
  assert (E : tensor_copy_inplace (sz ++ vec) INPLACE_IS = tensor_copy_inplace (sz ++ vec) INPLACE_OS).
  { unfold tensor_copy_inplace. apply map_ext_in. intros d Hd. rewrite Forall_forall in H. specialize (H d Hd).
    unfold dim_inplace. now rewrite H. }
  rewrite E. destruct (tensor_compress_contiguous qs _) as [t|]; [|reflexivity]. cbn.
  induction t as [|d t IH]; [reflexivity|]. cbn. unfold dim_eqb. rewrite !Z.eqb_refl, IH. reflexivity.
Qed.
Print Assumptions C26_equal_strides_accepted.
Example C26_case :
  (* a transposition in place is accepted, a stretch is not *)
  tensor_inplace_locations isort [mkdim 3 1 4; mkdim 4 3 1] [] = true /\
  tensor_inplace_locations isort [mkdim 4 1 2] [] = false.
Proof. split; reflexivity. Qed.
