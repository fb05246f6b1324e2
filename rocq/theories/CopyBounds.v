(** * Which addresses the copy kernels write, without any assumption on the
    strides (proof library): used to show that the fixed-size stack buffers are
    never overrun. *)
From Coq Require Import Reals ZArith List Lia Bool Permutation.
From Verif Require Import NumTheory Cplx Spec Base PrimesModel TensorModel Offs TensorProofs XForm XKern CopyModel CopyProofs.
Import ListNotations.
Open Scope Z_scope.

Lemma zfor_inv (P : mem -> Prop) n b m : P m -> (forall i m', 0 <= i < n -> P m' -> P (b i m')) -> P (zfor n b m).
Proof.
  intros H Hb. destruct (Z_le_gt_dec n 0) as [Hn|Hn]; [now rewrite zfor_neg|].
  assert (G : forall k, 0 <= k -> k <= n -> P (zfor k b m)).
  { intros k Hk. pattern k. apply natlike_ind; [| |exact Hk].
    - intros _. exact H.
    - intros j Hj IH Hle. rewrite <- Z.add_1_r, zfor_succ by lia. apply Hb; [lia|]. apply IH. lia. }
  apply G; lia.
Qed.

Lemma mv_other k I O m l : (forall v, 0 <= v < k -> l <> sh O v) -> mv k I O m l = m l.
Proof.
  intros H. unfold mv. apply stores_other. rewrite map_map. cbn. rewrite map_id.
  intros (v & Hv & E). apply in_zr in Hv. exact (H v Hv E).
Qed.

Lemma cpy2d_other n0 is0 os0 n1 is1 os1 vl nx I O m l :
  (forall i0 i1 v, 0 <= i0 < n0 -> 0 <= i1 < n1 -> 0 <= v < vl -> l <> sh O (i0 * os0 + i1 * os1 + v)) ->
  cpy2d n0 is0 os0 n1 is1 os1 vl nx I O m l = m l.
Proof.
  intros H. unfold cpy2d.
  destruct (Z.eqb_spec vl 1) as [->|]; [|destruct (Z.eqb_spec vl 2) as [->|]];
  apply (zfor_inv (fun m' => m' l = m l)); auto; intros i1 m' Hi1 <-;
  apply (zfor_inv (fun m'' => m'' l = m' l)); auto; intros i0 m'' Hi0 <-.
  1,2: apply mv_other; intros v Hv; rewrite sh_sh; apply H; lia.
  apply (zfor_inv (fun m3 => m3 l = m'' l)); auto. intros v m3 Hv <-. apply mv_other. intros z Hz.
  rewrite sh_sh. replace (i0 * os0 + i1 * os1 + v + z) with (i0 * os0 + i1 * os1 + v) by lia. now apply H.
Qed.
Lemma cpy2d_ci_other n0 is0 os0 n1 is1 os1 vl nx I O m l :
  (forall i0 i1 v, 0 <= i0 < n0 -> 0 <= i1 < n1 -> 0 <= v < vl -> l <> sh O (i0 * os0 + i1 * os1 + v)) ->
  cpy2d_ci n0 is0 os0 n1 is1 os1 vl nx I O m l = m l.
Proof.
  intros H. unfold cpy2d_ci. destruct (_ <? _); apply cpy2d_other; auto.
  intros. rewrite (Z.add_comm (i0 * os1)). auto.
Qed.
Lemma cpy2d_co_other n0 is0 os0 n1 is1 os1 vl nx I O m l :
  (forall i0 i1 v, 0 <= i0 < n0 -> 0 <= i1 < n1 -> 0 <= v < vl -> l <> sh O (i0 * os0 + i1 * os1 + v)) ->
  cpy2d_co n0 is0 os0 n1 is1 os1 vl nx I O m l = m l.
Proof.
  intros H. unfold cpy2d_co. destruct (_ <? _); apply cpy2d_other; auto.
  intros. rewrite (Z.add_comm (i0 * os1)). auto.
Qed.

(** [tile2d] preserves whatever every call on a tile with sides at most [tilesz] preserves. *)
Lemma tile2d_fuel_inv (P : mem -> Prop) tilesz f : 0 < tilesz ->
  (forall a b c d m, 0 <= a <= b -> 0 <= c <= d -> b - a <= tilesz -> d - c <= tilesz -> P m -> P (f a b c d m)) ->
  forall fuel a b c d m, 0 <= a <= b -> 0 <= c <= d -> P m -> P (tile2d_fuel fuel a b c d tilesz f m).
Proof.
  intros Ht Hf. induction fuel as [|fu IH]; intros a b c d m Ha Hc Hm; cbn [tile2d_fuel]; auto. cbn zeta.
  destruct ((d - c <=? b - a) && (tilesz <? b - a)) eqn:E1.
  - apply andb_true_iff in E1 as [E1 E2]. apply Z.leb_le in E1. apply Z.ltb_lt in E2.
    pose proof (quot_mid a b ltac:(lia) ltac:(lia)). apply IH; [lia|lia|]. apply IH; [lia|lia|auto].
  - destruct (Z.ltb_spec tilesz (d - c)) as [E2|E2].
    + pose proof (quot_mid c d ltac:(lia) ltac:(lia)). apply IH; [lia|lia|]. apply IH; [lia|lia|auto].
    + apply Hf; auto. apply andb_false_iff in E1 as [E1|E1]; [apply Z.leb_gt in E1|apply Z.ltb_ge in E1]; lia.
Qed.
Lemma tile2d_inv (P : mem -> Prop) tilesz f a b c d m : 0 < tilesz ->
  (forall a b c d m, 0 <= a <= b -> 0 <= c <= d -> b - a <= tilesz -> d - c <= tilesz -> P m -> P (f a b c d m)) ->
  0 <= a <= b -> 0 <= c <= d -> P m -> P (tile2d a b c d tilesz f m).
Proof. intros. unfold tile2d. apply tile2d_fuel_inv; auto. Qed.
Lemma transpose_rec_inv (P : mem -> Prop) s0 s1 tilesz f : 0 < tilesz ->
  (forall I a b c d m, 0 <= a <= b -> 0 <= c <= d -> b - a <= tilesz -> d - c <= tilesz -> P m -> P (f I a b c d m)) ->
  forall fuel I n m, P m -> P (transpose_rec_fuel fuel I n s0 s1 tilesz f m).
Proof.
  intros Ht Hf. induction fuel as [|fu IH]; intros I n m Hm; cbn [transpose_rec_fuel]; auto.
  destruct (Z.ltb_spec 1 n) as [Hn|]; auto. cbn zeta.
  assert (H2 : 0 <= Z.quot n 2 <= n) by (rewrite Z.quot_div_nonneg by lia; split; [apply Z.div_pos; lia|apply Z.div_le_upper_bound; lia]).
  apply IH, IH. apply tile2d_inv; auto; lia.
Qed.

(** The row-major index into a tile buffer. *)
Lemma buf_index a b vl t i0 i1 v : 0 <= i0 < a -> 0 <= i1 < b -> 0 <= v < vl -> a <= t -> b <= t ->
  t * t * vl * 8 * 2 <= 8192 -> 0 <= i0 * vl + i1 * (vl * a) + v < 512.
Proof.
  intros H0 H1 Hv Ha Hb Ht.
  assert (A : i1 * a + i0 <= b * a - 1) by nia.
  assert (B : (i1 * a + i0) * vl <= (b * a - 1) * vl) by (apply Z.mul_le_mono_nonneg_r; lia).
  assert (D : b * a <= t * t) by (apply Z.mul_le_mono_nonneg; lia).
  assert (F : b * a * vl <= t * t * vl) by (apply Z.mul_le_mono_nonneg_r; lia).
  replace (i0 * vl + i1 * (vl * a) + v) with ((i1 * a + i0) * vl + v) by ring.
  assert (G : 0 <= (i1 * a + i0) * vl) by (apply Z.mul_nonneg_nonneg; nia). lia.
Qed.

Lemma dotile_buf_other nx I O is0 os0 is1 os1 vl t a b c d m o : fst O <> nx ->
  b - a <= t -> d - c <= t -> t * t * vl * 8 * 2 <= 8192 -> ~ 0 <= o < 512 ->
  cpy_dotile_buf (nx, 0) I O is0 os0 is1 os1 vl a b c d m (nx, o) = m (nx, o).
Proof.
  intros HO Ha Hc Ht Ho. unfold cpy_dotile_buf. cbn zeta. rewrite cpy2d_co_other.
  - apply cpy2d_ci_other. intros i0 i1 v H0 H1 Hv E. injection E as E.
    pose proof (buf_index _ _ _ _ _ _ _ H0 H1 Hv Ha Hc Ht). lia.
  - intros i0 i1 v _ _ _ E. rewrite sh_sh in E. apply HO. injection E; auto.
Qed.
Lemma tr_dotile_buf_other nx I s0 s1 vl t a b c d m k o : fst I <> nx -> fst I <> S nx ->
  (k = nx \/ k = S nx) ->
  b - a <= t -> d - c <= t -> t * t * vl * 8 * 2 <= 8192 -> ~ 0 <= o < 512 ->
  tr_dotile_buf (nx, 0) (S nx, 0) I s0 s1 vl a b c d m (k, o) = m (k, o).
Proof.
  intros HI HI' Hk Ha Hc Ht Ho. unfold tr_dotile_buf. cbn zeta.
  rewrite cpy2d_co_other by (intros i0 i1 v _ _ _ E; rewrite sh_sh in E; injection E as E1 E2; destruct Hk; congruence).
  rewrite cpy2d_co_other by (intros i0 i1 v _ _ _ E; rewrite sh_sh in E; injection E as E1 E2; destruct Hk; congruence).
  rewrite cpy2d_ci_other.
  - apply cpy2d_ci_other. intros i0 i1 v H0 H1 Hv E. injection E as E' E.
    pose proof (buf_index _ _ _ _ _ _ _ H0 H1 Hv Ha Hc Ht). lia.
  - intros i0 i1 v H0 H1 Hv E. injection E as E' E.
    pose proof (buf_index _ _ _ _ _ _ _ H0 H1 Hv Ha Hc Ht). lia.
Qed.
