(** * Loops that fill cells (proof library) *)
From Coq Require Import Reals ZArith List Lia Lra Bool Permutation.
From Verif Require Import NumTheory Cplx Spec SpecR2R Base TensorModel Offs XForm XKern DftModel RdftModel.
Import ListNotations.
Open Scope Z_scope.

Lemma loop_cells n body m0 (S : Z -> Z -> Prop) (A : Z -> loc) (v : Z -> R) :
  (forall i m, 0 <= i < n -> (forall l, (forall j k, 0 <= j < i -> S j k -> l <> A k) -> m l = m0 l) ->
     (forall k, S i k -> body i m (A k) = v k) /\ (forall l, (forall k, S i k -> l <> A k) -> body i m l = m l)) ->
  (forall i j k k', 0 <= i < n -> 0 <= j < n -> i <> j -> S i k -> S j k' -> A k <> A k') ->
  (forall i k, 0 <= i < n -> S i k -> zfor n body m0 (A k) = v k) /\
  (forall l, (forall i k, 0 <= i < n -> S i k -> l <> A k) -> zfor n body m0 l = m0 l).
Proof.
  intros Hb Hd. destruct (Z_lt_le_dec n 0) as [Hn|Hn].
  { split; [intros; lia|]. intros. now rewrite zfor_neg by lia. }
  assert (G : forall p, 0 <= p -> p <= n ->
    (forall i k, 0 <= i < p -> S i k -> zfor p body m0 (A k) = v k) /\
    (forall l, (forall i k, 0 <= i < p -> S i k -> l <> A k) -> zfor p body m0 l = m0 l)); [|apply G; lia].
  intros p Hp. pattern p. apply natlike_ind; auto; clear p Hp.
  - intros _. split; [intros; lia|]. intros l _. now rewrite zfor_0.
  - intros p Hp IH Hpn. destruct (IH ltac:(lia)) as [I1 I2]. unfold Z.succ in *. rewrite zfor_succ by auto.
    destruct (Hb p (zfor p body m0) ltac:(lia)) as [B1 B2].
    { intros l Hl. apply I2. exact Hl. }
    split.
    + intros i k Hi Hk. destruct (Z.eq_dec i p) as [->|Ne]; [now apply B1|].
      rewrite B2; [apply (I1 i); auto; lia|]. intros k' Hk' E. revert E. apply (Hd i p); auto; lia.
    + intros l Hl. rewrite B2; [apply I2; intros; apply (Hl i); auto; lia|]. intros k Hk. apply (Hl p); auto; lia.
Qed.

Lemma hcnt_spec n : 0 < n -> 0 <= hcnt n /\ (n = 2 * hcnt n + 1 \/ n = 2 * hcnt n + 2).
Proof. intros H. unfold hcnt. pose proof (Z.quot_rem' (n - 1) 2). pose proof (Z.rem_bound_pos (n - 1) 2 ltac:(lia) ltac:(lia)). lia. Qed.

Lemma pairs_cells n body m0 (A : Z -> loc) (v : Z -> R) : 0 < n ->
  (forall i m, 0 < i -> 2 * i < n -> (forall l, (forall k, 0 < k < i \/ n - i < k < n -> l <> A k) -> m l = m0 l) ->
     body i m (A i) = v i /\ body i m (A (n - i)) = v (n - i) /\ (forall l, l <> A i -> l <> A (n - i) -> body i m l = m l)) ->
  (forall j k, 0 < j < n -> 0 < k < n -> A j = A k -> j = k) ->
  (forall k, 0 < k < n -> 2 * k <> n -> pairs n body m0 (A k) = v k) /\
  (forall l, (forall k, 0 < k < n -> 2 * k <> n -> l <> A k) -> pairs n body m0 l = m0 l).
Proof.
  intros Hn Hb Hi. destruct (hcnt_spec n Hn) as [H0 H1]. unfold pairs.
  destruct (loop_cells (hcnt n) (fun i' => body (i' + 1)) m0 (fun i' k => k = i' + 1 \/ k = n - (i' + 1)) A v) as [L1 L2].
  - intros i m Hr Hm. destruct (Hb (i + 1) m) as (B1 & B2 & B3); try lia.
    { intros l Hl. apply Hm. intros j k Hj [->| ->]; apply Hl; lia. }
    split.
    + intros k [->| ->]; auto.
    + intros l Hl. apply B3; apply Hl; auto.
  - intros i j k k' Hi' Hj' Ne Hk Hk' E. apply Hi in E; lia.
  - split.
    + intros k Hk Nk. apply (L1 (if 2 * k <? n then k - 1 else n - k - 1)); destruct (Z.ltb_spec (2 * k) n); lia.
    + intros l Hl. apply L2. intros i k Hi' Hk. apply Hl; lia.
Qed.

(** cell 0, the pairs, and the middle cell *)
Lemma fill_cells n b0 body bm m0 (A : Z -> loc) (v : Z -> R) : 0 < n ->
  b0 m0 (A 0) = v 0 -> (forall l, l <> A 0 -> b0 m0 l = m0 l) ->
  (forall i m, 0 < i -> 2 * i < n -> (forall l, (forall k, k = 0 \/ 0 < k < i \/ n - i < k < n -> l <> A k) -> m l = m0 l) ->
     body i m (A i) = v i /\ body i m (A (n - i)) = v (n - i) /\ (forall l, l <> A i -> l <> A (n - i) -> body i m l = m l)) ->
  (forall i m, 0 < i -> 2 * i = n -> (forall l, (forall k, 0 <= k < n -> k <> i -> l <> A k) -> m l = m0 l) ->
     bm i m (A i) = v i /\ (forall l, l <> A i -> bm i m l = m l)) ->
  (forall j k, 0 <= j < n -> 0 <= k < n -> A j = A k -> j = k) ->
  (forall k, 0 <= k < n -> middle n bm (pairs n body (b0 m0)) (A k) = v k) /\
  (forall l, (forall k, 0 <= k < n -> l <> A k) -> middle n bm (pairs n body (b0 m0)) l = m0 l).
Proof.
  intros Hn Z1 Z2 Hp Hm Hi. destruct (hcnt_spec n Hn) as [H0 H1].
  destruct (pairs_cells n body (b0 m0) A v Hn) as [P1 P2].
  { intros i m I1 I2 Hl. apply Hp; auto. intros l Hk. rewrite Hl; [apply Z2; apply Hk; auto|]. intros k Hk'. apply Hk. auto. }
  { intros j k Hj Hk. apply Hi; lia. }
  assert (Q0 : pairs n body (b0 m0) (A 0) = v 0).
  { rewrite P2; auto. intros k Hk _ E. apply Hi in E; lia. }
  assert (Q : forall l, (forall k, 0 <= k < n -> 2 * k <> n -> l <> A k) -> pairs n body (b0 m0) l = m0 l).
  { intros l Hl. rewrite P2; [apply Z2; apply Hl; lia|]. intros k Hk. apply Hl. lia. }
  unfold middle. cbn zeta. destruct (Z.eqb_spec (hcnt n + 1) (n - (hcnt n + 1))) as [E|E].
  - destruct (Hm (hcnt n + 1) (pairs n body (b0 m0)) ltac:(lia) ltac:(lia)) as [M1 M2].
    { intros l Hl. apply Q. intros k Hk Nk. apply Hl; lia. }
    split.
    + intros k Hk. destruct (Z.eq_dec k (hcnt n + 1)) as [->|Ne]; auto. rewrite M2.
      * destruct (Z.eq_dec k 0) as [->|]; [auto|]. apply P1; lia.
      * intros F. apply Hi in F; lia.
    + intros l Hl. rewrite M2 by (apply Hl; lia). apply Q. intros k Hk _. now apply Hl.
  - split.
    + intros k Hk. destruct (Z.eq_dec k 0) as [->|]; [auto|]. apply P1; lia.
    + intros l Hl. apply Q. intros k Hk _. now apply Hl.
Qed.

(** writing two or one distinct cells *)
Lemma upd2 m a b x y : a <> b -> upd (upd m a x) b y a = x /\ upd (upd m a x) b y b = y /\
  (forall l, l <> a -> l <> b -> upd (upd m a x) b y l = m l).
Proof.
  intros H. split; [|split].
  - rewrite upd_other by congruence. apply upd_same.
  - now rewrite upd_same.
  - intros l H1 H2. now rewrite !upd_other by congruence.
Qed.
Lemma upd1 m a x : upd m a x a = x /\ (forall l, l <> a -> upd m a x l = m l).
Proof. split; [apply upd_same|]. intros. apply upd_other. congruence. Qed.
