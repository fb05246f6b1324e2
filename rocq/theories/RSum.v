(** * Real sums, cosines and sines of rational angles (proof library) *)
From Coq Require Import Reals ZArith List Lia Lra Bool Permutation.
From Verif Require Import Cplx Spec SpecR2R.
Import ListNotations.
Open Scope Z_scope.

Lemma Rsum_0 f : Rsum 0 f = 0%R. Proof. reflexivity. Qed.
Lemma Rsum_neg n f : n <= 0 -> Rsum n f = 0%R.
Proof. intros H. unfold Rsum. now replace (Z.to_nat n) with O by lia. Qed.
Lemma Rsum_succ n f : 0 <= n -> Rsum (n + 1) f = (Rsum n f + f n)%R.
Proof. intros H. unfold Rsum. replace (Z.to_nat (n + 1)) with (S (Z.to_nat n)) by lia. cbn [nrsum]. now rewrite Z2Nat.id. Qed.
Lemma Rsum_1 f : Rsum 1 f = f 0%Z. Proof. change 1 with (0 + 1)%Z. rewrite Rsum_succ by lia. rewrite Rsum_0. apply Rplus_0_l. Qed.
Lemma Rsum_2 f : Rsum 2 f = (f 0%Z + f 1%Z)%R. Proof. change 2 with (1 + 1)%Z. rewrite Rsum_succ by lia. now rewrite Rsum_1. Qed.

Lemma Rsum_C n f : RtoC (Rsum n f) = Csum n (fun i => RtoC (f i)).
Proof.
  destruct (Z_le_gt_dec n 0) as [H|H]; [now rewrite Rsum_neg, Csum_neg|].
  assert (Hn : 0 <= n) by lia. clear H. revert n Hn. apply Csum_ind; [reflexivity|].
  intros n Hn IH. rewrite Rsum_succ, Csum_succ, <- IH by auto. apply C_eq; cbn; ring.
Qed.
Lemma Csum_fst n f : fst (Csum n f) = Rsum n (fun i => fst (f i)).
Proof.
  destruct (Z_le_gt_dec n 0) as [H|H]; [now rewrite Rsum_neg, Csum_neg|].
  assert (Hn : 0 <= n) by lia. clear H. revert n Hn. apply Csum_ind; [reflexivity|].
  intros n Hn IH. rewrite Rsum_succ, Csum_succ, <- IH by auto. reflexivity.
Qed.
Lemma Csum_snd n f : snd (Csum n f) = Rsum n (fun i => snd (f i)).
Proof.
  destruct (Z_le_gt_dec n 0) as [H|H]; [now rewrite Rsum_neg, Csum_neg|].
  assert (Hn : 0 <= n) by lia. clear H. revert n Hn. apply Csum_ind; [reflexivity|].
  intros n Hn IH. rewrite Rsum_succ, Csum_succ, <- IH by auto. reflexivity.
Qed.
Lemma Rsum_from_C n f : Rsum n f = fst (Csum n (fun i => RtoC (f i))).
Proof. now rewrite <- Rsum_C. Qed.

Lemma Rsum_ext n f g : (forall i, 0 <= i < n -> f i = g i) -> Rsum n f = Rsum n g.
Proof. intros H. rewrite !Rsum_from_C. f_equal. apply Csum_ext. intros i Hi. now rewrite H. Qed.
Lemma Rsum_add n f g : Rsum n (fun i => f i + g i)%R = (Rsum n f + Rsum n g)%R.
Proof.
  rewrite !Rsum_from_C. replace (fun i => RtoC (f i + g i)) with (fun i => RtoC (f i) + RtoC (g i))%C.
  - rewrite Csum_add. reflexivity.
  - apply FunctionalExtensionality.functional_extensionality. intros i. apply C_eq; cbn; ring.
Qed.
Lemma Rsum_mul_l n a f : Rsum n (fun i => a * f i)%R = (a * Rsum n f)%R.
Proof.
  destruct (Z_le_gt_dec n 0) as [H|H]; [rewrite !Rsum_neg by auto; ring|].
  assert (Hn : 0 <= n) by lia. clear H. revert n Hn. apply Csum_ind; [rewrite !Rsum_0; ring|].
  intros n Hn IH. rewrite !Rsum_succ, IH by auto. ring.
Qed.
Lemma Rsum_mul_r n a f : Rsum n (fun i => f i * a)%R = (Rsum n f * a)%R.
Proof. rewrite Rmult_comm, <- Rsum_mul_l. apply Rsum_ext. intros; ring. Qed.
Lemma Rsum_opp n f : Rsum n (fun i => - f i)%R = (- Rsum n f)%R.
Proof. replace (- Rsum n f)%R with (-1 * Rsum n f)%R by ring. rewrite <- Rsum_mul_l. apply Rsum_ext. intros; ring. Qed.
Lemma Rsum_sub n f g : Rsum n (fun i => f i - g i)%R = (Rsum n f - Rsum n g)%R.
Proof. unfold Rminus. now rewrite Rsum_add, Rsum_opp. Qed.
Lemma Rsum_zero n f : (forall i, 0 <= i < n -> f i = 0%R) -> Rsum n f = 0%R.
Proof.
  intros H. rewrite (Rsum_ext n f (fun _ => 0 * 0)%R) by (intros; rewrite H by auto; ring). rewrite Rsum_mul_l. ring.
Qed.
Lemma Rsum_swap n m f : Rsum n (fun i => Rsum m (fun j => f i j)) = Rsum m (fun j => Rsum n (fun i => f i j)).
Proof.
  rewrite !Rsum_from_C.
  replace (fun i => RtoC (Rsum m (fun j => f i j))) with (fun i => Csum m (fun j => RtoC (f i j))).
  2:{ apply FunctionalExtensionality.functional_extensionality. intros i. now rewrite Rsum_C. }
  rewrite Csum_swap. f_equal. apply Csum_ext. intros j _. now rewrite Rsum_C.
Qed.
Lemma Rsum_app a b f : 0 <= a -> 0 <= b -> Rsum (a + b) f = (Rsum a f + Rsum b (fun i => f (a + i)%Z))%R.
Proof. intros Ha Hb. rewrite !Rsum_from_C, Csum_app by auto. reflexivity. Qed.
Lemma Rsum_reindex n s f : (forall i, 0 <= i < n -> 0 <= s i < n) ->
  (forall i j, 0 <= i < n -> 0 <= j < n -> s i = s j -> i = j) ->
  Rsum n (fun i => f (s i)) = Rsum n f.
Proof. intros H1 H2. rewrite !Rsum_from_C. f_equal. apply (Csum_reindex n s (fun i => RtoC (f i))); auto. Qed.
Lemma Rsum_rev n f : Rsum n (fun i => f (n - 1 - i)%Z) = Rsum n f.
Proof. apply (Rsum_reindex n (fun i => n - 1 - i)); intros; lia. Qed.
Lemma Rsum_delta n k f : 0 <= k < n -> (forall i, 0 <= i < n -> i <> k -> f i = 0%R) -> Rsum n f = f k.
Proof.
  intros Hk H. rewrite Rsum_from_C, (Csum_delta n k); auto. intros i Hi Hik. rewrite H by auto. reflexivity.
Qed.
(** index 0 first *)
Lemma Rsum_head n f : 0 < n -> Rsum n f = (f 0%Z + Rsum (n - 1) (fun i => f (i + 1)%Z))%R.
Proof.
  intros H. replace n with (1 + (n - 1)) at 1 by ring. rewrite Rsum_app, Rsum_1 by lia. f_equal.
  apply Rsum_ext. intros i _. f_equal. ring.
Qed.
Lemma Rsum_last n f : 0 < n -> Rsum n f = (Rsum (n - 1) f + f (n - 1)%Z)%R.
Proof. intros H. replace n with (n - 1 + 1) at 1 by ring. now rewrite Rsum_succ by lia. Qed.
(** an index set that is a union of pairs i, n-i *)
Lemma Rsum_shift_rev n f : 0 < n -> Rsum n (fun i => if i =? 0 then f 0 else f (n - i)%Z) = Rsum n f.
Proof.
  intros H. rewrite (Rsum_head n), (Rsum_head n f) by auto. f_equal. rewrite <- (Rsum_rev (n - 1) (fun i => f (i + 1))).
  apply Rsum_ext. intros i Hi. replace (i + 1 =? 0) with false by lia. f_equal. ring.
Qed.
(** even and odd indices *)
Lemma Rsum_even_odd h f : 0 <= h -> Rsum (2 * h) f = (Rsum h (fun i => f (2 * i)%Z) + Rsum h (fun i => f (2 * i + 1)%Z))%R.
Proof.
  revert h. apply Csum_ind; [rewrite !Rsum_0; ring|]. intros h Hh IH.
  replace (2 * (h + 1)) with (2 * h + 1 + 1) by ring. rewrite !Rsum_succ, IH by lia. ring.
Qed.
Lemma Rsum_pairs n h f : 0 <= h -> n = 2 * h + 1 ->
  Rsum n f = (f 0%Z + Rsum h (fun i => f (i + 1)%Z + f (n - (i + 1))%Z))%R.
Proof.
  intros Hh E. subst n. replace (2 * h + 1) with (1 + (h + h)) at 1 by ring. rewrite Rsum_app, Rsum_1 by lia. f_equal.
  rewrite Rsum_app by lia. rewrite Rsum_add. f_equal.
  - apply Rsum_ext. intros i Hi. f_equal. ring.
  - rewrite <- (Rsum_rev h). apply Rsum_ext. intros i Hi. f_equal. ring.
Qed.
Lemma Rsum_pairs_even n h f : 0 < h -> n = 2 * h ->
  Rsum n f = (f 0%Z + f h + Rsum (h - 1) (fun i => f (i + 1)%Z + f (n - (i + 1))%Z))%R.
Proof.
  intros Hh E. subst n. replace (2 * h) with (h + h) at 1 by ring. rewrite Rsum_app by lia.
  rewrite (Rsum_head h f), (Rsum_head h (fun i => f (h + i))) by auto. rewrite Z.add_0_r, Rsum_add.
  rewrite <- (Rsum_rev (h - 1) (fun i => f (2 * h - (i + 1))%Z)).
  rewrite (Rsum_ext (h - 1) (fun i => f (2 * h - (h - 1 - 1 - i + 1))%Z) (fun i => f (h + (i + 1))%Z)) by (intros; f_equal; ring).
  ring.
Qed.

(** ** Angles 2 pi q / N *)
Definition ang (N q : Z) : R := (2 * PI * IZR q / IZR N)%R.
Definition cs (N q : Z) : R := cos (ang N q).
Definition sn (N q : Z) : R := sin (ang N q).

Lemma W_cs N q : W N q = (cs N q, - sn N q)%R.
Proof.
  unfold W, cis, cs, sn, ang. now rewrite cos_neg, sin_neg.
Qed.
Lemma cs_W N q : cs N q = fst (W N q). Proof. now rewrite W_cs. Qed.
Lemma sn_W N q : sn N q = (- snd (W N q))%R. Proof. rewrite W_cs. cbn. ring. Qed.

Lemma ang_add N a b : ang N (a + b) = (ang N a + ang N b)%R.
Proof. unfold ang. rewrite plus_IZR. unfold Rdiv. ring. Qed.
Lemma cs_add N a b : cs N (a + b) = (cs N a * cs N b - sn N a * sn N b)%R.
Proof. unfold cs, sn. rewrite ang_add. apply cos_plus. Qed.
Lemma sn_add N a b : sn N (a + b) = (sn N a * cs N b + cs N a * sn N b)%R.
Proof. unfold cs, sn. rewrite ang_add. apply sin_plus. Qed.
Lemma ang_neg N a : ang N (- a) = (- ang N a)%R.
Proof. unfold ang. rewrite opp_IZR. unfold Rdiv. ring. Qed.
Lemma cs_neg N a : cs N (- a) = cs N a.
Proof. unfold cs. rewrite ang_neg. apply cos_neg. Qed.
Lemma sn_neg N a : sn N (- a) = (- sn N a)%R.
Proof. unfold sn. rewrite ang_neg. apply sin_neg. Qed.
Lemma cs_sub N a b : cs N (a - b) = (cs N a * cs N b + sn N a * sn N b)%R.
Proof. unfold Z.sub. rewrite cs_add, cs_neg, sn_neg. ring. Qed.
Lemma sn_sub N a b : sn N (a - b) = (sn N a * cs N b - cs N a * sn N b)%R.
Proof. unfold Z.sub. rewrite sn_add, cs_neg, sn_neg. ring. Qed.
Lemma cs_0 N : cs N 0 = 1%R.
Proof. rewrite cs_W, W_0. reflexivity. Qed.
Lemma sn_0 N : sn N 0 = 0%R.
Proof. rewrite sn_W, W_0. cbn. ring. Qed.
Lemma cs2_sn2 N a : (cs N a * cs N a + sn N a * sn N a = 1)%R.
Proof. rewrite Rplus_comm. exact (sin2_cos2 (ang N a)). Qed.
Lemma cs_period N a q : N <> 0 -> cs N (a + N * q) = cs N a.
Proof. intros H. now rewrite !cs_W, W_period. Qed.
Lemma sn_period N a q : N <> 0 -> sn N (a + N * q) = sn N a.
Proof. intros H. now rewrite !sn_W, W_period. Qed.
Lemma cs_congr N a b : N <> 0 -> (N | a - b) -> cs N a = cs N b.
Proof. intros H D. now rewrite !cs_W, (W_congr N a b). Qed.
Lemma sn_congr N a b : N <> 0 -> (N | a - b) -> sn N a = sn N b.
Proof. intros H D. now rewrite !sn_W, (W_congr N a b). Qed.
Lemma cs_scale N m a : N <> 0 -> m <> 0 -> cs (m * N) (m * a) = cs N a.
Proof. intros H1 H2. now rewrite !cs_W, W_scale_l. Qed.
Lemma sn_scale N m a : N <> 0 -> m <> 0 -> sn (m * N) (m * a) = sn N a.
Proof. intros H1 H2. now rewrite !sn_W, W_scale_l. Qed.
(** half and quarter turns *)
Lemma ang_half N : N <> 0 -> ang (2 * N) N = PI.
Proof. intros H. unfold ang. rewrite mult_IZR. field. apply not_0_IZR; auto. Qed.
Lemma cs_half N : N <> 0 -> cs (2 * N) N = (-1)%R.
Proof. intros H. unfold cs. rewrite ang_half by auto. apply cos_PI. Qed.
Lemma sn_half N : N <> 0 -> sn (2 * N) N = 0%R.
Proof. intros H. unfold sn. rewrite ang_half by auto. apply sin_PI. Qed.
Lemma ang_quarter N : N <> 0 -> ang (4 * N) N = (PI / 2)%R.
Proof. intros H. unfold ang. rewrite mult_IZR. field. apply not_0_IZR; auto. Qed.
Lemma cs_quarter N : N <> 0 -> cs (4 * N) N = 0%R.
Proof. intros H. unfold cs. rewrite ang_quarter by auto. apply cos_PI2. Qed.
Lemma sn_quarter N : N <> 0 -> sn (4 * N) N = 1%R.
Proof. intros H. unfold sn. rewrite ang_quarter by auto. apply sin_PI2. Qed.
(** (-1)^k *)
Lemma cos_PI_Z k : cos (PI * IZR k) = cs 2 k.
Proof. unfold cs, ang. f_equal. field. Qed.
Lemma cs_eq N q t : (2 * PI * IZR q / IZR N)%R = t -> cos t = cs N q.
Proof. intros <-. reflexivity. Qed.
Lemma sn_eq N q t : (2 * PI * IZR q / IZR N)%R = t -> sin t = sn N q.
Proof. intros <-. reflexivity. Qed.
Lemma cs_2_mul N k : N <> 0 -> cs 2 k = cs (2 * N) (N * k).
Proof. intros H. rewrite (Z.mul_comm 2 N). now rewrite cs_scale by lia. Qed.
Lemma sn_2 k : sn 2 k = 0%R.
Proof.
  unfold sn, ang. replace (2 * PI * IZR k / 2)%R with (IZR k * PI)%R by field.
  destruct (Z.eq_dec k 0); [subst; rewrite Rmult_0_l; apply sin_0|]. apply sin_eq_0_1. now exists k.
Qed.
