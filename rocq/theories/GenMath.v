(** * The decompositions of the DFT used by genfft/fft.ml *)
From Coq Require Import Reals ZArith Znumtheory List Lia Lra Bool.
From Verif Require Import NumTheory Cplx DftMath.
Open Scope Z_scope.

Lemma dft_stride r m x k : 0 < r -> 0 < m ->
  dft (r * m) x k = Csum r (fun a => W (r * m)%Z (a * k)%Z * dft m (fun b => x (b * r + a)%Z) k)%C.
Proof.
  intros Hr Hm. pose proof (cooley_tukey r m x 0 k Hr Hm) as E. rewrite Z.mul_0_l, Z.add_0_l in E. rewrite E.
  unfold dft at 1. apply Csum_ext. intros a Ha. rewrite Z.mul_0_r, W_0. ring.
Qed.
Lemma dft_block r m x k l : 0 < r -> 0 < m ->
  dft (r * m) x (r * l + k) = dft m (fun j => dft r (fun i => x (i * m + j)%Z) k * W (r * m)%Z (j * k)%Z)%C l.
Proof.
  intros Hr Hm. pose proof (cooley_tukey m r x l k Hm Hr) as E. rewrite (Z.mul_comm r l), (Z.mul_comm r m). exact E.
Qed.
Lemma Csum_2 f : Csum 2 f = (f 0 + f 1)%C.
Proof. replace 2 with (1 + 1) at 1 by ring. rewrite Csum_succ, Csum_1 by lia. reflexivity. Qed.
Lemma Csum_4 f : Csum 4 f = (f 0 + f 1 + f 2 + f 3)%C.
Proof.
  replace 4 with (3 + 1) at 1 by ring. rewrite Csum_succ by lia. replace 3 with (2 + 1) at 1 by ring.
  rewrite Csum_succ by lia. now rewrite Csum_2.
Qed.
(** a cyclic shift of the input *)
Lemma dft_shift m y k : 0 < m -> dft m (fun i => y ((i - 1) mod m)) k = (W m k * dft m y k)%C.
Proof.
  intros Hm. unfold dft. rewrite <- Csum_mul_l.
  rewrite <- (Csum_reindex m (fun i => (i + 1) mod m)).
  - apply Csum_ext. intros i Hi. cbn beta.
    replace (((i + 1) mod m - 1) mod m) with i.
    + replace (W m ((i + 1) mod m * k)) with (W m k * W m (i * k))%C; [ring|].
      rewrite <- W_add. apply W_congr; [lia|]. pose proof (Z.div_mod (i + 1) m ltac:(lia)) as D.
      exists (((i + 1) / m) * k). replace ((i + 1) mod m) with (i + 1 - m * ((i + 1) / m)) by lia. ring.
    + rewrite Zminus_mod_idemp_l. replace (i + 1 - 1) with i by ring. symmetry. now apply Z.mod_small.
  - intros i Hi. apply Z.mod_pos_bound. lia.
  - intros i j Hi Hj E. apply mod_eq_divide in E; [|lia]. replace (i + 1 - (j + 1)) with (i - j) in E by ring.
    now apply (small_divide_eq m).
Qed.
(** split radix, decimation in time, "exponent -1" form *)
Lemma split_dit m x k : 0 < m ->
  dft (4 * m) x k =
  (dft (2 * m) (fun i => x (i * 2)%Z) k +
   (W (4 * m)%Z k * dft m (fun i => x (i * 4 + 1)%Z) k +
    W (4 * m)%Z (- k)%Z * dft m (fun i => x ((4 * m + i * 4 - 1) mod (4 * m))%Z) k))%C.
Proof.
  intros Hm. rewrite (dft_stride 4 m x k) by lia. rewrite Csum_4.
  rewrite (dft_stride 2 m (fun i => x (i * 2)) k) by lia. rewrite Csum_2.
  rewrite !Z.mul_0_l, !W_0, Z.mul_1_l.
  replace (dft m (fun i => x ((4 * m + i * 4 - 1) mod (4 * m))) k) with (W m k * dft m (fun i => x (i * 4 + 3)%Z) k)%C.
  2:{ rewrite <- (dft_shift m (fun i => x (i * 4 + 3)) k Hm). apply dft_ext. intros i Hi. f_equal.
      apply (Z.mod_unique_pos _ _ (1 + (i - 1) / m)).
      - pose proof (Z.mod_pos_bound (i - 1) m ltac:(lia)). lia.
      - pose proof (Z.div_mod (i - 1) m ltac:(lia)). lia. }
  replace (W (4 * m) (3 * k)) with (W (4 * m) (- k) * W m k)%C.
  2:{ rewrite <- (W_scale_l m 4 k) by lia. rewrite <- W_add. f_equal. ring. }
  replace (W (4 * m) (2 * k)) with (W (2 * m) k).
  2:{ replace (4 * m) with (2 * (2 * m)) by ring. now rewrite W_scale_l by lia. }
  replace (dft m (fun b => x ((b * 2 + 0) * 2)) k) with (dft m (fun b => x (b * 4 + 0)) k)
    by (apply dft_ext; intros; f_equal; ring).
  replace (dft m (fun b => x ((b * 2 + 1) * 2)) k) with (dft m (fun b => x (b * 4 + 2)) k)
    by (apply dft_ext; intros; f_equal; ring).
  ring.
Qed.
Lemma W4_2 k : W 4 (2 * (2 * k + 1)) = (- C1)%C.
Proof.
  replace 4 with (2 * 2) at 1 by ring. rewrite W_scale_l by lia. rewrite W_add, W_mult by lia.
  unfold W, cis. replace (- (2 * PI * 1 / 2))%R with (- PI)%R by field.
  rewrite cos_neg, sin_neg, cos_PI, sin_PI. apply C_eq; cbn; ring.
Qed.
Lemma W2_1 : W 2 1 = (- C1)%C.
Proof.
  unfold W, cis. replace (- (2 * PI * 1 / 2))%R with (- PI)%R by field.
  rewrite cos_neg, sin_neg, cos_PI, sin_PI. apply C_eq; cbn; ring.
Qed.
Lemma split_dif_even m x l : 0 < m -> dft (2 * m) x (2 * l) = dft m (fun i => x i + x (i + m)%Z)%C l.
Proof.
  intros Hm. pose proof (dft_block 2 m x 0 l ltac:(lia) Hm) as E. rewrite Z.add_0_r in E. rewrite E.
  apply dft_ext. intros j Hj. unfold dft. rewrite Csum_2, !Z.mul_0_r, !W_0.
  replace (0 * m + j) with j by ring. replace (1 * m + j) with (j + m) by ring. ring.
Qed.
Lemma split_dif_odd m x l h : 0 < m -> 
  dft (4 * m) x (4 * l + (2 * h + 1)) =
  dft m (fun i => W (4 * m)%Z (i * (2 * h + 1))%Z * ((x i - x (i + 2 * m)%Z) + W 4 (2 * h + 1)%Z * (x (i + m)%Z - x (i + 2 * m + m)%Z)))%C l.
Proof.
  intros Hm. rewrite (dft_block 4 m x (2 * h + 1) l) by lia.
  apply dft_ext. intros j Hj. unfold dft. rewrite Csum_4, W4_2.
  replace (W 4 (0 * (2 * h + 1))) with C1 by (rewrite Z.mul_0_l; symmetry; apply W_0).
  replace (1 * (2 * h + 1)) with (2 * h + 1) by ring.
  replace (W 4 (3 * (2 * h + 1))) with (- W 4 (2 * h + 1))%C.
  2:{ replace (3 * (2 * h + 1)) with (2 * (2 * h + 1) + (2 * h + 1)) by ring. rewrite (W_add 4 (2 * (2 * h + 1)) (2 * h + 1)), W4_2. ring. }
  replace (0 * m + j) with j by ring. replace (1 * m + j) with (j + m) by ring.
  replace (2 * m + j) with (j + 2 * m) by ring. replace (3 * m + j) with (j + 2 * m + m) by ring. ring.
Qed.
(** prime factor algorithm *)
Lemma pfa_math n1 n2 x k : 0 < n1 -> 0 < n2 -> Z.gcd n1 n2 = 1 ->
  dft (n1 * n2) x k = dft n2 (fun i2 => dft n1 (fun i1 => x ((i1 * n2 + i2 * n1) mod (n1 * n2))%Z) k) k.
Proof.
  intros H1 H2 Hg. assert (Hr : rel_prime n1 n2) by (apply Zgcd_1_rel_prime; exact Hg).
  set (sig := fun j => ((j / n2) * n2 + (j mod n2) * n1) mod (n1 * n2)).
  assert (HN : 0 < n1 * n2) by nia.
  unfold dft at 1. rewrite <- (Csum_reindex (n1 * n2) sig).
  - rewrite Csum_split by lia. unfold dft. rewrite Csum_swap.
    apply Csum_ext. intros i2 Hi2. rewrite <- Csum_mul_r. apply Csum_ext. intros i1 Hi1.
    assert (Es : sig (i1 * n2 + i2) = (i1 * n2 + i2 * n1) mod (n1 * n2)).
    { unfold sig. replace ((i1 * n2 + i2) / n2) with i1 by (apply (Z.div_unique_pos _ _ _ i2); lia).
      replace ((i1 * n2 + i2) mod n2) with i2 by (apply (Z.mod_unique_pos _ _ i1 i2); lia). reflexivity. }
    rewrite Es.
    replace (W (n1 * n2) ((i1 * n2 + i2 * n1) mod (n1 * n2) * k)) with (W n1 (i1 * k) * W n2 (i2 * k))%C; [ring|].
    rewrite <- (W_scale n1 n2 (i1 * k)) by lia. rewrite <- (W_scale_l n2 n1 (i2 * k)) by lia. rewrite <- W_add.
    apply W_congr; [lia|]. pose proof (Z.div_mod (i1 * n2 + i2 * n1) (n1 * n2) ltac:(lia)) as D.
    exists ((i1 * n2 + i2 * n1) / (n1 * n2) * k).
    replace ((i1 * n2 + i2 * n1) mod (n1 * n2)) with (i1 * n2 + i2 * n1 - n1 * n2 * ((i1 * n2 + i2 * n1) / (n1 * n2))) by lia. ring.
  - intros i Hi. apply Z.mod_pos_bound. lia.
  - intros i j Hi Hj E. unfold sig in E. apply mod_eq_divide in E; [|lia].
    pose proof (Z.div_mod i n2 ltac:(lia)). pose proof (Z.div_mod j n2 ltac:(lia)).
    pose proof (Z.mod_pos_bound i n2 ltac:(lia)). pose proof (Z.mod_pos_bound j n2 ltac:(lia)).
    assert (0 <= i / n2 < n1) by (split; [apply Z.div_pos; lia|apply Z.div_lt_upper_bound; nia]).
    assert (0 <= j / n2 < n1) by (split; [apply Z.div_pos; lia|apply Z.div_lt_upper_bound; nia]).
    assert (Ea : i mod n2 = j mod n2).
    { apply (small_divide_eq n2); auto. apply (Gauss n2 n1); [|apply rel_prime_sym; exact Hr].
      destruct E as (q & Eq). exists (q * n1 - (i / n2 - j / n2)). nia. }
    assert (Eb : i / n2 = j / n2).
    { apply (small_divide_eq n1); auto. apply (Gauss n1 n2); [|exact Hr].
      destruct E as (q & Eq). exists (q * n2). rewrite Ea in Eq. nia. }
    rewrite H, H0. now rewrite Ea, Eb.
Qed.
(** pairing the terms of the sum, for odd n *)
Lemma sum_pairs n x : 0 < n -> Z.odd n = true ->
  Csum n x = (x 0%Z + Csum ((n + 1) / 2 - 1) (fun i => x (1 + i)%Z + x (n - (1 + i))%Z))%C.
Proof.
  intros Hn Ho. apply Zodd_bool_iff in Ho. apply Zodd_ex in Ho as (h & ->).
  replace ((2 * h + 1 + 1) / 2 - 1) with h by (replace (2 * h + 1 + 1) with ((h + 1) * 2) by ring; rewrite Z.div_mul by lia; lia).
  assert (0 <= h) by lia.
  replace (2 * h + 1) with (1 + (h + h)) at 1 by ring. rewrite Csum_app, Csum_1, Csum_app by lia.
  rewrite Csum_add. f_equal. f_equal.
  rewrite <- (Csum_reindex h (fun i => h - 1 - i)).
  - apply Csum_ext. intros i Hi. f_equal. ring.
  - intros i Hi. lia.
  - intros i j Hi Hj E. lia.
Qed.
