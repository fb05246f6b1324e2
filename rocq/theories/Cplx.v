(** * Complex numbers over Coq's reals, roots of unity and finite sums. *)
From Coq Require Import Reals ZArith List Lia Lra Bool Permutation.
Import ListNotations.
Open Scope Z_scope.

Definition C : Type := (R * R)%type.
Definition C0 : C := (0, 0)%R.
Definition C1 : C := (1, 0)%R.
Definition cadd (a b : C) : C := (fst a + fst b, snd a + snd b)%R.
Definition copp (a : C) : C := (- fst a, - snd a)%R.
Definition csub (a b : C) : C := (fst a - fst b, snd a - snd b)%R.
Definition cmul (a b : C) : C :=
  (fst a * fst b - snd a * snd b, fst a * snd b + snd a * fst b)%R.
Definition conj (a : C) : C := (fst a, - snd a)%R.
Definition cscal (r : R) (a : C) : C := (r * fst a, r * snd a)%R.
(** exchange of real and imaginary part *)
Definition swapc (a : C) : C := (snd a, fst a).
Definition RtoC (r : R) : C := (r, 0%R).

Declare Scope C_scope.
Delimit Scope C_scope with C.
Infix "+" := cadd : C_scope.
Infix "*" := cmul : C_scope.
Infix "-" := csub : C_scope.
Notation "- a" := (copp a) : C_scope.

Lemma C_eq (a b : C) : fst a = fst b -> snd a = snd b -> a = b.
Proof. destruct a, b; cbn; intros; subst; reflexivity. Qed.

Lemma C_ring_theory : ring_theory C0 C1 cadd cmul csub copp (@eq C).
Proof.
  constructor; intros; apply C_eq; unfold cadd, cmul, csub, copp, C0, C1; cbn; ring.
Qed.
Add Ring C_ring : C_ring_theory.

(** exp(i*t) *)
Definition cis (t : R) : C := (cos t, sin t).

Lemma cis_add a b : cis (a + b)%R = (cis a * cis b)%C.
Proof. apply C_eq; unfold cis, cmul; cbn; [rewrite cos_plus|rewrite sin_plus]; ring. Qed.

Lemma cis_0 : cis 0%R = C1.
Proof. apply C_eq; unfold cis, C1; cbn; [apply cos_0|apply sin_0]. Qed.

Lemma cis_period_nat x k : cis (x + 2 * INR k * PI)%R = cis x.
Proof. unfold cis. now rewrite cos_period, sin_period. Qed.

Lemma cis_period x (k : Z) : cis (x + 2 * IZR k * PI)%R = cis x.
Proof.
  destruct (Z_le_gt_dec 0 k) as [H|H].
  - replace (IZR k) with (INR (Z.to_nat k)).
    + apply cis_period_nat.
    + rewrite INR_IZR_INZ, Z2Nat.id; auto.
  - rewrite <- (cis_period_nat (x + 2 * IZR k * PI) (Z.to_nat (- k))).
    f_equal. rewrite INR_IZR_INZ, Z2Nat.id by lia. rewrite opp_IZR. ring.
Qed.

(** [W n k] = exp(-2 pi i k / n): the twiddle factor of the forward (sign -1)
    transform. *)
Definition W (n k : Z) : C := cis (- (2 * PI * IZR k / IZR n))%R.

Lemma W_add n a b : W n (a + b) = (W n a * W n b)%C.
Proof.
  unfold W. rewrite <- cis_add. f_equal. rewrite plus_IZR. unfold Rdiv. ring.
Qed.

Lemma W_0 n : W n 0 = C1.
Proof. unfold W. rewrite <- cis_0. f_equal. unfold Rdiv. ring. Qed.

Lemma W_period n k q : n <> 0 -> W n (k + n * q) = W n k.
Proof.
  intros Hn. unfold W.
  rewrite <- (cis_period (- (2 * PI * IZR k / IZR n)) (- q)).
  f_equal. rewrite plus_IZR, mult_IZR, opp_IZR. field. apply not_0_IZR; exact Hn.
Qed.

Lemma W_mult n q : n <> 0 -> W n (n * q) = C1.
Proof. intros Hn. rewrite <- (W_0 n), <- (W_period n 0 q Hn). f_equal. Qed.

Lemma W_mod n k : n <> 0 -> W n (k mod n) = W n k.
Proof.
  intros Hn. rewrite (Z.div_mod k n Hn) at 2. rewrite Z.add_comm. now rewrite W_period.
Qed.

Lemma W_congr n a b : n <> 0 -> (n | a - b) -> W n a = W n b.
Proof.
  intros Hn (q & Hq). replace a with (b + n * q) by lia. now apply W_period.
Qed.

Lemma W_scale n m k : n <> 0 -> m <> 0 -> W (n * m) (m * k) = W n k.
Proof.
  intros Hn Hm. unfold W. f_equal. rewrite !mult_IZR. field.
  split; apply not_0_IZR; auto.
Qed.

Lemma W_scale_l n m k : n <> 0 -> m <> 0 -> W (m * n) (m * k) = W n k.
Proof. intros Hn Hm. rewrite (Z.mul_comm m n). now apply W_scale. Qed.

Lemma W_neg n k : W n (- k) = conj (W n k).
Proof.
  unfold W, conj, cis. cbn. rewrite opp_IZR.
  replace (- (2 * PI * - IZR k / IZR n))%R with (- - (2 * PI * IZR k / IZR n))%R by (unfold Rdiv; ring).
  rewrite cos_neg, sin_neg. reflexivity.
Qed.

Lemma W_conj_mul n k : (W n k * conj (W n k))%C = C1.
Proof. rewrite <- W_neg, <- W_add, Z.add_opp_diag_r. apply W_0. Qed.

Lemma conj_mul a b : conj (a * b)%C = (conj a * conj b)%C.
Proof. apply C_eq; unfold conj, cmul; cbn; ring. Qed.
Lemma conj_add a b : conj (a + b)%C = (conj a + conj b)%C.
Proof. apply C_eq; unfold conj, cadd; cbn; ring. Qed.
Lemma conj_conj a : conj (conj a) = a.
Proof. apply C_eq; unfold conj; cbn; ring. Qed.
Lemma swapc_mul_W a n k : swapc (a * W n k)%C = (swapc a * W n (- k))%C.
Proof. rewrite W_neg. apply C_eq; unfold swapc, cmul, conj; cbn; ring. Qed.

(** W n k = 1 iff n divides k *)
Lemma cos_1_iff_aux t : (0 < t < 2 * PI)%R -> cos t <> 1%R.
Proof.
  intros [H1 H2] H.
  assert (Hs : (sin (t / 2) <> 0)%R).
  { apply Rgt_not_eq. apply sin_gt_0; lra. }
  assert (Hc : cos t = (1 - 2 * sin (t / 2) * sin (t / 2))%R).
  { replace t with (2 * (t / 2))%R at 1 by field. apply cos_2a_sin. }
  assert (Hz : (sin (t / 2) * sin (t / 2) = 0)%R) by lra.
  apply Rmult_integral in Hz. tauto.
Qed.

Lemma W_neq_1 n k : 0 < n -> ~ (n | k) -> W n k <> C1.
Proof.
  intros Hn Hd H. rewrite <- W_mod in H by lia.
  pose proof (Z.mod_pos_bound k n Hn) as Hb.
  assert (Hr : k mod n <> 0) by (intros E; apply Hd; apply Z.mod_divide; lia).
  set (j := k mod n) in *.
  unfold W, cis, C1 in H. injection H as Hc _.
  rewrite cos_neg in Hc. revert Hc. apply cos_1_iff_aux.
  pose proof PI_RGT_0.
  assert (0 < IZR n)%R by (apply IZR_lt; lia).
  assert (0 < IZR j)%R by (apply IZR_lt; lia).
  assert (IZR j < IZR n)%R by (apply IZR_lt; lia).
  split.
  - apply Rdiv_lt_0_compat; auto. apply Rmult_lt_0_compat; lra.
  - apply Rmult_lt_reg_r with (IZR n); auto.
    unfold Rdiv. rewrite Rmult_assoc, Rinv_l, Rmult_1_r by lra.
    apply Rmult_lt_compat_l; lra.
Qed.

(** ** Finite sums: [Csum n f] = f 0 + ... + f (n-1), empty for n <= 0. *)

Fixpoint nsum (n : nat) (f : Z -> C) : C :=
  match n with O => C0 | S k => (nsum k f + f (Z.of_nat k))%C end.
Definition Csum (n : Z) (f : Z -> C) : C := nsum (Z.to_nat n) f.

Lemma Csum_0 f : Csum 0 f = C0. Proof. reflexivity. Qed.

Lemma Csum_neg n f : n <= 0 -> Csum n f = C0.
Proof. intros H. unfold Csum. replace (Z.to_nat n) with O by lia. reflexivity. Qed.

Lemma Csum_succ n f : 0 <= n -> Csum (n + 1) f = (Csum n f + f n)%C.
Proof.
  intros H. unfold Csum. replace (Z.to_nat (n + 1)) with (S (Z.to_nat n)) by lia.
  cbn [nsum]. now rewrite Z2Nat.id.
Qed.

Lemma Csum_1 f : Csum 1 f = f 0.
Proof. change 1 with (0 + 1). rewrite Csum_succ, Csum_0 by lia. ring. Qed.

Lemma Csum_ind (P : Z -> Prop) : P 0 -> (forall n, 0 <= n -> P n -> P (n + 1)) -> forall n, 0 <= n -> P n.
Proof. intros H0 HS n Hn. pattern n. apply natlike_ind; auto. Qed.

Lemma Csum_ext n f g : (forall i, 0 <= i < n -> f i = g i) -> Csum n f = Csum n g.
Proof.
  destruct (Z_le_gt_dec n 0) as [Hn|Hn]; [intros; now rewrite !Csum_neg|].
  assert (H : 0 <= n) by lia. clear Hn. revert f g. pattern n. apply Csum_ind; [reflexivity| |exact H].
  intros k Hk IH f g E. rewrite !Csum_succ by lia. rewrite (IH f g), E; auto; [lia|].
  intros i Hi. apply E; lia.
Qed.

Lemma Csum_zero n f : (forall i, 0 <= i < n -> f i = C0) -> Csum n f = C0.
Proof.
  intros H. rewrite (Csum_ext n f (fun _ => C0) H). clear H.
  destruct (Z_le_gt_dec n 0) as [Hn|Hn]; [now apply Csum_neg|].
  pattern n. apply Csum_ind; [reflexivity| |lia].
  intros k Hk IH. rewrite Csum_succ, IH by lia. ring.
Qed.

Lemma Csum_add n f g : Csum n (fun i => f i + g i)%C = (Csum n f + Csum n g)%C.
Proof.
  destruct (Z_le_gt_dec n 0) as [Hn|Hn]; [rewrite !Csum_neg by lia; ring|].
  pattern n. apply Csum_ind; [rewrite !Csum_0; ring| |lia].
  intros k Hk IH. rewrite !Csum_succ, IH by lia. ring.
Qed.

Lemma Csum_mul_l n a f : Csum n (fun i => a * f i)%C = (a * Csum n f)%C.
Proof.
  destruct (Z_le_gt_dec n 0) as [Hn|Hn]; [rewrite !Csum_neg by lia; ring|].
  pattern n. apply Csum_ind; [rewrite !Csum_0; ring| |lia].
  intros k Hk IH. rewrite !Csum_succ, IH by lia. ring.
Qed.

Lemma Csum_mul_r n a f : Csum n (fun i => f i * a)%C = (Csum n f * a)%C.
Proof.
  transitivity (Csum n (fun i => a * f i)%C).
  - apply Csum_ext. intros; ring.
  - rewrite Csum_mul_l. ring.
Qed.

Lemma Csum_swap n m f : Csum n (fun i => Csum m (fun j => f i j)) = Csum m (fun j => Csum n (fun i => f i j)).
Proof.
  destruct (Z_le_gt_dec n 0) as [Hn|Hn].
  - rewrite Csum_neg by lia. symmetry. apply Csum_zero. intros; apply Csum_neg; lia.
  - pattern n. apply Csum_ind; [|intros k Hk IH|lia].
    + rewrite Csum_0. symmetry. apply Csum_zero. intros; apply Csum_0.
    + rewrite Csum_succ, IH by lia. rewrite <- Csum_add. apply Csum_ext.
      intros j Hj. now rewrite Csum_succ by lia.
Qed.

Lemma Csum_app a b f : 0 <= a -> 0 <= b -> Csum (a + b) f = (Csum a f + Csum b (fun i => f (a + i)%Z))%C.
Proof.
  intros Ha Hb. pattern b. apply Csum_ind; [|intros k Hk IH|lia].
  - rewrite Z.add_0_r, Csum_0. ring.
  - replace (a + (k + 1)) with (a + k + 1) by ring. rewrite !Csum_succ, IH by lia. ring.
Qed.

(** splitting an index i = i1 * m + i2 *)
Lemma Csum_split r m f : 0 <= r -> 0 <= m ->
  Csum (r * m) f = Csum r (fun i1 => Csum m (fun i2 => f (i1 * m + i2))).
Proof.
  intros Hr Hm. pattern r. apply Csum_ind; [reflexivity|intros k Hk IH|lia].
  replace ((k + 1) * m) with (k * m + m) by ring.
  rewrite Csum_app by nia. rewrite Csum_succ, IH by lia. reflexivity.
Qed.

Lemma Csum_delta n k f : 0 <= k < n -> (forall i, 0 <= i < n -> i <> k -> f i = C0) -> Csum n f = f k.
Proof.
  intros Hk Hz. replace n with (k + (1 + (n - k - 1))) by ring.
  rewrite Csum_app, Csum_app by lia. rewrite Csum_1, Z.add_0_r.
  rewrite Csum_zero, (Csum_zero (n - k - 1)).
  - ring.
  - intros i Hi. apply Hz; lia.
  - intros i Hi. apply Hz; lia.
Qed.

(** ** Sums over lists and reindexing *)
Definition lsum {A} (l : list A) (f : A -> C) : C := fold_right (fun x s => (f x + s)%C) C0 l.

Lemma lsum_app {A} (l1 l2 : list A) f : lsum (l1 ++ l2) f = (lsum l1 f + lsum l2 f)%C.
Proof. unfold lsum. induction l1 as [|x l IH]; cbn [app fold_right]; [ring|]. rewrite IH. ring. Qed.

Lemma lsum_perm {A} (l l' : list A) f : Permutation.Permutation l l' -> lsum l f = lsum l' f.
Proof.
  unfold lsum. induction 1; cbn [fold_right]; try ring; try congruence.
Qed.

Lemma lsum_map {A B} (g : A -> B) l f : lsum (map g l) f = lsum l (fun x => f (g x)).
Proof. unfold lsum. induction l as [|x l IH]; cbn; [reflexivity|]. now rewrite IH. Qed.

Lemma lsum_ext {A} (l : list A) f g : (forall x, In x l -> f x = g x) -> lsum l f = lsum l g.
Proof.
  unfold lsum. induction l as [|x l IH]; cbn; intros H; [reflexivity|].
  rewrite H by now left. rewrite IH; [reflexivity|]. intros; apply H; now right.
Qed.

From Verif Require Import NumTheory.

Lemma Csum_lsum n f : Csum n f = lsum (zrange 0 (Z.to_nat n)) f.
Proof.
  unfold Csum, zrange. induction (Z.to_nat n) as [|k IH]; [reflexivity|].
  rewrite seq_S, map_app, lsum_app. cbn [nsum]. rewrite IH. cbn [map lsum fold_right].
  rewrite Nat.add_0_l, Z.add_0_l. ring.
Qed.

(** reindexing by an injective map of [0,n) into itself *)
Lemma Csum_reindex n s f :
  (forall i, 0 <= i < n -> 0 <= s i < n) ->
  (forall i j, 0 <= i < n -> 0 <= j < n -> s i = s j -> i = j) ->
  Csum n (fun i => f (s i)) = Csum n f.
Proof.
  intros Hr Hi. rewrite !Csum_lsum. rewrite <- (lsum_map s).
  apply lsum_perm. apply Permutation.NoDup_Permutation_bis.
  - apply NoDup_map_inj; [|apply NoDup_zrange]. intros x y Hx Hy. apply in_zrange in Hx, Hy. apply Hi; lia.
  - rewrite map_length. lia.
  - intros y Hy. apply in_map_iff in Hy as (x & <- & Hx). apply in_zrange in Hx. apply in_zrange.
    specialize (Hr x ltac:(lia)). lia.
Qed.

(** ** Orthogonality of the characters *)
Lemma W_geom n q : (Csum n (fun j => W n (j * q)) * (W n q - C1))%C = (W n (n * q) - C1)%C \/ n <= 0.
Proof.
  destruct (Z_le_gt_dec n 0) as [Hn|Hn]; [now right|left].
  assert (G : forall k, 0 <= k -> (Csum k (fun j => W n (j * q)) * (W n q - C1))%C = (W n (k * q) - C1)%C).
  { intros k Hk. pattern k. apply Csum_ind; [|intros j Hj IH|exact Hk].
    - rewrite Csum_0, Z.mul_0_l, W_0. ring.
    - rewrite Csum_succ by lia.
      replace ((j + 1) * q) with (j * q + q) by ring. rewrite W_add.
      replace ((Csum j (fun j => W n (j * q)) + W n (j * q)) * (W n q - C1))%C
        with (Csum j (fun j => W n (j * q)) * (W n q - C1) + W n (j * q) * (W n q - C1))%C by ring.
      rewrite IH. ring. }
  apply G. lia.
Qed.

Lemma C_integral a b : (a * b)%C = C0 -> b <> C0 -> a = C0.
Proof.
  intros H Hb. destruct a as [x y], b as [u v]. unfold cmul, C0 in H. cbn in H. injection H as H1 H2.
  assert (Hn : (u * u + v * v <> 0)%R).
  { intros E. apply Hb. assert (u = 0 /\ v = 0)%R as [-> ->]; [|reflexivity].
    assert (0 <= u * u)%R by apply Rle_0_sqr. assert (0 <= v * v)%R by apply Rle_0_sqr.
    split; apply Rsqr_0_uniq; unfold Rsqr; lra. }
  apply C_eq; cbn.
  - assert ((u * u + v * v) * x = 0)%R by (replace ((u * u + v * v) * x)%R with (u * (x * u - y * v) + v * (x * v + y * u))%R by ring; rewrite H1, H2; ring).
    apply Rmult_integral in H. tauto.
  - assert ((u * u + v * v) * y = 0)%R by (replace ((u * u + v * v) * y)%R with (u * (x * v + y * u) - v * (x * u - y * v))%R by ring; rewrite H1, H2; ring).
    apply Rmult_integral in H. tauto.
Qed.

Lemma W_orth_zero n q : 0 < n -> ~ (n | q) -> Csum n (fun j => W n (j * q)) = C0.
Proof.
  intros Hn Hd. destruct (W_geom n q) as [H|H]; [|lia].
  rewrite W_mult in H by lia. apply (C_integral _ (W n q - C1)%C).
  - rewrite H. ring.
  - intros E. apply (W_neq_1 n q Hn Hd).
    replace (W n q) with ((W n q - C1) + C1)%C by ring. rewrite E. ring.
Qed.

Lemma Csum_const n c : 0 <= n -> Csum n (fun _ => c) = cscal (IZR n) c.
Proof.
  intros H. pattern n. apply Csum_ind; [|intros k Hk IH|exact H].
  - rewrite Csum_0. apply C_eq; unfold cscal; cbn; ring.
  - rewrite Csum_succ, IH by lia. rewrite plus_IZR. apply C_eq; unfold cscal, cadd; cbn; ring.
Qed.

Lemma W_orth_n n q : 0 < n -> (n | q) -> Csum n (fun j => W n (j * q)) = RtoC (IZR n).
Proof.
  intros Hn (c & ->). rewrite (Csum_ext n _ (fun _ => C1)).
  - rewrite Csum_const by lia. apply C_eq; unfold cscal, RtoC, C1; cbn; ring.
  - intros i Hi. replace (i * (c * n)) with (n * (i * c)) by ring. apply W_mult. lia.
Qed.

(** ** The discrete Fourier transform (sign -1, unnormalised) *)
Definition dft (n : Z) (x : Z -> C) (k : Z) : C := Csum n (fun j => x j * W n (j * k))%C.

Lemma dft_ext n x y k : (forall j, 0 <= j < n -> x j = y j) -> dft n x k = dft n y k.
Proof. intros H. apply Csum_ext. intros j Hj. now rewrite H. Qed.

Lemma dft_mod n x k : 0 < n -> dft n x (k mod n) = dft n x k.
Proof.
  intros Hn. apply Csum_ext. intros j Hj. f_equal. apply W_congr; [lia|].
  exists (- (j * (k / n))). pose proof (Z.div_mod k n ltac:(lia)). nia.
Qed.

(** Cooley-Tukey, n = r * m, input index j = j2 * r + j1, output index
    k = k1 * m + k2 : inner DFTs of size m, twiddle, outer DFTs of size r. *)
Lemma cooley_tukey r m x k1 k2 : 0 < r -> 0 < m ->
  dft (r * m) x (k1 * m + k2) =
  dft r (fun j1 => dft m (fun j2 => x (j2 * r + j1)%Z) k2 * W (r * m)%Z (j1 * k2)%Z)%C k1.
Proof.
  intros Hr Hm. unfold dft. rewrite (Z.mul_comm r m). rewrite Csum_split by lia.
  rewrite Csum_swap. apply Csum_ext. intros j1 Hj1.
  rewrite <- !Csum_mul_r. apply Csum_ext. intros j2 Hj2.
  replace ((j2 * r + j1) * (k1 * m + k2)) with ((r * (j2 * k2)) + (m * (j1 * k1)) + j1 * k2 + (m * r) * (j2 * k1)) by ring.
  rewrite W_period by nia. rewrite !W_add.
  rewrite W_scale by lia. rewrite W_scale_l by lia. ring.
Qed.
