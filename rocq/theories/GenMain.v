(** * Fft.dft builds the DFT for every size *)
From Coq Require Import Reals ZArith Znumtheory List Lia Lra Bool.
From Verif Require Import NumTheory Cplx DftMath GenExpr GenCplx GenNum GenFft GenMath GenProofs GenRader GenNewsplit.
Import ListNotations.
Open Scope Z_scope.

Lemma choose1_ok n : 0 < n -> forall fuel i f, 1 <= i <= n + 1 -> (Z.to_nat (n + 1 - i) < fuel)%nat ->
  1 <= f -> (f | n) -> f * f <= n -> exists r, choose1 fuel n i f = Some r /\ 1 <= r /\ (r | n) /\ r * r <= n.
Proof.
  intros Hn. induction fuel as [|k IH]; intros i f Hi Hf H1 Hd H2; [lia|]. cbn [choose1].
  destruct (i * i >? n) eqn:E; [exists f; auto|]. assert (i * i <= n) by lia. assert (i + 1 <= n + 1) by nia.
  destruct (omod n i =? 0) eqn:Ed.
  - apply omod_zero in Ed; [|lia]. pose proof Ed as (q & Eq).
    replace (odiv n i) with q by (rewrite odiv_pos by lia; rewrite Eq, Z.div_mul by lia; reflexivity).
    rewrite gcd_ok by nia. destruct (Z.gcd i q =? 1); apply IH; auto; lia.
  - apply IH; auto; lia.
Qed.
Lemma choose2_ok n : 0 < n -> forall fuel i f, 1 <= i <= n + 1 -> (Z.to_nat (n + 1 - i) < fuel)%nat ->
  1 <= f -> (f | n) -> f * f <= n -> (f = 1 -> forall d, 1 < d < i -> ~ (d | n)) ->
  exists r, choose2 fuel n i f = Some r /\ 1 <= r /\ (r | n) /\ r * r <= n /\
    (r = 1 -> forall d, 1 < d -> d * d <= n -> ~ (d | n)).
Proof.
  intros Hn. induction fuel as [|k IH]; intros i f Hi Hf H1 Hd H2 H3; [lia|]. cbn [choose2].
  destruct (i * i >? n) eqn:E.
  { exists f. split; [reflexivity|]. split; [auto|]. split; [auto|]. split; [auto|].
    intros F d D1 D2. apply H3; auto. split; auto. nia. }
  assert (i * i <= n) by lia. assert (i + 1 <= n + 1) by nia.
  destruct (omod n i =? 0) eqn:Ed.
  - apply omod_zero in Ed; [|lia]. apply IH; auto; try lia.
  - assert (~ (i | n)). { intros F. apply omod_zero in F; [congruence|lia]. }
    apply IH; auto; try lia. intros F d Hdi. destruct (Z.eq_dec d i) as [->|]; auto. apply H3; auto. lia.
Qed.
Lemma choose_factor_ok n : 0 < n ->
  exists r, choose_factor n = Some r /\ 1 <= r /\ (r | n) /\ r * r <= n /\ (r = 1 -> n = 1 \/ prime n).
Proof.
  intros Hn. unfold choose_factor.
  destruct (choose1_ok n Hn (S (Z.to_nat n)) 1 1) as (i & -> & I1 & I2 & I3); try lia; [apply Z.divide_1_l|].
  destruct (i >? 1) eqn:E.
  { exists i. repeat (split; auto). intros F. lia. }
  destruct (choose2_ok n Hn (S (Z.to_nat n)) 1 1) as (r & -> & R1 & R2 & R3 & R4); try lia; [apply Z.divide_1_l|].
  exists r. split; [reflexivity|]. split; [auto|]. split; [auto|]. split; [auto|]. intros ->.
  destruct (Z.eq_dec n 1); [now left|]. right. apply prime_alt. split; [lia|].
  intros d Hd F. destruct F as (q & Eq). assert (1 < q) by nia.
  destruct (Z_le_gt_dec (d * d) n).
  - apply (R4 eq_refl d); auto; [lia|]. exists q. exact Eq.
  - apply (R4 eq_refl q); auto; [nia|]. exists d. lia.
Qed.

(** the settings under which the generator is meant to be run: -rader-min at least 2, and only
    primes in the list of sizes for which Rader's algorithm is forced (magic.ml:28-29) *)
Definition magic_ok (M : magic) : Prop := 2 <= rader_min M /\ forall p, In p (rader_list M) -> prime p.

Section Main.
  Variable pheq : expr -> expr -> bool.
  Variable M : magic.
  Variable env : variable -> C.
  Hypothesis pheq_eq : forall a b, pheq a b = true -> a = b.
  Hypothesis Hmagic : magic_ok M.
  Notation den := (den env).

  Lemma algorithm_ok rec s sign n x input k : rec_ok env rec n -> sign = 1 \/ sign = -1 ->
    (forall j, 0 <= j < n -> den s (input j) (x j)) -> 0 <= k < n ->
    den s (algorithm pheq M rec sign n input k) (dft n x (- (sg s * sign) * k)).
  Proof.
    intros Hrec Hs Hin Hk. assert (Hn : 0 < n) by lia. unfold algorithm.
    destruct (choose_factor_ok n Hn) as (r & -> & R1 & R2 & R3 & R4).
    destruct (existsb (Z.eqb n) (rader_list M)) eqn:ER.
    { apply existsb_exists in ER as (p & Hp & Ep). apply Z.eqb_eq in Ep. subst p.
      apply (dft_rader_ok pheq M env pheq_eq rec n Hrec); auto; [|lia]. apply Hmagic. exact Hp. }
    destruct (r =? 1) eqn:E1.
    { apply Z.eqb_eq in E1. specialize (R4 E1). unfold dft_prime. destruct Hmagic as [Hmin _].
      destruct (n >=? rader_min M) eqn:Em.
      - apply (dft_rader_ok pheq M env pheq_eq rec n Hrec); auto; [|lia]. destruct R4 as [->|]; auto. lia.
      - destruct (n =? 2) eqn:E2.
        + apply computation_even_ok; auto.
        + apply computation_odd_ok; auto. apply Z.eqb_neq in E2. destruct R4 as [->|Hp]; [reflexivity|].
          destruct (Z.odd n) eqn:Eo; auto. exfalso. apply E2.
          rewrite <- Z.negb_even in Eo. apply negb_false_iff in Eo. apply Z.even_spec in Eo as (h & Eh).
          assert (D : (2 | n)) by (exists h; lia). apply prime_div_prime in D; auto using prime_2. }
    apply Z.eqb_neq in E1. destruct R2 as (q & Eq).
    replace (odiv n r) with q by (rewrite odiv_pos by lia; rewrite Eq, Z.div_mul by lia; reflexivity).
    assert (Hq : 0 < q) by nia. assert (Hq2 : r <= q) by nia.
    assert (Eq' : n = r * q) by lia.
    rewrite gcd_ok by lia. destruct (Z.gcd r q =? 1) eqn:Eg.
    { apply Z.eqb_eq in Eg. apply (prime_factor_ok env rec n Hrec); auto; nia. }
    destruct ((omod n 4 =? 0) && (n >? 4)) eqn:E4.
    - apply andb_true_iff in E4 as [E4 E5]. apply omod_zero in E4; [|lia]. destruct E4 as (m & Em).
      destruct (use_newsplit M && is_power_of_two n) eqn:En.
      + apply andb_true_iff in En as [_ En]. apply is_power_of_two_ok in En as (e & ->).
        apply (newsplit_ok pheq M env pheq_eq s sign Hs e x input k Hin Hk).
      + replace n with (4 * m) in * by lia. destruct (dif_split_radix M).
        * apply (split_radix_dif_ok pheq M env pheq_eq rec (4 * m) Hrec); auto; lia.
        * apply (split_radix_dit_ok pheq M env pheq_eq rec (4 * m) Hrec); auto; lia.
    - apply (cooley_tukey_ok pheq M env pheq_eq rec n Hrec); auto; nia.
  Qed.
  Lemma dft_fuel_ok fuel : rec_ok env (dft_fuel pheq M fuel) (Z.of_nat fuel).
  Proof.
    induction fuel as [|f IH]; intros s sign n x input Hs Hn Hin k Hk; [lia|].
    cbn [dft_fuel]. rewrite array_in by auto. apply algorithm_ok; auto.
    intros s' sign' n' x' input' Hs' Hn'. apply IH; auto. lia.
  Qed.
  Theorem fft_dft_ok s sign n x input k : sign = 1 \/ sign = -1 ->
    (forall j, 0 <= j < n -> den s (input j) (x j)) -> 0 <= k < n ->
    den s (fft_dft pheq M sign n input k) (dft n x (- (sg s * sign) * k)).
  Proof. intros Hs Hin Hk. unfold fft_dft. apply dft_fuel_ok; auto. lia. Qed.
End Main.
