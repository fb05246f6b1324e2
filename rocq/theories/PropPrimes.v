(** * Properties C07, C08, C09: kernel/primes.c *)
From Coq Require Import ZArith Znumtheory List Lia Bool Sorted.
From Verif Require Import Base PrimesModel NumTheory PrimesProofs.
Import ListNotations.
Open Scope Z_scope.

(** INT_MAX of the type INT (ptrdiff_t): at least 32 and at most 64 bits. *)
Definition INT_ok (M : Z) : Prop := 2 ^ 31 - 1 <= M /\ M < 2 ^ 64.

Definition INT64_MAX : Z := 9223372036854775807.
Definition INT32_MAX : Z := 2147483647.

Example INT64_ok : INT_ok INT64_MAX. Proof. unfold INT_ok, INT64_MAX; lia. Qed.
Example INT32_ok : INT_ok INT32_MAX. Proof. unfold INT_ok, INT32_MAX; lia. Qed.

(** C07: products and powers modulo p are exact and nothing overflows
    ([Ret], never [UB], although every intermediate result is range checked). *)
Theorem C07_safe_mulmod : forall M x y p,
  0 <= x < p -> 0 <= y < p -> p <= M -> safe_mulmod M x y p = Ret ((x * y) mod p).
Proof. exact safe_mulmod_spec. Qed.
Print Assumptions C07_safe_mulmod.

Theorem C07_MULMOD : forall M x y p, INT_ok M ->
  0 <= x < p -> 0 <= y < p -> p <= M -> MULMOD M x y p = Ret ((x * y) mod p).
Proof. intros M x y p [HM _] Hx Hy Hp. exact (MULMOD_spec M x y p Hx Hy Hp HM). Qed.
Print Assumptions C07_MULMOD.

Theorem C07_power_mod : forall M n m p, INT_ok M ->
  0 <= n < p -> 1 < p -> p <= M -> 0 <= m -> power_mod M n m p = Ret (n ^ m mod p).
Proof. intros M n m p [HM _]. exact (power_mod_spec M n m p HM). Qed.
Print Assumptions C07_power_mod.

Example C07_case :
  safe_mulmod INT64_MAX 9223372036854775806 9223372036854775805 9223372036854775807 = Ret 2 /\
  power_mod INT32_MAX 7 2147483646 INT32_MAX = Ret 1.
Proof. split; vm_compute; reflexivity. Qed.

(** C08 *)
Theorem C08_prime_factors : forall M n, INT_ok M -> 0 < n <= M -> (2 | n) ->
  exists l, get_prime_factors M n = Ret l /\ StronglySorted Z.lt l /\ (length l <= 15)%nat /\
            (forall q, In q l <-> prime q /\ (q | n)).
Proof.
  intros M n [HM H64] Hn H2. apply get_prime_factors_spec; auto. lia.
Qed.
Print Assumptions C08_prime_factors.

Theorem C08_generator : forall M p, INT_ok M -> prime p -> p <= M ->
  exists g, find_generator M p = Ret g /\ 1 <= g < p /\
    forall x, 1 <= x < p -> exists! k, 0 <= k < p - 1 /\ g ^ k mod p = x.
Proof. intros M p [HM H64] Hp HpM. exact (find_generator_spec M p HM H64 Hp HpM). Qed.
Print Assumptions C08_generator.

Example C08_case : find_generator INT64_MAX 1009 = Ret 11 /\ get_prime_factors INT64_MAX 1008 = Ret [2; 3; 7].
Proof. split; vm_compute; reflexivity. Qed.

(** C09.  [fd_safe M n]: some r with n < r^2 has (r+1)^2 <= INT_MAX, i.e. n is
    not within a few multiples of sqrt(INT_MAX) of INT_MAX. *)
Theorem C09_first_divisor : forall M n, INT_ok M -> 1 < n <= M -> fd_safe M n ->
  exists d, first_divisor M n = Ret d /\ prime d /\ (d | n) /\ forall q, prime q -> (q | n) -> d <= q.
Proof.
  intros M n [HM _] Hn Hs. destruct (first_divisor_spec M n HM) as (d & Hd & _ & H); auto; [lia|].
  exists d. split; auto. apply H; lia.
Qed.
Print Assumptions C09_first_divisor.

Theorem C09_is_prime : forall M n, INT_ok M -> n <= M -> fd_safe M n ->
  exists b, is_prime M n = Ret b /\ (b = true <-> prime n).
Proof. intros M n [HM _]. exact (is_prime_spec M n HM). Qed.
Print Assumptions C09_is_prime.

Theorem C09_next_prime : forall M n q k, INT_ok M -> q <= M -> fd_safe M q -> prime q -> n <= q ->
  - M - 1 <= n -> q - n < 2 ^ Z.of_nat k ->
  exists r, next_prime k M n = Ret r /\ prime r /\ n <= r /\ forall s, prime s -> n <= s -> r <= s.
Proof.
  intros M n q k [HM _] H1 H2 H3 H4 H5 H6.
  destruct (next_prime_spec M n q k HM H1 H2 H3 H4 H5 H6) as (r & Hr & Hp & Hb & Hm).
  exists r. split; [auto|]. split; [auto|]. split; [lia|auto].
Qed.
Print Assumptions C09_next_prime.

(** n is a product of powers of the listed primes *)
Theorem C09_factors_into : forall n ps, 0 < n -> Forall prime ps ->
  exists b, factors_into n ps = Ret b /\ (b = true <-> smooth ps n).
Proof. exact factors_into_spec. Qed.
Print Assumptions C09_factors_into.

Theorem C09_isqrt : forall M n, 0 <= n < M ->
  exists g, isqrt M n = Ret g /\ 0 <= g /\ g * g <= n < (g + 1) * (g + 1).
Proof. exact isqrt_spec. Qed.
Print Assumptions C09_isqrt.

Theorem C09_choose_radix : forall M r n, INT_ok M -> 1 <= n < M -> fd_safe M n -> - M <= r ->
  exists d, choose_radix M r n = Ret d /\
    (0 < r -> (d = r /\ (r | n)) \/ (d = 0 /\ ~ (r | n))) /\
    (r = 0 -> 1 < n -> prime d /\ (d | n) /\ forall q, prime q -> (q | n) -> d <= q) /\
    (r < 0 -> (1 < d /\ n = (- r) * (d * d)) \/ (d = 0 /\ forall q, 1 < q -> n <> (- r) * (q * q))) /\
    (d = 0 \/ (0 < d /\ (d | n))).
Proof. intros M r n [HM _]. exact (choose_radix_spec M r n HM). Qed.
Print Assumptions C09_choose_radix.

Theorem C09_modulo : forall M a n, 0 < n <= M -> - M - 1 <= a <= M -> modulo M a n = Ret (a mod n).
Proof. exact modulo_spec. Qed.
Print Assumptions C09_modulo.

Example C09_case :
  fd_safe INT64_MAX (2 ^ 62) /\
  first_divisor INT64_MAX 10403 = Ret 101 /\ is_prime INT64_MAX 10007 = Ret true /\
  next_prime 10 INT64_MAX 1010 = Ret 1013 /\ isqrt INT64_MAX 99 = Ret 9 /\
  factors_into 360 [2;3;5] = Ret true /\ choose_radix INT64_MAX (-2) 98 = Ret 7 /\
  modulo INT64_MAX (-7) 5 = Ret 3.
Proof.
  split; [exists (2 ^ 31 + 1); unfold INT64_MAX; lia|].
  repeat split; vm_compute; reflexivity.
Qed.

(** Findings: at the very top of the INT range the C code has undefined
    behaviour, so the bounds in C09 cannot simply be dropped. *)
Theorem C09_isqrt_INT_MAX_refuted : forall M, 0 < M -> isqrt M M = UB.
Proof. exact isqrt_overflow. Qed.
Print Assumptions C09_isqrt_INT_MAX_refuted.

Theorem C09_first_divisor_top_refuted : forall M n, prime n -> 2 < n <= M ->
  (exists r, Z.odd r = true /\ 3 <= r /\ (r - 2) * (r - 2) <= n /\ M < r * r) ->
  first_divisor M n = UB.
Proof. exact first_divisor_overflow. Qed.
Print Assumptions C09_first_divisor_top_refuted.

Example C09_first_divisor_32bit_refuted :
  first_divisor INT32_MAX 2147483647 = UB.
Proof. vm_compute. reflexivity. Qed.
