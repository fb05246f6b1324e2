(** * Model of kernel/primes.c

    [M] is the largest value of INT (kernel/ifftw.h:85: ptrdiff_t);
    every signed operation that could overflow goes through [ck M]. *)
From Coq Require Import ZArith List Lia Bool.
From Verif Require Import Base.
Import ListNotations.
Open Scope Z_scope.

(** kernel/primes.c:39  #define ADD_MOD(x, y, p) *)
Definition add_mod (M x y p : Z) : out Z :=
  t <- ck M (p - y) ;;
  if x >=? t then (u <- ck M (y - p) ;; ck M (x + u)) else ck M (x + y).

(** kernel/primes.c:41-57 safe_mulmod, loop body.  State is (x, y, r). *)
Definition mulmod_body (M p : Z) (s : Z * Z * Z) : stepres (Z * Z * Z) (out Z) :=
  let '(x, y, r) := s in
  if y =? 0 then Done (Ret r)
  else
    (t <~ ck M (x * (Z.land y 1)) ;;
     r' <~ add_mod M r t p ;;
     let y' := Z.shiftr y 1 in
     x' <~ add_mod M x x p ;;
     Cont (x', y', r')).

(** kernel/primes.c:41-57 safe_mulmod.  The recursive call on swapped arguments
    happens at most once, so it is inlined; the assertion at line 48 is the
    [assert_]. *)
Definition safe_mulmod (M x y p : Z) : out Z :=
  let '(x, y) := if y >? x then (y, x) else (x, y) in
  _ <- assert_ ((0 <=? y) && (x <? p)) ;;
  oloop (bits y) (mulmod_body M p) (x, y, 0).

(** kernel/ifftw.h:924-925 MULMOD *)
Definition MULMOD (M x y p : Z) : out Z :=
  d <- ck M (92681 - y) ;;
  if x <=? d then (z <- ck M (x * y) ;; if p =? 0 then UB else Ret (Z.rem z p))
  else safe_mulmod M x y p.

(** kernel/primes.c:64-75 power_mod.  [fuel] bounds the recursion depth. *)
Fixpoint power_mod_ (fuel : nat) (M n m p : Z) : out Z :=
  match fuel with
  | O => Diverge
  | S fuel =>
      _ <- assert_ (p >? 0) ;;
      if m =? 0 then Ret 1
      else if Z.rem m 2 =? 0 then
        x <- power_mod_ fuel M n (Z.quot m 2) p ;;
        MULMOD M x x p
      else
        x <- power_mod_ fuel M n (m - 1) p ;;
        MULMOD M n x p
  end.
Definition power_mod (M n m p : Z) : out Z := power_mod_ (2 * bits m + 2) M n m p.

(** kernel/primes.c:95-97 (and 85-87 with i = 2): the do-while loop
    dividing out a factor. *)
Definition divide_out (k : nat) (i n : Z) : out Z :=
  oloop k (fun n => let n' := Z.quot n i in
                    if Z.rem n' i =? 0 then Cont n' else Done (Ret n')) n.

(** primef[size++] = i on an array of 16 INTs (kernel/primes.c:108): writing
    past the end is UB. *)
Definition push_factor (l : list Z) (i : Z) : out (list Z) :=
  if (length l <? 16)%nat then Ret (l ++ [i]) else UB.

(** kernel/primes.c:78-103 get_prime_factors, body of the for loop; state is
    (i, n, primef). *)
Definition gpf_body (M : Z) (s : Z * Z * list Z) : stepres (Z * Z * list Z) (out (Z * list Z)) :=
  let '(i, n, l) := s in
  ii <~ ck M (i * i) ;;
  if ii <=? n then
    if Z.rem n i =? 0 then
      l' <~ push_factor l i ;;
      n' <~ divide_out (bits n) i n ;;
      i' <~ ck M (i + 2) ;; Cont (i', n', l')
    else i' <~ ck M (i + 2) ;; Cont (i', n, l)
  else Done (Ret (n, l)).

Definition get_prime_factors (M n : Z) : out (list Z) :=
  _ <- assert_ (Z.rem n 2 =? 0) ;;
  l <- push_factor [] 2 ;;
  n1 <- divide_out (bits n) 2 n ;;
  if n1 =? 1 then Ret l
  else
    r <- oloop (bits n) (gpf_body M) (3, n1, l) ;;
    let '(n2, l) := r in
    if n2 =? 1 then Ret l else push_factor l n2.

(** kernel/primes.c:105-122 find_generator; the for loop with state (i, n);
    [i] indexes primef; "i = -1; n++" followed by the loop's i++ gives i = 0. *)
Definition gen_body (M p pm1 : Z) (primef : list Z) (s : nat * Z) : stepres (nat * Z) (out Z) :=
  let '(i, n) := s in
  if (i <? length primef)%nat then
    v <~ power_mod M n (Z.quot pm1 (nth i primef 0)) p ;;
    if v =? 1 then (n' <~ ck M (n + 1) ;; Cont (0%nat, n'))
    else Cont (S i, n)
  else Done (Ret n).

Definition find_generator (M p : Z) : out Z :=
  pm1 <- ck M (p - 1) ;;
  if p =? 2 then Ret 1
  else
    primef <- get_prime_factors M pm1 ;;
    oloop (bits (20 * p)) (gen_body M p pm1 primef) (0%nat, 2).

(** kernel/primes.c:126-137 first_divisor *)
Definition fd_body (M n : Z) (i : Z) : stepres Z (out Z) :=
  ii <~ ck M (i * i) ;;
  if ii <=? n then
    if Z.rem n i =? 0 then Done (Ret i)
    else i' <~ ck M (i + 2) ;; Cont i'
  else Done (Ret n).
Definition first_divisor (M n : Z) : out Z :=
  if n <=? 1 then Ret n
  else if Z.rem n 2 =? 0 then Ret 2
  else oloop (bits n) (fd_body M n) 3.

(** kernel/primes.c:139-142 is_prime *)
Definition is_prime (M n : Z) : out bool :=
  if n >? 1 then (d <- first_divisor M n ;; Ret (d =? n)) else Ret false.

(** kernel/primes.c:144-148 next_prime.  [k] bounds the search (2^k steps). *)
Definition next_prime (k : nat) (M n : Z) : out Z :=
  oloop k (fun n => b <~ is_prime M n ;;
                    if b then Done (Ret n) else (n' <~ ck M (n + 1) ;; Cont n')) n.

(** kernel/primes.c:150-156 factors_into; the zero-terminated array is a list
    of nonzero numbers.  [n % q == 0] loops forever on n = 0, which the model
    reports as Diverge. *)
Definition strip (k : nat) (q n : Z) : out Z :=
  oloop k (fun n => if Z.rem n q =? 0 then Cont (Z.quot n q) else Done (Ret n)) n.
Fixpoint factors_into_loop (k : nat) (n : Z) (primes : list Z) : out Z :=
  match primes with
  | [] => Ret n
  | q :: ps => n' <- strip k q n ;; factors_into_loop k n' ps
  end.
Definition factors_into (n : Z) (primes : list Z) : out bool :=
  r <- factors_into_loop (bits (Z.abs n)) n primes ;; Ret (r =? 1).

(** kernel/primes.c:208-212 factors_into_small_primes *)
Definition factors_into_small_primes (n : Z) : out bool := factors_into n [2; 3; 5].

(** kernel/primes.c:159-174 isqrt; state (guess, iguess) at the loop head. *)
Definition isqrt_body (M n : Z) (s : Z * Z) : stepres (Z * Z) (out Z) :=
  let '(guess, iguess) := s in
  t <~ ck M (guess + iguess) ;;
  let guess := Z.quot t 2 in
  if guess =? 0 then Done UB
  else let iguess := Z.quot n guess in
       if guess >? iguess then Cont (guess, iguess) else Done (Ret guess).
Definition isqrt (M n : Z) : out Z :=
  _ <- assert_ (n >=? 0) ;;
  if n =? 0 then Ret 0
  else oloop (bits (2 * n + 2)) (isqrt_body M n) (n, 1).

(** kernel/primes.c:176-180 isqrt_maybe *)
Definition isqrt_maybe (M n : Z) : out Z :=
  g <- isqrt M n ;; gg <- ck M (g * g) ;; Ret (if gg =? n then g else 0).

(** kernel/primes.c:182-195 choose_radix *)
Definition divides (a b : Z) : bool := Z.rem b a =? 0.
Definition choose_radix (M r n : Z) : out Z :=
  if r >? 0 then Ret (if divides r n then r else 0)
  else if r =? 0 then first_divisor M n
  else
    r <- ck M (0 - r) ;;
    if (n >? r) && divides r n then isqrt_maybe M (Z.quot n r) else Ret 0.

(** kernel/primes.c:198-205 modulo *)
Definition modulo (M a n : Z) : out Z :=
  _ <- assert_ (n >? 0) ;;
  if a >=? 0 then Ret (Z.rem a n)
  else
    a1 <- ck M (a + 1) ;; b <- ck M (- a1) ;;
    c <- ck M (n - 1) ;; ck M (c - Z.rem b n).
