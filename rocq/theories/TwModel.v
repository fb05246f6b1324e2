(** * Model of kernel/twiddle.c, over the real numbers *)
From Coq Require Import Reals ZArith List Bool PeanoNat.
From Verif Require Import Cplx Base NumTheory Offs PrimesModel TrigModel.
Import ListNotations.
Open Scope Z_scope.

(** kernel/ifftw.h:872-879 *)
Inductive tw_op := TW_COS | TW_SIN | TW_CEXP | TW_NEXT | TW_FULL | TW_HALF.
Definition tw_op_eqb (a b : tw_op) : bool :=
  match a, b with
  | TW_COS, TW_COS | TW_SIN, TW_SIN | TW_CEXP, TW_CEXP | TW_NEXT, TW_NEXT | TW_FULL, TW_FULL | TW_HALF, TW_HALF => true
  | _, _ => false
  end.
Record tw_instr := mkin { op : tw_op; iv : Z; ii : Z }.

(** kernel/twiddle.c:32-39 hash (HASHSZ = 109) *)
Definition HASHSZ : Z := 109.
Definition tw_hash (M n r : Z) : out Z :=
  a <- ck M (n * 17) ;; h <- ck M (a + r) ;;
  h <- (if h <? 0 then ck M (- h) else Ret h) ;;
  Ret (Z.rem h HASHSZ).

(** kernel/twiddle.c:41-65 equal_instr.  A program is a list; reading past its end is
    undefined behaviour.  (The comparison of the pointers at line 43 is a shortcut
    only.) *)
Fixpoint equal_instr (p q : list tw_instr) : out bool :=
  match p, q with
  | a :: p', b :: q' =>
      if negb (tw_op_eqb (op a) (op b)) then Ret false else
      match op a with
      | TW_NEXT => Ret (iv a =? iv b)
      | TW_FULL | TW_HALF => if negb (iv a =? iv b) then Ret false else equal_instr p' q'
      | _ => if negb (iv a =? iv b) || negb (ii a =? ii b) then Ret false else equal_instr p' q'
      end
  | _, _ => UB
  end.

(** kernel/twiddle.c:90-116 twlen0: (ntwiddle, vl) *)
Fixpoint twlen0_loop (r : Z) (p : list tw_instr) (ntwiddle : Z) : out (Z * Z) :=
  match p with
  | [] => UB
  | a :: p' =>
      match op a with
      | TW_NEXT => Ret (ntwiddle, iv a)
      | TW_FULL => twlen0_loop r p' (ntwiddle + (r - 1) * 2)
      | TW_HALF => twlen0_loop r p' (ntwiddle + (r - 1))
      | TW_CEXP => twlen0_loop r p' (ntwiddle + 2)
      | TW_COS | TW_SIN => twlen0_loop r p' (ntwiddle + 1)
      end
  end.
Definition twlen0 (r : Z) (p : list tw_instr) : out (Z * Z) :=
  _ <- assert_ (0 <? r) ;; twlen0_loop r p 0.

(** the argument (j + p->v) * i with its overflow checks and assertions,
    kernel/twiddle.c:145-147, 166-168, 176-178, 184-186 *)
Definition tw_arg (M n j v i : Z) : out Z :=
  a <- ck M (j + v) ;; b <- ck M (a * i) ;;
  _ <- assert_ ((b <? n) && (- n <? b)) ;; Ret b.

(** kernel/twiddle.c:141-189, the switch of compute for one instruction: the reals
    written through W *)
Definition tw_one (M : Z) (t : triggen) (n r j : Z) (a : tw_instr) : out (list R) :=
  match op a with
  | TW_NEXT => UB
  | TW_FULL =>
      l <- omapl (fun i0 => b <- tw_arg M n j (iv a) (i0 + 1) ;; tg_cexp M t b) (zr (r - 1)) ;;
      Ret (flat_map (fun c => [fst c; snd c]) l)
  | TW_HALF =>
      (* for (i = 1; i + i < r; ++i), r odd *)
      _ <- assert_ (Z.rem r 2 =? 1) ;;
      l <- omapl (fun i0 => y <- ck M (j + iv a) ;; b <- MULMOD M (i0 + 1) y n ;; tg_cexp M t b) (zr (Z.quot (r - 1) 2)) ;;
      Ret (flat_map (fun c => [fst c; snd c]) l)
  | TW_COS => b <- tw_arg M n j (iv a) (ii a) ;; d <- tg_cexp M t b ;; Ret [fst d]
  | TW_SIN => b <- tw_arg M n j (iv a) (ii a) ;; d <- tg_cexp M t b ;; Ret [snd d]
  | TW_CEXP => b <- tw_arg M n j (iv a) (ii a) ;; d <- tg_cexp M t b ;; Ret [fst d; snd d]
  end.
(** kernel/twiddle.c:140-190: the loop over the program, up to TW_NEXT *)
Fixpoint tw_row (M : Z) (t : triggen) (n r j : Z) (p : list tw_instr) : out (list R) :=
  match p with
  | [] => UB
  | a :: p' =>
      match op a with
      | TW_NEXT => Ret []
      | _ => x <- tw_one M t n r j a ;; y <- tw_row M t n r j p' ;; Ret (x ++ y)
      end
  end.
(** kernel/twiddle.c:124-195 compute.  The loop for (j = 0; j < m; j += vl) makes m/vl
    iterations because of the assertion at line 135; writing beyond the array that was
    allocated is undefined behaviour. *)
Definition compute (M : Z) (w : wakefulness) (instr : list tw_instr) (n r m : Z) : out (list R) :=
  t <- mktriggen M w n ;;
  lv <- twlen0 r instr ;;
  let '(ntwiddle, vl) := lv in
  if vl <=? 0 then UB else
  _ <- assert_ (Z.rem m vl =? 0) ;;
  size <- ck M (ntwiddle * Z.quot m vl) ;;
  rows <- omapl (fun k => tw_row M t n r (k * vl) instr) (zr (Z.quot m vl)) ;;
  let W := concat rows in
  if Z.of_nat (length W) <=? size then Ret W else UB.

(** struct twid, kernel/ifftw.h:881-888, without cdr *)
Record twid := mktw { tw_W : list R; tw_n : Z; tw_r : Z; tw_m : Z; tw_refcnt : Z; tw_in : list tw_instr; tw_wake : wakefulness }.
(** kernel/twiddle.c:30: the buckets of the hash table, each a linked list that is
    represented by the list of the addresses of its nodes; the nodes in memory (None:
    not allocated, or freed) *)
Record twst := mkts { ts_list : Z -> list nat; ts_node : nat -> option twid; ts_next : nat }.

Definition wake_eqb (a b : wakefulness) : bool :=
  match a, b with SLEEPY, SLEEPY | AWAKE_ZERO, AWAKE_ZERO | AWAKE_SQRTN_TABLE, AWAKE_SQRTN_TABLE | AWAKE_SINCOS, AWAKE_SINCOS => true | _, _ => false end.
(** kernel/twiddle.c:67-76 ok_twid *)
Definition ok_twid (t : twid) (w : wakefulness) (q : list tw_instr) (n r m : Z) : out bool :=
  if wake_eqb w (tw_wake t) && (n =? tw_n t) && (r =? tw_r t) && (m <=? tw_m t) then equal_instr (tw_in t) q else Ret false.
(** kernel/twiddle.c:78-88 lookup *)
Fixpoint lookup_in (nd : nat -> option twid) (l : list nat) (w : wakefulness) (q : list tw_instr) (n r m : Z) : out (option nat) :=
  match l with
  | [] => Ret None
  | p :: l' =>
      match nd p with
      | None => UB
      | Some t => b <- ok_twid t w q n r m ;; if (b : bool) then Ret (Some p) else lookup_in nd l' w q n r m
      end
  end.
Definition lookup (M : Z) (s : twst) (w : wakefulness) (q : list tw_instr) (n r m : Z) : out (option nat) :=
  h <- tw_hash M n r ;; lookup_in (ts_node s) (ts_list s h) w q n r m.

Definition setn {A} (f : nat -> A) (p : nat) (x : A) : nat -> A := fun q => if (q =? p)%nat then x else f q.
Definition setz {A} (f : Z -> A) (p : Z) (x : A) : Z -> A := fun q => if q =? p then x else f q.
Definition with_ref (t : twid) (c : Z) : twid := mktw (tw_W t) (tw_n t) (tw_r t) (tw_m t) c (tw_in t) (tw_wake t).
(** refcnt is an int *)
Definition cint (z : Z) : out Z := ck (2 ^ 31 - 1) z.

(** kernel/twiddle.c:197-222 mktwiddle: the new value of *pp, and the state *)
Definition mktwiddle (M : Z) (w : wakefulness) (instr : list tw_instr) (n r m : Z) (s : twst) : out (nat * twst) :=
  f <- lookup M s w instr n r m ;;
  match f with
  | Some p =>
      match ts_node s p with
      | None => UB
      | Some t => c <- cint (tw_refcnt t + 1) ;; Ret (p, mkts (ts_list s) (setn (ts_node s) p (Some (with_ref t c))) (ts_next s))
      end
  | None =>
      let p := ts_next s in
      W <- compute M w instr n r m ;;
      h <- tw_hash M n r ;;
      Ret (p, mkts (setz (ts_list s) h (p :: ts_list s h)) (setn (ts_node s) p (Some (mktw W n r m 1 instr w))) (S p))
  end.

(** kernel/twiddle.c:231-239: the first occurrence of p is removed from the list *)
Fixpoint unlink (p : nat) (l : list nat) : option (list nat) :=
  match l with
  | [] => None
  | q :: l' => if (q =? p)%nat then Some l' else match unlink p l' with Some l'' => Some (q :: l'') | None => None end
  end.
(** kernel/twiddle.c:224-242 twiddle_destroy *)
Definition twiddle_destroy (M : Z) (p : nat) (s : twst) : out twst :=
  match ts_node s p with
  | None => UB
  | Some t =>
      c <- cint (tw_refcnt t - 1) ;;
      if c =? 0 then
        h <- tw_hash M (tw_n t) (tw_r t) ;;
        match unlink p (ts_list s h) with
        | Some l => Ret (mkts (setz (ts_list s) h l) (setn (ts_node s) p None) (ts_next s))
        | None => UB
        end
      else Ret (mkts (ts_list s) (setn (ts_node s) p (Some (with_ref t c))) (ts_next s))
  end.

(** ** Users of the cache

    kernel/twiddle.c:245-256 twiddle_awake: a plan that is asleep wakes up, keeping the
    pointer it gets; a plan that is awake goes to sleep (kernel/plan.c:61-69 asserts that
    the two alternate). *)
Record twreq := mkrq { rq_wake : wakefulness; rq_in : list tw_instr; rq_n : Z; rq_r : Z; rq_m : Z }.
(** the cache, and for every plan that is awake the pointer and what it asked for *)
Record tww := mkww { ww_st : twst; ww_users : list (nat * twreq) }.
Definition tw_awake (M : Z) (a : twreq) (s : twst) : out (nat * twst) :=
  mktwiddle M (rq_wake a) (rq_in a) (rq_n a) (rq_r a) (rq_m a) s.
Inductive tstep (M : Z) : tww -> tww -> Prop :=
| tw_wake_up s u a p s' : tw_awake M a s = Ret (p, s') -> tstep M (mkww s u) (mkww s' ((p, a) :: u))
| tw_sleep s u1 u2 a p s' : twiddle_destroy M p s = Ret s' -> tstep M (mkww s (u1 ++ (p, a) :: u2)) (mkww s' (u1 ++ u2)).
Definition tw_init : twst := mkts (fun _ => []) (fun _ => None) 0.
Inductive tw_reach (M : Z) : tww -> Prop :=
| tr_init : tw_reach M (mkww tw_init [])
| tr_step x y : tw_reach M x -> tstep M x y -> tw_reach M y.
