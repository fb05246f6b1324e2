(** * Model of kernel/trig.c, over the real numbers

    Simplifications: the floating-point constant K2PI is 2 pi and COS, SIN are the
    cosine and sine; R and trigreal are the same type (double); INT arithmetic is
    checked with [ck M].  A table is a list; reading outside of it is undefined
    behaviour. *)
From Coq Require Import Reals ZArith List Bool.
From Verif Require Import Cplx Base NumTheory Offs.
Import ListNotations.
Open Scope Z_scope.

(** kernel/ifftw.h:558-563 *)
Inductive wakefulness := SLEEPY | AWAKE_ZERO | AWAKE_SQRTN_TABLE | AWAKE_SINCOS.

(** kernel/trig.c:50 by2pi *)
Definition by2pi (m n : Z) : R := (2 * PI * IZR m / IZR n)%R.

(** kernel/trig.c:57-69, the reduction: (m, n, octant) after line 69, the octant as
    three booleans (octant & 4, octant & 2, octant & 1) *)
Definition octant (M m n : Z) : out (Z * Z * (bool * bool * bool)) :=
  let quarter_n := n in
  n <- ck M (n + n) ;; n <- ck M (n + n) ;;
  m <- ck M (m + m) ;; m <- ck M (m + m) ;;
  m <- (if m <? 0 then ck M (m + n) else Ret m) ;;
  d <- ck M (n - m) ;;
  let '(m, o4) := if m >? d then (d, true) else (m, false) in
  d <- ck M (m - quarter_n) ;;
  let '(m, o2) := if d >? 0 then (d, true) else (m, false) in
  d <- ck M (quarter_n - m) ;;
  let '(m, o1) := if m >? d then (d, true) else (m, false) in
  Ret (m, n, (o4, o2, o1)).

(** kernel/trig.c:57-80 real_cexp *)
Definition real_cexp (M m n : Z) : out C :=
  r <- octant M m n ;;
  let '(m, n, (o4, o2, o1)) := r in
  let theta := by2pi m n in
  let c := cos theta in let s := sin theta in
  let '(c, s) := if (o1 : bool) then (s, c) else (c, s) in
  let '(c, s) := if (o2 : bool) then (- s, c)%R else (c, s) in
  let s := if (o4 : bool) then (- s)%R else s in
  Ret (c, s).

(** kernel/trig.c:82-90 choose_twshft *)
Definition twshft_body (s : Z * Z) : stepres (Z * Z) (out Z) :=
  let '(log2r, n) := s in
  if n >? 0 then Cont (log2r + 1, Z.quot n 4) else Done (Ret log2r).
Definition choose_twshft (n : Z) : out Z := oloop (bits n) twshft_body (0, n).

(** struct triggen, kernel/ifftw.h:906-916; the function pointers are represented by
    the wakefulness from which they are chosen *)
Record triggen := mktg { tg_wake : wakefulness; tg_n : Z; tg_shft : Z; tg_radix : Z; tg_msk : Z; tg_W0 : list C; tg_W1 : list C }.

(** map with outcomes: a loop that fills a table *)
Fixpoint omapl {A B} (f : A -> out B) (l : list A) : out (list B) :=
  match l with [] => Ret [] | x :: t => a <- f x ;; r <- omapl f t ;; Ret (a :: r) end.

(** kernel/trig.c:169-227 mktriggen *)
Definition mktriggen (M : Z) (w : wakefulness) (n : Z) : out triggen :=
  match w with
  | SLEEPY => UB
  | AWAKE_SQRTN_TABLE =>
      twshft <- choose_twshft n ;;
      twradix <- ck M (Z.shiftl 1 twshft) ;;
      let n0 := twradix in
      a <- ck M (n + n0) ;; a <- ck M (a - 1) ;;
      let n1 := Z.quot a n0 in
      W0 <- omapl (fun i => real_cexp M i n) (zr n0) ;;
      W1 <- omapl (fun i => j <- ck M (i * twradix) ;; real_cexp M j n) (zr n1) ;;
      Ret (mktg w n twshft twradix (twradix - 1) W0 W1)
  | _ => Ret (mktg w n 0 0 0 [] [])
  end.

(** the table entry number i (two reals) *)
Definition rdtab (t : list C) (i : Z) : out C :=
  if i <? 0 then UB else match nth_error t (Z.to_nat i) with Some x => Ret x | None => UB end.

(** kernel/trig.c:92-107 cexpl_sqrtn_table; also lines 112-122 of rotate_sqrtn_table *)
Definition cexpl_sqrtn_table (M : Z) (p : triggen) (m : Z) : out C :=
  m <- (if m <? 0 then ck M (m + tg_n p) else Ret m) ;;
  let m0 := Z.land m (tg_msk p) in
  let m1 := Z.shiftr m (tg_shft p) in
  w0 <- rdtab (tg_W0 p) m0 ;;
  w1 <- rdtab (tg_W1 p) m1 ;;
  let '(wr0, wi0) := w0 in let '(wr1, wi1) := w1 in
  Ret (wr1 * wr0 - wi1 * wi0, wi1 * wr0 + wr1 * wi0)%R.

(** t->cexpl, t->cexp: kernel/trig.c:92-107, 134-137, 139-151, 153-159, 212-222 *)
Definition tg_cexp (M : Z) (p : triggen) (m : Z) : out C :=
  match tg_wake p with
  | SLEEPY => UB
  | AWAKE_ZERO => Ret (0, 0)%R
  | AWAKE_SQRTN_TABLE => cexpl_sqrtn_table M p m
  | AWAKE_SINCOS => real_cexp M m (tg_n p)
  end.

(** t->rotate: kernel/trig.c:109-132 (FFT_SIGN = -1) for tables, 161-167 otherwise *)
Definition tg_rotate (M : Z) (p : triggen) (m : Z) (x : C) : out C :=
  let '(xr, xi) := x in
  match tg_wake p with
  | AWAKE_SQRTN_TABLE =>
      w <- cexpl_sqrtn_table M p m ;;
      let '(wr, wi) := w in
      Ret (xr * wr + xi * wi, xi * wr - xr * wi)%R
  | _ =>
      w <- tg_cexp M p m ;;
      let '(w0, w1) := w in
      Ret (xr * w0 - xi * (-1 * w1), xi * w0 + xr * (-1 * w1))%R
  end.
