(** * The wisdom hash tables (kernel/planner.c).

    [unsigned] arithmetic is arithmetic modulo 2^32; an access outside the
    array, and a failed CK() check (which calls abort), is the outcome [UB]; a
    probe loop that does not stop within the number of iterations allowed to it
    is [Diverge].  The statistics counters of struct hashtab (kernel/ifftw.h:
    lookup, insert, ... ) are not modelled; nelem and hashsiz are. *)
From Coq Require Import ZArith List Lia Bool.
From Verif Require Import Base PrimesModel.
From Verif Require Export SpecWisdom.
Import ListNotations.
Open Scope Z_scope.

(** md5sig (kernel/ifftw.h:386-392) is [SpecWisdom.sig]: four 32-bit words *)
(** flags_t, kernel/ifftw.h:631-643: the fields l, u, timelimit_impatience and
    the BLESSING bit of hash_info; the bits H_VALID and H_LIVE are fields of
    [slot], slvndx is passed separately *)
Record flags_t := mkfl { fl : Z; fu : Z; ftl : Z; fbless : bool }.
(** struct solution_s, kernel/planner.c:198-201 *)
Record slot := mkslot { svalid : bool; slive : bool; skey : sig; sflags : flags_t; sndx : Z }.
(** hashtab, kernel/ifftw.h (struct with solutions, hashsiz, nelem) *)
Record hashtab := mkht { hashsiz : Z; nelem : Z; sols : Z -> slot }.

Definition u32 (z : Z) : Z := z mod 2 ^ 32.
Definition INFEASIBLE_SLVNDX : Z := 4095.      (* kernel/planner.c:37 *)
(** LEQ, kernel/planner.c:50 *)
Definition LEQ (x y : Z) : bool := Z.land x y =? x.
(** subsumes, kernel/planner.c:53-62.  (The assertion on the time limit is
    compiled only into debug builds.) *)
Definition subsumes (a : flags_t) (slvndx_a : Z) (b : flags_t) : bool :=
  if negb (slvndx_a =? INFEASIBLE_SLVNDX)
  then LEQ (fu a) (fu b) && LEQ (fl b) (fl a)
  else LEQ (fl a) (fl b) && (ftl a <=? ftl b).
(** addmod, kernel/planner.c:64-75 *)
Definition addmod (a b p : Z) : Z := let c := u32 (a + b) in if p <=? c then u32 (c - p) else c.
(** h1, h2, kernel/planner.c:155-168 *)
Definition h1 (p : Z) (s : sig) : Z := s0 s mod p.
Definition h2 (p : Z) (s : sig) : Z := u32 (1 + s1 s mod u32 (p - 1)).
(** md5eq, kernel/planner.c:179-182 *)
Definition md5eq (a b : sig) : bool := (s0 a =? s0 b) && (s1 a =? s1 b) && (s2 a =? s2 b) && (s3 a =? s3 b).

(** array access, with bounds check *)
Definition slot_at (ht : hashtab) (g : Z) : out slot :=
  if (0 <=? g) && (g <? hashsiz ht) then Ret (sols ht g) else UB.
Definition put (ht : hashtab) (g : Z) (n : Z) (l : slot) : hashtab :=
  mkht (hashsiz ht) n (fun g' => if g' =? g then l else sols ht g').

(** htab_lookup, kernel/planner.c:203-237: the index of the best slot *)
Fixpoint lookup_loop (fuel : nat) (ht : hashtab) (s : sig) (f : flags_t) (h d g : Z) (best : option (Z * slot)) : out (option (Z * slot)) :=
  match fuel with
  | O => Diverge
  | S fuel' =>
      l <- slot_at ht g;;
      if svalid l then
        let best' :=
          if slive l && md5eq s (skey l) && subsumes (sflags l) (sndx l) f
          then match best with
               | None => Some (g, l)
               | Some (_, b) => if LEQ (fu (sflags l)) (fu (sflags b)) then Some (g, l) else best
               end
          else best in
        let g' := addmod g d (hashsiz ht) in
        if g' =? h then Ret best' else lookup_loop fuel' ht s f h d g' best'
      else Ret best
  end.
Definition htab_lookup (ht : hashtab) (s : sig) (f : flags_t) : out (option (Z * slot)) :=
  let h := h1 (hashsiz ht) s in let d := h2 (hashsiz ht) s in
  lookup_loop (S (Z.to_nat (hashsiz ht))) ht s f h d h None.

(** fill_slot, kernel/planner.c:247-263 *)
Definition fill_slot (ht : hashtab) (s : sig) (f : flags_t) (slvndx : Z) (g : Z) : out hashtab :=
  l <- slot_at ht g;;
  _ <- assert_ (slvndx mod 2 ^ 12 =? slvndx);;      (* CK *)
  Ret (put ht g (u32 (nelem ht + 1))
         (mkslot true true s (mkfl (fl f) (fu f) (ftl f) (fbless (sflags l))) slvndx)).
(** kill_slot, kernel/planner.c:265-271 *)
Definition kill_slot (ht : hashtab) (g : Z) : out hashtab :=
  l <- slot_at ht g;;
  Ret (put ht g (u32 (nelem ht - 1))
         (mkslot true false (skey l) (mkfl (fl (sflags l)) (fu (sflags l)) (ftl (sflags l)) false) (sndx l))).
(** hinsert0, kernel/planner.c:273-290 *)
Fixpoint free_slot (fuel : nat) (ht : hashtab) (d g : Z) : out Z :=
  match fuel with
  | O => Diverge
  | S fuel' =>
      l <- slot_at ht g;;
      if slive l then free_slot fuel' ht d (addmod g d (hashsiz ht)) else Ret g
  end.
Definition hinsert0 (ht : hashtab) (s : sig) (f : flags_t) (slvndx : Z) : out hashtab :=
  let h := h1 (hashsiz ht) s in let d := h2 (hashsiz ht) s in
  g <- free_slot (S (Z.to_nat (hashsiz ht))) ht d h;;
  fill_slot ht s f slvndx g.
(** rehash, kernel/planner.c:292-318.  The fields of a fresh slot other than
    hash_info are uninitialised in C; [empty_slot] has zeros there. *)
Definition empty_slot : slot := mkslot false false (mksig 0 0 0 0) (mkfl 0 0 0 false) 0.
Fixpoint rehash_loop (cnt : nat) (old : hashtab) (h : Z) (ht : hashtab) : out hashtab :=
  match cnt with
  | O => Ret ht
  | S cnt' =>
      l <- slot_at old h;;
      ht' <- (if slive l then hinsert0 ht (skey l) (sflags l) (sndx l) else Ret ht);;
      rehash_loop cnt' old (h + 1) ht'
  end.
Definition INT_MAX64 : Z := 2 ^ 63 - 1.
Definition rehash (ht : hashtab) (nsiz : Z) : out hashtab :=
  np <- next_prime 33 INT_MAX64 nsiz;;
  let ht0 := mkht (u32 np) 0 (fun _ => empty_slot) in
  rehash_loop (Z.to_nat (hashsiz ht)) ht 0 ht0.
(** minsz, nextsz, hgrow, kernel/planner.c:320-335 *)
Definition minsz (n : Z) : Z := u32 (1 + n + n / 8).
Definition nextsz (n : Z) : Z := minsz (minsz n).
Definition hgrow (ht : hashtab) : out hashtab :=
  if hashsiz ht <=? minsz (nelem ht) then rehash ht (nextsz (nelem ht)) else Ret ht.
(** htab_insert, kernel/planner.c:347-387 *)
Fixpoint kill_loop (fuel : nat) (ht : hashtab) (s : sig) (f : flags_t) (slvndx h d g : Z) (first : option Z) : out (hashtab * option Z) :=
  match fuel with
  | O => Diverge
  | S fuel' =>
      l <- slot_at ht g;;
      if svalid l then
        r <- (if slive l && md5eq s (skey l) && subsumes f slvndx (sflags l)
              then ht' <- kill_slot ht g;; Ret (ht', match first with None => Some g | Some _ => first end)
              else Ret (ht, first));;
        let '(ht', first') := r in
        let g' := addmod g d (hashsiz ht) in
        if g' =? h then Ret (ht', first') else kill_loop fuel' ht' s f slvndx h d g' first'
      else Ret (ht, first)
  end.
Definition htab_insert (ht : hashtab) (s : sig) (f : flags_t) (slvndx : Z) : out hashtab :=
  let h := h1 (hashsiz ht) s in let d := h2 (hashsiz ht) s in
  r <- kill_loop (S (Z.to_nat (hashsiz ht))) ht s f slvndx h d h None;;
  let '(ht1, first) := r in
  match first with
  | Some g => fill_slot ht1 s f slvndx g
  | None => ht2 <- hgrow ht1;; hinsert0 ht2 s f slvndx
  end.
(** mkhashtab, kernel/planner.c:756-765 *)
Definition mkhashtab : out hashtab := hgrow (mkht 0 0 (fun _ => empty_slot)).
