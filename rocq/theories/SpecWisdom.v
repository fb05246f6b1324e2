(** * Specification of accumulated wisdom, independent of the hash table.

    Wisdom is a collection of records.  A record says: for the problem with
    signature [rkey] a planner call with the hard restrictions [rl] and the
    impatience [ru] (sets of flags, as bits) chose the solver [rndx] - or, when
    [rndx] is the reserved number 4095, found no plan within the time-limit
    class [rtl]. *)
From Coq Require Import ZArith List Bool.
Import ListNotations.
Open Scope Z_scope.

(** four 32-bit words *)
Record sig := mksig { s0 : Z; s1 : Z; s2 : Z; s3 : Z }.
Record record := mkrec { rkey : sig; rl : Z; ru : Z; rtl : Z; rndx : Z }.
Definition infeasible (r : record) : Prop := rndx r = 4095.

(** inclusion of flag sets *)
Definition subset (x y : Z) : Prop := forall i, Z.testbit x i = true -> Z.testbit y i = true.

(** a record may be used for a request with hard restrictions [l], impatience
    [u] and time-limit class [tl]:
    - a plan, if it was found under at least the requested restrictions and
      with at most the requested impatience;
    - a failure, if it was established under at most these restrictions and
      with at least as much time (a smaller class is more time). *)
Definition licenses (r : record) (l u tl : Z) : Prop :=
  (~ infeasible r /\ subset (ru r) u /\ subset l (rl r)) \/
  (infeasible r /\ subset (rl r) l /\ rtl r <= tl).
(** [r] makes [r'] superfluous *)
Definition supersedes (r r' : record) : Prop := rkey r = rkey r' /\ licenses r (rl r') (ru r') (rtl r').

(** what a wisdom store goes through *)
Inductive wop := Ins (r : record) | Forget.
(** the meaning of a history: [Holds ops r] says that [r] was stored, was not
    superseded by a record stored later, and nothing was forgotten since *)
Inductive Holds : list wop -> record -> Prop :=
| holds_new ops r : Holds (ops ++ [Ins r]) r
| holds_old ops r r' : Holds ops r -> ~ supersedes r' r -> Holds (ops ++ [Ins r']) r.
