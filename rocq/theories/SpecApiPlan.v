(** * Specification vocabulary for programs that create, copy and destroy plans.

    [Run e0 fuel own a]: a program has made calls of the API, each of which
    returned, and is now in state [a]; [own] lists the plan handles the program
    owns: one occurrence for each creation or copy not yet matched by a
    destruction.  A program may only copy or destroy a plan it owns; copying or
    destroying NULL is allowed at any time. *)
From Coq Require Import ZArith List Permutation.
From Verif Require Import Base SpecWisdom HashModel HashProofs FlagsModel PlannerModel ImportModel ApiPlanModel SpecImport.
Import ListNotations.
Open Scope Z_scope.

Section Spec.
Context {P B : Type}.
Variable e0 : env P B.
Variable fuel : nat.
Inductive Run : list nat -> api B -> Prop :=
| run_boot : Run [] boot
| run_create own a sign flags p h a' : Run own a -> create e0 fuel sign flags p a = Ret (Some h, a') -> Run (h :: own) a'
| run_create_null own a sign flags p a' : Run own a -> create e0 fuel sign flags p a = Ret (None, a') -> Run own a'
| run_copy own a h a' : Run own a -> In h own -> copy_plan (Some h) a = Ret a' -> Run (h :: own) a'
| run_destroy own a h own' a' : Run own a -> Permutation own (h :: own') -> destroy_plan (Some h) a = Ret a' -> Run own' a'
| run_copy_null own a a' : Run own a -> copy_plan None a = Ret a' -> Run own a'
| run_destroy_null own a a' : Run own a -> destroy_plan None a = Ret a' -> Run own a'
| run_forget own a a' : Run own a -> forget_wisdom a = Ret a' -> Run own a'
| run_timelimit own a t a' : Run own a -> set_timelimit t a = Ret a' -> Run own a'
| run_import own a junk txt b a' : Run own a -> import_wisdom e0 junk txt a = Ret (Some b, a') -> Run own a'
| run_cleanup own a : Run own a -> Run own (cleanup a).

(** the states of a planner: fresh, and after any planning (with any flags,
    thread count and mode), forgetting, destruction of plans, or import of a text *)
Inductive Reachable : st -> Prop :=
| rc_new s : mkplanner blank = Ret s -> Reachable s
| rc_plan s f n w p k r s' : Reachable s -> subset (fl f) (fu f) -> w <> WISDOM_IS_BOGUS ->
    mkplan e0 k p (set_ws (set_nthr (set_flags s f) n) w) = Ret (r, s') -> Reachable s'
| rc_forget s a s' : Reachable s -> forget s a = Ret s' -> Reachable s'
| rc_destroy s x s' : Reachable s -> destroy (B := B) (Some x) s = Ret s' -> Reachable s'
| rc_import s junk txt b rest s' : Reachable s -> e_debug e0 = false -> imprt junk (e_reg e0) s txt = Ret (Some b, rest, s') -> Reachable s'.
(** no recorded wisdom answers the request [f] for the key [k] *)
Definition unknown (s : st) (k : sig) (f : flags_t) : Prop :=
  forall r, In r (records (s_hb s)) \/ In r (records (s_hu s)) -> rkey r = k -> ~ licenses r (fl f) (fu f) (ftl f).
(** the request a call of the planner makes: estimating ignores the time limit *)
Definition request (s : st) : flags_t :=
  mkfl (fl (s_flags s)) (fu (s_flags s)) (if ESTIMATEP s then 0 else ftl (s_flags s)) (fbless (s_flags s)).

(** the calls a program that owns [own] may make *)
Definition legal (own : list nat) (c : call P) : Prop :=
  match c with Copy (Some h) => In h own | Destroy (Some h) => In h own | Import _ txt => no_long_words txt | _ => True end.
End Spec.
