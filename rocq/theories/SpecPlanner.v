(** * Specification vocabulary for the planner: which plans the registered
    solvers can build, independently of how the planner finds them.

    [Built e nthr l u p x]: the plan [x] was produced for the problem [p] by a
    registered solver for problems of that kind, working with [nthr] threads
    under hard restrictions at least [l] and impatience at most [u]; every plan
    it holds was in turn built for the subproblem the solver asked for, under
    the restrictions the solver asked for.  (pcost is left open: the planner
    overwrites it with the cost it determines.) *)
From Coq Require Import ZArith List Bool Permutation.
From Verif Require Import Base SpecWisdom HashModel FlagsModel PlannerModel.
Import ListNotations.
Open Scope Z_scope.

Section Spec.
Context {P B : Type}.
Variable e : env P B.
Inductive Built : Z -> Z -> Z -> P -> plan B -> Prop :=
| built nthr l u p x n d l' u' bl :
    nth_error (rg_descs (e_reg e)) n = Some d -> sd_kind d = e_kind e p ->
    subset l l' -> subset u' u -> Yields nthr (mkfl l' u' 0 bl) (sd_prog d p) x -> Built nthr l u p x
with Yields : Z -> flags_t -> prog P B -> plan B -> Prop :=
| Y_ret nthr f ks b c c' es pr i : Yields nthr f (PRet (Some (ks, b, c, es, pr))) (Plan i ks b c' es pr)
| Y_failed nthr f q ls us ur k x : Yields nthr f (k None) x -> Yields nthr f (PSub q ls us ur k) x
| Y_child nthr f q ls us ur k x y :
    Built nthr (Z.lor (Z.ldiff (fl f) ur) ls) (Z.lor (Z.ldiff (fu f) ur) (Z.lor us ls)) q y ->
    Yields nthr f (k (Some y)) x -> Yields nthr f (PSub q ls us ur k) x
| Y_destroy nthr f y k x : Yields nthr f k x -> Yields nthr f (PDestroy y k) x
| Y_nthr nthr f n k x : Yields n f k x -> Yields nthr f (PNthr n k) x
| Y_read nthr f k x : Yields nthr f (k f nthr) x -> Yields nthr f (PRead k) x.

(** a solver never clears the flags [m] when it asks for a subproblem *)
Fixpoint never_clears (m : Z) (g : prog P B) : Prop :=
  match g with
  | PRet _ => True
  | PSub _ _ _ ur k => Z.land ur m = 0 /\ forall o, never_clears m (k o)
  | PDestroy _ k => never_clears m k
  | PNthr _ k => never_clears m k
  | PRead k => forall f n, never_clears m (k f n)
  end.

(** a solver looks after the plans it is given: [own] are the plans it has been
    given and has neither destroyed nor returned; when it fails it has destroyed
    them all, when it succeeds the new plan holds them all *)
Inductive careful : list (plan B) -> prog P B -> Prop :=
| cf_fail : careful [] (PRet None)
| cf_ret ks b c es pr own : Permutation own ks -> careful own (PRet (Some (ks, b, c, es, pr)))
| cf_sub own q ls us ur k : careful own (k None) -> (forall y, careful (y :: own) (k (Some y))) -> careful own (PSub q ls us ur k)
| cf_destroy own own' y k : Permutation own (y :: own') -> careful own' k -> careful own (PDestroy y k)
| cf_nthr own n k : careful own k -> careful own (PNthr n k)
| cf_read own k : (forall f n, careful own (k f n)) -> careful own (PRead k).

(** what is asked of the configured solvers: the registry is the result of
    running a table of registrations (X(solvtab_exec)); every index fits the
    12-bit field and differs from the index that means "infeasible"; solvers
    look after their plans and never clear ESTIMATE for their subproblems *)
Definition configured : Prop :=
  (exists tbl, e_reg e = solvtab_exec tbl no_solvers) /\
  Z.of_nat (length (rg_descs (e_reg e))) <= 4095 /\
  forall n d, nth_error (rg_descs (e_reg e)) n = Some d -> forall p, careful [] (sd_prog d p) /\ never_clears ESTIMATE (sd_prog d p).

(** the n-th registered solver handles problems of the kind of [p] *)
Definition solver_for (p : P) (n : Z) : Prop :=
  0 <= n /\ exists d, nth_error (rg_descs (e_reg e)) (Z.to_nat n) = Some d /\ sd_kind d = e_kind e p.

(** [Q] is preserved by the mkplan method [g] for the problem [p]: whenever the
    plans it is given for subproblems satisfy [Q], so does the plan it returns *)
Fixpoint preserves (Q : P -> plan B -> Prop) (p : P) (g : prog P B) : Prop :=
  match g with
  | PRet None => True
  | PRet (Some (ks, b, _, es, pr)) => forall i c, Q p (Plan i ks b c es pr)
  | PSub q _ _ _ k => preserves Q p (k None) /\ forall y, Q q y -> preserves Q p (k (Some y))
  | PDestroy _ k => preserves Q p k
  | PNthr _ k => preserves Q p k
  | PRead k => forall f n, preserves Q p (k f n)
  end.

(** The outcome of a search, read off the events [t] of the call at nesting
    depth [d] under the request (hard restrictions [l], impatience [u]): in the
    last round all candidates obey the same restrictions [l'], at least those
    asked for; a returned plan is a candidate, and no other candidate of the
    round was found cheaper; without pruning every solver was tried; failure
    means that every solver was tried under exactly the restrictions asked for,
    and none produced a plan. *)
Definition SearchOutcome (d : nat) (l u : Z) (p : P) (t : list event) (r : option (plan B)) : Prop :=
  (forall l' n o, In (ETry d l' n o) t -> solver_for p n) /\
  match r with
  | Some x => exists l' n, (subset l u -> subset l l' /\ subset l' u) /\
      In (ETry d l' n (Some (pid x))) t /\
      (forall l'' m i, In (ETry d l'' m (Some i)) t -> l'' = l' /\
         (i = pid x \/ exists c, In (ECost d i c) t /\ (forall c', In (ECost d i c') t -> c' = c) /\ In (ECost d (pid x) (pcost x)) t /\ pcost x <= c)) /\
      (Z.land u ALLOW_PRUNING = 0 -> forall m, solver_for p m -> exists o, In (ETry d l' m o) t)
  | None => (forall l' n i, ~ In (ETry d l' n (Some i)) t) /\ (forall n, solver_for p n -> In (ETry d l n None) t)
  end.
End Spec.
