(** * Plan creation and destruction through the API: api/apiplan.c,
    api/the-planner.c, api/forget-wisdom.c,
    api/import-wisdom-from-string.c.

    The heap of plan blocks is the field s_live of the state of the planner; it
    outlives the planner (fftw_cleanup).  Not modelled: the hooks (used only
    with threads), wakefulness, the cached cost.  The time limit is represented
    by its class (timelimit_to_flags, FlagsModel), or None for no limit. *)
From Coq Require Import ZArith List Bool.
From Verif Require Import Base SpecWisdom HashModel FlagsModel PlannerModel ImportModel.
Import ListNotations.
Open Scope Z_scope.

Section Api.
Context {P B : Type}.
Notation plan := (plan B).
(** struct X(plan_s), api/api.h:62-70 *)
Record apiplan := mkap { ap_pln : plan; ap_prb : nat; ap_ref : Z; ap_sign : Z }.
(** the static variable plnr of api/the-planner.c:23 (a_init: not null), its
    time limit, the handles, the blocks of problems *)
Record api := mkapi { a_init : bool; a_st : st; a_tl : option Z; a_plans : list (nat * apiplan); a_next : nat; a_probs : list nat; a_nextp : nat }.

Section WithEnv.
Variable e0 : env P B.
Variable fuel : nat.
Definition env_tl (tl : option Z) : env P B :=
  mkenv (e_kind e0) (e_sig e0) (e_reg e0) (match tl with Some _ => true | None => false end) (e_clock e0) (e_meas e0) (e_debug e0).
Section WithTl.
Variable tl : option Z.
Notation e := (env_tl tl).
Definition tlclass : Z := match tl with Some c => c | None => 0 end.
(** mkplan0, api/apiplan.c:31-43 *)
Definition mkplan0 (flags : Z) (p : P) (bless : bool) (ws : wstate) (s : st) : out (option plan * st) :=
  mkplan e fuel p (set_ws (set_flags s (mkfl (PLNR_L flags) (PLNR_U flags) tlclass bless)) ws).
(** mkplan, api/apiplan.c:51-84 *)
Definition isnone {A} (x : option A) : bool := match x with None => true | Some _ => false end.
Definition api_mkplan (flags : Z) (p : P) (bless : bool) (s : st) : out (option plan * st) :=
  r1 <- mkplan0 flags p bless WISDOM_NORMAL s;;
  r2 <- (if ws_eqb (s_ws (snd r1)) WISDOM_NORMAL && isnone (fst r1)
         then mkplan0 (force_estimator flags) p bless WISDOM_IGNORE_INFEASIBLE (snd r1)
         else Ret r1);;
  if bogus (snd r2) then
    s3 <- forget (snd r2) FORGET_EVERYTHING;;
    _ <- A_ e (isnone (fst r2));;
    r4 <- mkplan0 flags p bless WISDOM_NORMAL s3;;
    if bogus (snd r4) then
      s5 <- forget (snd r4) FORGET_EVERYTHING;;
      _ <- A_ e (isnone (fst r4));;
      mkplan0 (force_estimator flags) p bless WISDOM_IGNORE_ALL s5
    else Ret r4
  else Ret r2.
(** the loop of X(mkapiplan), api/apiplan.c:121-136, over the flag words still
    to be used; also returns flags_used_for_planning *)
Fixpoint pat_loop (fs : list Z) (p : P) (pln : option plan) (used : Z) (s : st) : out (option plan * Z * st) :=
  match fs with
  | [] => Ret (pln, used, s)
  | f :: fs' =>
      r <- api_mkplan f p false s;;
      match fst r with
      | None => _ <- A_ e (isnone pln || s_timed_out (snd r));; Ret (pln, used, snd r)
      | Some x => s1 <- destroy pln (snd r);; pat_loop fs' p (Some x) f s1
      end
  end.
(** X(mkapiplan), api/apiplan.c:86-178, up to line 137: the first plan *)
Definition first_plan (flags : Z) (p : P) (s : st) : out (option plan * Z * st) :=
  if flagset flags FFTW_WISDOM_ONLY then r <- mkplan0 flags p false WISDOM_ONLY s;; Ret (fst r, flags, snd r)
  else pat_loop (planning_flags (match tl with Some _ => true | None => false end) flags) p None 0 s.
(** lines 139-168: the plan put into the handle.  The plan is made again, with
    blessing; the result is dereferenced without a test (line 150). *)
Definition mkapi_pln (flags : Z) (p : P) (s : st) : out (option plan * st) :=
  r <- first_plan flags p s;;
  let '(pln, used, s1) := r in
  q <- (match pln with
        | Some x => q <- api_mkplan used p true s1;;
                    match fst q with
                    | None => UB
                    | Some y => s2 <- destroy (Some x) (snd q);; Ret (Some y, s2)
                    end
        | None => Ret (None, s1)
        end);;
  s3 <- forget (snd q) FORGET_ACCURSED;;
  Ret (fst q, s3).
End WithTl.

(** X(mkplanner), kernel/planner.c:911-950, the fields that matter here;
    timed_out is not initialised *)
Definition mkplanner (s : st) : out st :=
  hb <- mkhashtab;; hu <- mkhashtab;;
  Ret (mkst (mkfl 0 0 0 false) 1 WISDOM_NORMAL hb hu (s_timed_out s) true (s_nclk s) (s_nmeas s) (s_live s) (s_next s) (s_depth s) (s_tr s)).
(** X(the_planner), api/the-planner.c:26-34 *)
Definition the_planner (a : api) : out api :=
  if a_init a then Ret a
  else s <- mkplanner (a_st a);; Ret (mkapi true s None (a_plans a) (a_next a) (a_probs a) (a_nextp a)).

(** X(mkapiplan), with the allocation of the problem by its caller; the handle *)
Definition create (sign flags : Z) (p : P) (a : api) : out (option nat * api) :=
  let k := a_nextp a in
  a1 <- the_planner a;;
  r <- mkapi_pln (a_tl a1) flags p (a_st a1);;
  match fst r with
  | Some x => Ret (Some (a_next a1), mkapi true (snd r) (a_tl a1) ((a_next a1, mkap x k 1 sign) :: a_plans a1) (S (a_next a1)) (k :: a_probs a1) (S k))
  | None => Ret (None, mkapi true (snd r) (a_tl a1) (a_plans a1) (a_next a1) (a_probs a1) (S k))
  end.
Fixpoint find_h (h : nat) (l : list (nat * apiplan)) : option apiplan :=
  match l with [] => None | (i, x) :: l' => if Nat.eqb i h then Some x else find_h h l' end.
Fixpoint set_h (h : nat) (x : option apiplan) (l : list (nat * apiplan)) : list (nat * apiplan) :=
  match l with
  | [] => []
  | (i, y) :: l' => if Nat.eqb i h then match x with Some x => (i, x) :: l' | None => l' end else (i, y) :: set_h h x l'
  end.
(** X(copy_plan), api/apiplan.c:180-192; [None] is the null pointer *)
Definition copy_plan (h : option nat) (a : api) : out api :=
  match h with
  | None => Ret a
  | Some h =>
      match find_h h (a_plans a) with
      | None => UB
      | Some x => Ret (mkapi (a_init a) (a_st a) (a_tl a) (set_h h (Some (mkap (ap_pln x) (ap_prb x) (ap_ref x + 1) (ap_sign x))) (a_plans a)) (a_next a) (a_probs a) (a_nextp a))
      end
  end.
(** X(destroy_plan), api/apiplan.c:194-210 *)
Definition destroy_plan (h : option nat) (a : api) : out api :=
  match h with
  | None => Ret a
  | Some h =>
      match find_h h (a_plans a) with
      | None => UB
      | Some x =>
          if ap_ref x =? 1 then
            s <- destroy (Some (ap_pln x)) (a_st a);;
            match remove1 (ap_prb x) (a_probs a) with
            | None => UB
            | Some pr => Ret (mkapi (a_init a) s (a_tl a) (set_h h None (a_plans a)) (a_next a) pr (a_nextp a))
            end
          else Ret (mkapi (a_init a) (a_st a) (a_tl a) (set_h h (Some (mkap (ap_pln x) (ap_prb x) (ap_ref x - 1) (ap_sign x))) (a_plans a)) (a_next a) (a_probs a) (a_nextp a))
      end
  end.
(** X(forget_wisdom), api/forget-wisdom.c:23-27 *)
Definition forget_wisdom (a : api) : out api :=
  a1 <- the_planner a;; s <- forget (a_st a1) FORGET_EVERYTHING;;
  Ret (mkapi true s (a_tl a1) (a_plans a1) (a_next a1) (a_probs a1) (a_nextp a1)).
(** X(set_timelimit), api/the-planner.c:44-49 *)
Definition set_timelimit (t : option Z) (a : api) : out api :=
  a1 <- the_planner a;; Ret (mkapi true (a_st a1) t (a_plans a1) (a_next a1) (a_probs a1) (a_nextp a1)).
(** X(import_wisdom_from_string), api/import-wisdom-from-string.c:38-46; the other
    sources differ in where the characters come from *)
Definition import_wisdom (junk : Z -> Z) (txt : list Z) (a : api) : out (option bool * api) :=
  a1 <- the_planner a;; r <- imprt junk (e_reg e0) (a_st a1) txt;;
  Ret (fst (fst r), mkapi true (snd r) (a_tl a1) (a_plans a1) (a_next a1) (a_probs a1) (a_nextp a1)).
(** X(cleanup), api/the-planner.c:36-42: the planner and its tables are freed *)
Definition cleanup (a : api) : api := mkapi false (a_st a) (a_tl a) (a_plans a) (a_next a) (a_probs a) (a_nextp a).

(** programs that use the API; a call that aborts the process has no result *)
Inductive call := Create (sign flags : Z) (p : P) | Copy (h : option nat) | Destroy (h : option nat) | ForgetWisdom | SetTimelimit (t : option Z) | Cleanup | Import (junk : Z -> Z) (txt : list Z).
Definition do_call (c : call) (a : api) : out (option nat * api) :=
  match c with
  | Create sign flags p => create sign flags p a
  | Copy h => a' <- copy_plan h a;; Ret (h, a')
  | Destroy h => a' <- destroy_plan h a;; Ret (None, a')
  | ForgetWisdom => a' <- forget_wisdom a;; Ret (None, a')
  | SetTimelimit t => a' <- set_timelimit t a;; Ret (None, a')
  | Cleanup => Ret (None, cleanup a)
  | Import junk txt => r <- import_wisdom junk txt a;; match fst r with Some _ => Ret (None, snd r) | None => Diverge end
  end.
(** the results of a sequence of calls *)
Fixpoint do_calls (cs : list call) (a : api) : out (list (option nat) * api) :=
  match cs with
  | [] => Ret ([], a)
  | c :: cs' => r <- do_call c a;; q <- do_calls cs' (snd r);; Ret (fst r :: fst q, snd q)
  end.
End WithEnv.
(** nothing has been called yet; the contents of [a_st] are those of no planner *)
Definition nohtab : hashtab := mkht 0 0 (fun _ => mkslot false false (mksig 0 0 0 0) (mkfl 0 0 0 false) 0).
Definition blank : st := mkst (mkfl 0 0 0 false) 1 WISDOM_NORMAL nohtab nohtab false false 0 0 [] 0 0 [].
Definition boot : api := mkapi false blank None [] 0 [] 0.
End Api.
Arguments apiplan : clear implicits.
Arguments api : clear implicits.
Arguments call : clear implicits.
