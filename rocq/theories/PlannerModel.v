(** * The planner: kernel/planner.c, kernel/solvtab.c, kernel/hash.c.

    The planner is modelled for every set of solvers.  A solver is a program
    that may read the planner's flags and thread count, change the thread
    count, ask the planner for plans of subproblems, destroy such plans, and
    finally fail or return a plan: this is all that a mkplan method of the code
    can do with the planner.  The model is a function from the state of the
    planner to the outcome; [Diverge] stands for running out of the recursion
    depth [fuel] (the depth of nested calls of the planner), so that every
    theorem of the form "if the planner returns ..." is about all finite
    executions.

    Not modelled: the hooks (null unless MPI is used), the statistics counters
    nplan, nprob, pcost, epcost, the random estimator.  Costs are integers: the
    code only compares them with < and with 0.  The clock and the measurements
    are arbitrary functions of the number of previous readings. *)
From Coq Require Import ZArith List Lia Bool.
From Verif Require Import Base SpecWisdom HashModel FlagsModel.
Import ListNotations.
Open Scope Z_scope.

(** wisdom_state_t, kernel/ifftw.h:703-718 *)
Inductive wstate := WISDOM_NORMAL | WISDOM_ONLY | WISDOM_IS_BOGUS | WISDOM_IGNORE_INFEASIBLE | WISDOM_IGNORE_ALL.
Definition ws_eqb (a b : wstate) : bool :=
  match a, b with
  | WISDOM_NORMAL, WISDOM_NORMAL | WISDOM_ONLY, WISDOM_ONLY | WISDOM_IS_BOGUS, WISDOM_IS_BOGUS
  | WISDOM_IGNORE_INFEASIBLE, WISDOM_IGNORE_INFEASIBLE | WISDOM_IGNORE_ALL, WISDOM_IGNORE_ALL => true
  | _, _ => false
  end.
(** amnesia, kernel/ifftw.h:701 *)
Inductive amnesia := FORGET_ACCURSED | FORGET_EVERYTHING.

(** What is observed of an execution (not part of the C state): searches begun,
    candidates tried by the search at nesting depth [d] under the hard
    restrictions [l] (the block of the plan, or None), costs given to candidates, plans run for a measurement. *)
Inductive event :=
| ESearch (d : nat)
| ETry (d : nat) (l : Z) (ndx : Z) (r : option nat)
| ECost (d : nat) (id : nat) (c : Z)
| EMeasure (id : nat).

Section Planner.
Context {P B : Type}.

(** plan, kernel/ifftw.h:572-579: an allocated block [pid] holding the plans of
    the subproblems, the rest of the plan, pcost, the operation count as a cost,
    could_prune_now_p *)
Inductive plan := Plan (pid : nat) (kids : list plan) (pbody : B) (pcost pest : Z) (pprune : bool).
Definition pid (x : plan) := match x with Plan i _ _ _ _ _ => i end.
Definition kids (x : plan) := match x with Plan _ k _ _ _ _ => k end.
Definition pbody (x : plan) := match x with Plan _ _ b _ _ _ => b end.
Definition pcost (x : plan) := match x with Plan _ _ _ c _ _ => c end.
Definition pest (x : plan) := match x with Plan _ _ _ _ e _ => e end.
Definition pprune (x : plan) := match x with Plan _ _ _ _ _ p => p end.
Definition with_pcost (x : plan) (c : Z) := match x with Plan i k b _ e p => Plan i k b c e p end.
(** the blocks of a plan and of the plans it holds *)
Fixpoint ids (x : plan) : list nat := match x with Plan i k _ _ _ _ => i :: flat_map ids k end.

(** mkplan methods *)
Inductive prog :=
| PRet (r : option (list plan * B * Z * Z * bool))
| PSub (p : P) (l_set u_set u_reset : Z) (k : option plan -> prog)
| PDestroy (x : plan) (k : prog)
| PNthr (n : Z) (k : prog)
| PRead (k : flags_t -> Z -> prog).

(** slvdesc, kernel/ifftw.h:609-615; the fields of the planner that describe
    the solvers, kernel/ifftw.h:751-756 *)
Record slvdesc := mksd { sd_prog : P -> prog; sd_kind : nat; sd_nam : list Z; sd_hash : Z; sd_id : Z; sd_next : Z }.
Record registry := mkrg { rg_descs : list slvdesc; rg_heads : nat -> Z; rg_nam : list Z; rg_id : Z }.

(** X(hash), kernel/hash.c:23-30; the final 0 of the string is hashed too *)
Definition hash_str (s : list Z) : Z := fold_left (fun h c => (h * 17 + Z.land c 255) mod 2 ^ 32) (s ++ [0]) 0xDEADBEEF.
(** register_solver, kernel/planner.c:94-121 *)
Definition register_solver (rg : registry) (kind : nat) (mk : P -> prog) : registry :=
  let n := Z.of_nat (length (rg_descs rg)) in
  mkrg (rg_descs rg ++ [mksd mk kind (rg_nam rg) (hash_str (rg_nam rg)) (rg_id rg) (rg_heads rg kind)])
       (fun k => if Nat.eqb k kind then n else rg_heads rg k) (rg_nam rg) (rg_id rg + 1).
(** X(mkplanner), kernel/planner.c:911-950, the part on solvers *)
Definition no_solvers : registry := mkrg [] (fun _ => -1) [] 0.
(** X(solvtab_exec), kernel/solvtab.c:24-32; an entry registers a list of solvers *)
Definition solvtab_exec (tbl : list (list Z * list (nat * (P -> prog)))) (rg : registry) : registry :=
  fold_left (fun rg e => fold_left (fun rg s => register_solver rg (fst s) (snd s)) (snd e)
                           (mkrg (rg_descs rg) (rg_heads rg) (fst e) 0)) tbl rg.
(** array access *)
Definition desc_at (rg : registry) (n : Z) : out slvdesc :=
  if 0 <=? n then match nth_error (rg_descs rg) (Z.to_nat n) with Some d => Ret d | None => UB end else UB.
(** FORALL_SOLVERS_OF_KIND, kernel/ifftw.h:802-811: the solvers visited *)
Fixpoint walk (fuel : nat) (rg : registry) (cnt : Z) : out (list (Z * slvdesc)) :=
  if 0 <=? cnt then
    match fuel with
    | O => Diverge
    | S fuel' => d <- desc_at rg cnt;; l <- walk fuel' rg (sd_next d);; Ret ((cnt, d) :: l)
    end
  else Ret [].
Definition solvers_of_kind (rg : registry) (kind : nat) : out (list (Z * slvdesc)) :=
  walk (length (rg_descs rg)) rg (rg_heads rg kind).
(** slookup, kernel/planner.c:123-133 *)
Fixpoint str_eqb (a b : list Z) : bool :=
  match a, b with [], [] => true | x :: a', y :: b' => (x =? y) && str_eqb a' b' | _, _ => false end.
Fixpoint slookup_loop (l : list slvdesc) (n : Z) (nam : list Z) (h id : Z) : Z :=
  match l with
  | [] => INFEASIBLE_SLVNDX
  | d :: l' => if (sd_id d =? id) && (sd_hash d =? h) && str_eqb (sd_nam d) nam then n else slookup_loop l' (n + 1) nam h id
  end.
Definition slookup (rg : registry) (nam : list Z) (id : Z) : Z := slookup_loop (rg_descs rg) 0 nam (hash_str nam) id.

(** everything that does not change while planning: the kind of a problem, its
    signature for a thread count (md5hash, kernel/planner.c:170-177), the
    registered solvers, whether there is a time limit, the clock (whether the
    limit has passed at the n-th reading), the measured times, and whether the
    assertions A() are compiled in *)
Record env := mkenv {
  e_kind : P -> nat; e_sig : Z -> P -> sig; e_reg : registry;
  e_timelimit : bool; e_clock : nat -> bool; e_meas : nat -> Z; e_debug : bool }.
(** the state of the planner, kernel/ifftw.h:742-776, plus: number of readings
    of the clock and of measurements, live plan blocks and the next block, depth
    and trace of events (newest first) *)
Record st := mkst {
  s_flags : flags_t; s_nthr : Z; s_ws : wstate; s_hb : hashtab; s_hu : hashtab;
  s_timed_out : bool; s_ntc : bool;
  s_nclk : nat; s_nmeas : nat; s_live : list nat; s_next : nat; s_depth : nat; s_tr : list event }.
Definition set_flags (s : st) f := mkst f (s_nthr s) (s_ws s) (s_hb s) (s_hu s) (s_timed_out s) (s_ntc s) (s_nclk s) (s_nmeas s) (s_live s) (s_next s) (s_depth s) (s_tr s).
Definition set_nthr (s : st) n := mkst (s_flags s) n (s_ws s) (s_hb s) (s_hu s) (s_timed_out s) (s_ntc s) (s_nclk s) (s_nmeas s) (s_live s) (s_next s) (s_depth s) (s_tr s).
Definition set_ws (s : st) w := mkst (s_flags s) (s_nthr s) w (s_hb s) (s_hu s) (s_timed_out s) (s_ntc s) (s_nclk s) (s_nmeas s) (s_live s) (s_next s) (s_depth s) (s_tr s).
Definition set_tabs (s : st) hb hu := mkst (s_flags s) (s_nthr s) (s_ws s) hb hu (s_timed_out s) (s_ntc s) (s_nclk s) (s_nmeas s) (s_live s) (s_next s) (s_depth s) (s_tr s).
Definition set_timeout (s : st) t n := mkst (s_flags s) (s_nthr s) (s_ws s) (s_hb s) (s_hu s) t n (s_nclk s) (s_nmeas s) (s_live s) (s_next s) (s_depth s) (s_tr s).
Definition tick (s : st) := mkst (s_flags s) (s_nthr s) (s_ws s) (s_hb s) (s_hu s) (s_timed_out s) (s_ntc s) (S (s_nclk s)) (s_nmeas s) (s_live s) (s_next s) (s_depth s) (s_tr s).
Definition tock (s : st) := mkst (s_flags s) (s_nthr s) (s_ws s) (s_hb s) (s_hu s) (s_timed_out s) (s_ntc s) (s_nclk s) (S (s_nmeas s)) (s_live s) (s_next s) (s_depth s) (s_tr s).
Definition set_heap (s : st) l n := mkst (s_flags s) (s_nthr s) (s_ws s) (s_hb s) (s_hu s) (s_timed_out s) (s_ntc s) (s_nclk s) (s_nmeas s) l n (s_depth s) (s_tr s).
Definition set_depth (s : st) d := mkst (s_flags s) (s_nthr s) (s_ws s) (s_hb s) (s_hu s) (s_timed_out s) (s_ntc s) (s_nclk s) (s_nmeas s) (s_live s) (s_next s) d (s_tr s).
Definition emit (s : st) (e : event) := mkst (s_flags s) (s_nthr s) (s_ws s) (s_hb s) (s_hu s) (s_timed_out s) (s_ntc s) (s_nclk s) (s_nmeas s) (s_live s) (s_next s) (s_depth s) (e :: s_tr s).

(** ESTIMATEP, BELIEVE_PCOSTP, ALLOW_PRUNINGP, kernel/ifftw.h:678-680 *)
Definition has (x bit : Z) : bool := negb (Z.land x bit =? 0).
Definition ESTIMATEP (s : st) : bool := has (fu (s_flags s)) ESTIMATE.
Definition BELIEVE_PCOSTP (s : st) : bool := has (fu (s_flags s)) BELIEVE_PCOST.
Definition ALLOW_PRUNINGP (s : st) : bool := has (fu (s_flags s)) ALLOW_PRUNING.

(** X(plan_destroy_internal), kernel/plan.c:45-52, applied to a plan and,
    through its destroy method, to the plans it holds: destroying a block that
    is not live is undefined *)
Fixpoint remove1 (i : nat) (l : list nat) : option (list nat) :=
  match l with
  | [] => None
  | j :: l' => if Nat.eqb i j then Some l' else match remove1 i l' with Some r => Some (j :: r) | None => None end
  end.
Fixpoint free_all (is : list nat) (l : list nat) : out (list nat) :=
  match is with [] => Ret l | i :: is' => match remove1 i l with Some l' => free_all is' l' | None => UB end end.
Definition destroy (x : option plan) (s : st) : out st :=
  match x with None => Ret s | Some x => l <- free_all (ids x) (s_live s);; Ret (set_heap s l (s_next s)) end.

Section WithEnv.
Variable e : env.
(** A(), kernel/ifftw.h: only in debugging builds *)
Definition A_ (b : bool) : out unit := if e_debug e && negb b then UB else Ret tt.

(** hlookup, kernel/planner.c:239-245 *)
Definition hlookup (s : st) (k : sig) (f : flags_t) : out (option slot) :=
  r <- htab_lookup (s_hb s) k f;;
  match r with
  | Some (_, l) => Ret (Some l)
  | None => r' <- htab_lookup (s_hu s) k f;; Ret (match r' with Some (_, l) => Some l | None => None end)
  end.
(** hinsert, kernel/planner.c:389-394.  A table of 2^30 or more elements is
    treated as running out of memory. *)
Definition insert_guarded (ht : hashtab) (k : sig) (f : flags_t) (n : Z) : out hashtab :=
  if nelem ht <? 2 ^ 30 then htab_insert ht k f n else Diverge.
Definition hinsert (s : st) (k : sig) (f : flags_t) (n : Z) : out st :=
  if fbless f then ht <- insert_guarded (s_hb s) k f n;; Ret (set_tabs s ht (s_hu s))
  else ht <- insert_guarded (s_hu s) k f n;; Ret (set_tabs s (s_hb s) ht).
(** forget, kernel/planner.c:769-783 *)
Definition forget (s : st) (a : amnesia) : out st :=
  ht <- mkhashtab;; ht' <- mkhashtab;;
  Ret (match a with FORGET_EVERYTHING => set_tabs s ht ht' | FORGET_ACCURSED => set_tabs s (s_hb s) ht' end).

(** evaluate_plan, kernel/planner.c:444-474 *)
Definition evaluate_plan (x : plan) (s : st) : plan * st :=
  let '(x', s') :=
    if ESTIMATEP s || negb (BELIEVE_PCOSTP s) || (pcost x =? 0) then
      if ESTIMATEP s then (with_pcost x (pest x), s)
      else
        let t := e_meas e (s_nmeas s) in let s1 := emit (tock s) (EMeasure (pid x)) in
        if t <? 0 then (with_pcost x (pest x), s1)
        else (with_pcost x t, set_timeout s1 (s_timed_out s1) true)
    else (x, s) in
  (x', emit s' (ECost (s_depth s') (pid x') (pcost x'))).

(** timeout_p, kernel/planner.c:493-516 *)
Definition timeout_p (s : st) : out (bool * st) :=
  let no s := _ <- A_ (negb (s_timed_out s));; Ret (false, set_timeout s (s_timed_out s) false) in
  if negb (ESTIMATEP s) then
    if s_timed_out s then _ <- A_ (s_ntc s);; Ret (true, s)
    else if e_timelimit e then
      let s1 := tick s in
      if e_clock e (s_nclk s) then Ret (true, set_timeout s1 true true) else no s1
    else no s
  else no s.

Section WithRec.
(** the planner itself, for subproblems *)
Variable rec : P -> st -> out (option plan * st).

(** X(mkplan_f_d), kernel/planner.c:976-989.  X(mkplan_d) (lines 968-973) is
    the case of three zeros: inside a solver timelimit_impatience is 0, so that
    the planner leaves the flags as they are.  The depth is ours. *)
Definition mkplan_f_d (p : P) (l_set u_set u_reset : Z) (s : st) : out (option plan * st) :=
  let f := s_flags s in
  let s1 := set_flags s (mkfl (Z.lor (Z.ldiff (fl f) u_reset) l_set)
                              (Z.lor (Z.ldiff (fu f) u_reset) (Z.lor u_set l_set)) (ftl f) (fbless f)) in
  r <- rec p (set_depth s1 (S (s_depth s)));;
  Ret (fst r, set_depth (set_flags (snd r) f) (s_depth s)).

Fixpoint run (g : prog) (s : st) : out (option plan * st) :=
  match g with
  | PRet None => Ret (None, s)
  | PRet (Some (ks, b, c, es, pr)) =>
      Ret (Some (Plan (s_next s) ks b c es pr), set_heap s (s_next s :: s_live s) (S (s_next s)))
  | PSub p l_set u_set u_reset k => r <- mkplan_f_d p l_set u_set u_reset s;; run (k (fst r)) (snd r)
  | PDestroy x k => s' <- destroy (Some x) s;; run k s'
  | PNthr n k => run k (set_nthr s n)
  | PRead k => run (k (s_flags s) (s_nthr s)) s
  end.

(** invoke_solver, kernel/planner.c:477-490 *)
Definition invoke_solver (p : P) (d : slvdesc) (nflags : flags_t) (s : st) : out (option plan * st) :=
  let s1 := set_flags s (mkfl (fl nflags) (fu nflags) 0 (fbless nflags)) in
  _ <- A_ (Nat.eqb (e_kind e p) (sd_kind d));;
  r <- run (sd_prog d p) s1;;
  Ret (fst r, set_flags (set_nthr (snd r) (s_nthr s)) (s_flags s)).

(** search0, kernel/planner.c:518-570.  [best] carries the best plan, its
    solver and best_not_yet_timed. *)
Fixpoint search_loop (l : list (Z * slvdesc)) (p : P) (f : flags_t) (best : option (plan * Z)) (not_yet_timed : bool) (s : st)
  : out (option (plan * Z) * st) :=
  match l with
  | [] => Ret (best, s)
  | (n, d) :: l' =>
      r <- invoke_solver p d f s;;
      let '(x, s1) := r in
      let s2 := emit s1 (ETry (s_depth s1) (fl f) n (option_map pid x)) in
      t <- (if s_ntc s2 then timeout_p s2 else Ret (false, s2));;
      let '(late, s3) := t in
      if late : bool then
        s4 <- destroy x s3;; s5 <- destroy (option_map fst best) s4;; Ret (None, s5)
      else
        match x with
        | None => search_loop l' p f best not_yet_timed s3
        | Some x =>
            let prune := pprune x in
            c <- (match best with
                  | Some (b, nb) =>
                      let '(b', s4) := if not_yet_timed then evaluate_plan b s3 else (b, s3) in
                      let '(x', s5) := evaluate_plan x s4 in
                      if pcost x' <? pcost b' then s6 <- destroy (Some b') s5;; Ret ((x', n), false, s6)
                      else s6 <- destroy (Some x') s5;; Ret ((b', nb), false, s6)
                  | None => Ret ((x, n), not_yet_timed, s3)
                  end);;
            let '(best', nyt', s7) := c in
            if ALLOW_PRUNINGP s7 && prune then Ret (Some best', s7)
            else search_loop l' p f (Some best') nyt' s7
        end
  end.
Definition search0 (p : P) (f : flags_t) (s : st) : out (option (plan * Z) * st) :=
  t <- timeout_p s;;
  let '(late, s1) := t in
  if late : bool then Ret (None, s1)
  else l <- solvers_of_kind (e_reg e) (e_kind e p);; search_loop l p f None true s1.

(** search, kernel/planner.c:572-615; also returns the flags left in *flagsp *)
Definition relax_tab : list Z := [0; NO_VRECURSE; NO_FIXED_RADIX_LARGE_N; NO_SLOW; NO_UGLY].
Definition with_l (f : flags_t) (l : Z) : flags_t := mkfl l (fu f) (ftl f) (fbless f).
Fixpoint relax_loop (tab : list Z) (p : P) (l_orig x last_x : Z) (f : flags_t) (s : st)
  : out (option (plan * Z) * Z * flags_t * st) :=
  match tab with
  | [] => Ret (None, last_x, f, s)
  | r :: tab' =>
      let x' := if LEQ l_orig (Z.ldiff x r) then Z.ldiff x r else x in
      if negb (x' =? last_x) then
        q <- search0 p (with_l f x') s;;
        match q with
        | (Some b, s1) => Ret (Some b, x', with_l f x', s1)
        | (None, s1) => relax_loop tab' p l_orig x' x' (with_l f x') s1
        end
      else relax_loop tab' p l_orig x' last_x f s
  end.
Definition search (p : P) (f : flags_t) (s : st) : out (option (plan * Z) * flags_t * st) :=
  let s0 := emit s (ESearch (s_depth s)) in
  r <- relax_loop relax_tab p (fl f) (fu f) (2 ^ 32 - 1 - fu f) f s0;;
  let '(b, last_x, f1, s1) := r in
  match b with
  | Some _ => Ret (b, f1, s1)
  | None =>
      if negb (fl f =? last_x) then
        q <- search0 p (with_l f1 (fl f)) s1;; Ret (fst q, with_l f1 (fl f), snd q)
      else Ret (None, f1, s1)
  end.

(** the end of mkplan, labels skip_search and wisdom_is_bogus, kernel/planner.c:728-746 *)
Definition skip_search (k : sig) (x : option (plan * Z)) (f : flags_t) (s : st) : out (option plan * st) :=
  s1 <- (if ws_eqb (s_ws s) WISDOM_NORMAL || ws_eqb (s_ws s) WISDOM_ONLY
         then hinsert s k f (match x with Some (_, n) => n | None => INFEASIBLE_SLVNDX end)
         else Ret s);;
  Ret (option_map fst x, s1).
Definition wisdom_is_bogus (x : option plan) (s : st) : out (option plan * st) :=
  s1 <- destroy x s;; Ret (None, set_ws s1 WISDOM_IS_BOGUS).
Definition bogus (s : st) : bool := ws_eqb (s_ws s) WISDOM_IS_BOGUS.

(** mkplan from the label do_search, kernel/planner.c:702-726 *)
Definition do_search (p : P) (k : sig) (s : st) : out (option plan * st) :=
  if ws_eqb (s_ws s) WISDOM_ONLY then wisdom_is_bogus None s
  else
    r <- search p (s_flags s) s;;
    let '(x, f, s1) := r in
    if bogus s1 then wisdom_is_bogus (option_map fst x) s1
    else if s_timed_out s1 then
      _ <- A_ (match x with None => true | Some _ => false end);;
      if negb (ftl (s_flags s1) =? 0) then skip_search k x (mkfl (fl f) (fu f) (ftl f) true) s1
      else Ret (None, s1)
    else skip_search k x (mkfl (fl f) (fu f) 0 (fbless f)) s1.
(** mkplan, kernel/planner.c:623-747 (up to do_search: 623-700) *)
Definition mkplan_body (p : P) (s : st) : out (option plan * st) :=
  _ <- A_ (LEQ (fl (s_flags s)) (fu (s_flags s)));;
  let s1 := if ESTIMATEP s then set_flags s (mkfl (fl (s_flags s)) (fu (s_flags s)) 0 (fbless (s_flags s))) else s in
  if bogus s1 then wisdom_is_bogus None s1
  else
    let s2 := set_timeout s1 false (s_ntc s1) in
    let k := e_sig e (s_nthr s2) p in
    let f := s_flags s2 in
    if negb (ws_eqb (s_ws s2) WISDOM_IGNORE_ALL) then
      r <- hlookup s2 k f;;
      match r with
      | Some sol =>
          let ow := s_ws s2 in
          if sndx sol =? INFEASIBLE_SLVNDX then
            if ws_eqb ow WISDOM_IGNORE_INFEASIBLE then do_search p k s2 else Ret (None, s2)
          else
            let f' := mkfl (fl (sflags sol)) (fu (sflags sol)) (ftl (sflags sol)) (fbless (sflags sol) || fbless f) in
            let s3 := set_ws s2 WISDOM_ONLY in
            d <- desc_at (e_reg e) (sndx sol);;
            if negb (Nat.eqb (e_kind e p) (sd_kind d)) then wisdom_is_bogus None s3
            else
              q <- invoke_solver p d f' s3;;
              let '(x, s4) := q in
              if bogus s4 then wisdom_is_bogus x s4
              else match x with
                   | None => wisdom_is_bogus None s4
                   | Some x => skip_search k (Some (x, sndx sol)) f' (set_ws s4 ow)
                   end
      | None => do_search p k s2
      end
    else do_search p k s2.
End WithRec.

Fixpoint mkplan (fuel : nat) (p : P) (s : st) : out (option plan * st) :=
  match fuel with O => Diverge | S fuel' => mkplan_body (mkplan fuel') p s end.
End WithEnv.
End Planner.
Arguments plan : clear implicits.
Arguments prog : clear implicits.
Arguments slvdesc : clear implicits.
Arguments registry : clear implicits.
Arguments env : clear implicits.
