(** * genfft: from the schedule to nested blocks of instructions with their declarations (annotate.ml) *)
From Coq Require Import ZArith List Bool Lia.
From Verif Require Import Cplx GenExpr GenAlg GenAlist GenSched.
Import ListNotations.
Open Scope nat_scope.

(** the settings of magic.ml: schedule_for_pipeline, pipeline_latency, reorder_insns, reorder_stores, reorder_loads, number_of_variables *)
Record nmagic := {
  schedule_for_pipeline_on : bool; pipeline_latency : Z; reorder_insns : bool; reorder_stores : bool; reorder_loads : bool;
  number_of_variables : nat }.

(** annotated_schedule and aschedule, annotate.ml:36-41 *)
Inductive annotated := Annotate (live defined declared : list variable) (depth : nat) (code : acode)
with acode := ADone | AInstr (a : assignment) | ASeq (a b : annotated).

(** List.memq on variables; addelem, union, diff: annotate.ml:43-49 *)
Definition memq (v : variable) (l : list variable) : bool := existsb (same v) l.
Definition addelem (a : variable) (set : list variable) : list variable := if negb (memq a set) then a :: set else set.
Definition union (l set : list variable) : list variable := fold_right addelem set l.
Definition diff (a b : list variable) : list variable := filter (fun x => negb (memq x b)) a.
(** Util.remove, util.ml:97 *)
Definition remove_var (v : variable) (l : list variable) : list variable := filter (fun e => negb (same e v)) l.
(** find_block_vars, annotate.ml:59-63 *)
Fixpoint find_block_vars (s : sched) : list variable :=
  match s with
  | Done => []
  | Instr (v, x) => v :: find_vars x
  | Par a => flat_map find_block_vars a
  | Seq a b => find_block_vars a ++ find_block_vars b
  end.
(** uniq, has_related, overlap: annotate.ml:65-70 *)
Definition uniq (l : list variable) : list variable := fold_right (fun a b => if memq a b then b else a :: b) [] l.
Definition has_related (x : variable) (l : list variable) : bool := existsb (same_class x) l.
Definition overlap (a b : list variable) : nat := length (filter (fun y => has_related y b) a).

(** A schedule with its variables; the number is the identity of the pair (reorder removes the pair it starts
    with by physical equality) *)
Definition block : Type := nat * (sched * list variable).
Definition keyed : Type := block * (nat * nat).
Section Reorder.
  (** List.sort.  The comparison of reorder is not an order, for which the result of List.sort is not
      specified; all that is used is that it permutes the list *)
  Variable sort : (keyed -> keyed -> Z) -> list keyed -> list keyed.
  (** minimize, annotate.ml:51-56 *)
  Fixpoint minimize (f : block -> nat) (l : list block) : option block :=
    match l with
    | [] => None
    | [n] => Some n
    | n :: rest => match minimize f rest with Some x => Some (if f n <=? f x then n else x) | None => None end
    end.
  Definition vars_of (b : block) : list variable := snd (snd b).
  (** reorder, annotate.ml:73-94.  [n] bounds the depth of the recursion (the list gets shorter) *)
  Fixpoint reorder_loop (n : nat) (l : list block) : list sched :=
    match l, n with
    | a :: b, S n' =>
        let c := map (fun x => (x, (overlap (vars_of a) (vars_of x), length (vars_of x)))) b in
        let c' := sort (fun p q => if (snd (snd p) <? snd (snd q)) || (fst (snd q) <? fst (snd p)) then (-1)%Z else 1%Z) c in
        fst (snd a) :: reorder_loop n' (map fst c')
    | _, _ => []
    end.
  Definition reorder (l : list sched) : list sched :=
    let l' := combine (seq 0 (length l)) (map (fun x => (x, uniq (find_block_vars x))) l) in
    match minimize (fun b => length (vars_of b)) l' with
    | None => []
    | Some m => reorder_loop (length l') (m :: filter (fun b => negb (fst b =? fst m)) l')
    end.
  (** linearize, annotate.ml:97-116.  [fuel] bounds the depth of the recursion *)
  Fixpoint linearize (fuel : nat) (s : sched) : option sched :=
    match fuel with
    | O => None
    | S f =>
        match s with
        | Seq a Done => linearize f a
        | Seq Done a => linearize f a
        | Seq a b => match linearize f a, linearize f b with Some a', Some b' => Some (Seq a' b') | _, _ => None end
        | Par [a] => linearize f a
        | Par l => let n2 := Nat.div2 (length l) in let r := reorder l in linearize f (Seq (Par (firstn n2 r)) (Par (skipn n2 r)))
        | x => Some x
        end
    end.
End Reorder.

(** subset, use_same_vars, store_to_same_class, loads_from_same_class: annotate.ml:118-137 *)
Definition subset (a b : list variable) : bool := forallb (fun x => memq x b) a.
Definition use_same_vars (a b : assignment) : bool :=
  is_temporary (fst a) && is_temporary (fst b) && (subset (find_vars (snd a)) (find_vars (snd b)) && subset (find_vars (snd b)) (find_vars (snd a))).
Definition store_to_same_class (a b : assignment) : bool :=
  is_locative (fst a) && is_locative (fst b) && same_class (fst a) (fst b).
Definition loads_from_same_class (a b : assignment) : bool :=
  match snd a, snd b with
  | ELoad v, ELoad w => if is_locative v && is_locative w then same_class v w else false
  | _, _ => false
  end.

(** sched_to_ilist, annotate.ml:140-144.  Par is an error there; linearize leaves no Par (proved) *)
Fixpoint sched_to_ilist (s : sched) : list assignment :=
  match s with Done => [] | Instr a => [a] | Seq a b => sched_to_ilist a ++ sched_to_ilist b | Par _ => [] end.
(** find_friends, annotate.ml:146-152.  The instruction itself is recognized by physical equality: it is the one
    that assigns its variable *)
Fixpoint find_friends (friendp : assignment -> assignment -> bool) (insn : assignment) (friends foes l : list assignment) : list assignment * list assignment :=
  match l with
  | [] => (friends, foes)
  | a :: b =>
      if same (fst a) (fst insn) || friendp a insn then find_friends friendp insn (a :: friends) foes b
      else find_friends friendp insn friends (a :: foes) b
  end.
(** sequentially, schedule.ml:171-173 *)
Fixpoint sequentially (l : list assignment) : sched := match l with [] => Done | a :: b => Seq (Instr a) (sequentially b) end.
(** delay_friends, annotate.ml:157-170.  None is failwith; Par is an error there, linearize leaves none *)
Fixpoint delay_recur (friendp : assignment -> assignment -> bool) (insns : list assignment) (s : sched) : sched * list assignment :=
  match s with
  | Done => (Done, insns)
  | Instr a => let (friends, foes) := find_friends friendp a [] [] insns in (sequentially friends, foes)
  | Seq a b => let (b', insnsb) := delay_recur friendp insns b in let (a', insnsa) := delay_recur friendp insnsb a in (Seq a' b', insnsa)
  | Par _ => (s, insns)
  end.
Definition delay_friends (friendp : assignment -> assignment -> bool) (s : sched) : option sched :=
  match delay_recur friendp (sched_to_ilist s) s with (s, []) => Some s | _ => None end.
(** anticipate_friends, annotate.ml:175-188 *)
Fixpoint anticipate_recur (friendp : assignment -> assignment -> bool) (insns : list assignment) (s : sched) : sched * list assignment :=
  match s with
  | Done => (Done, insns)
  | Instr a => let (friends, foes) := find_friends friendp a [] [] insns in (sequentially friends, foes)
  | Seq a b => let (a', insnsa) := anticipate_recur friendp insns a in let (b', insnsb) := anticipate_recur friendp insnsa b in (Seq a' b', insnsb)
  | Par _ => (s, insns)
  end.
Definition anticipate_friends (friendp : assignment -> assignment -> bool) (s : sched) : option sched :=
  match anticipate_recur friendp (sched_to_ilist s) s with (s, []) => Some s | _ => None end.

(** schedule_for_pipeline, annotate.ml:223-269 *)
Section Pipeline.
  Variable latency : Z.
  Definition times := list (variable * Z).
  Definition update_readytimes (t : Z) (a : assignment) (rt : times) : times := (fst a, (t + latency)%Z) :: rt.
  Fixpoint assq (v : variable) (rt : times) : option Z :=
    match rt with [] => None | (w, t) :: r => if same v w then Some t else assq v r end.
  Definition readyp (t : Z) (rt : times) (a : assignment) : bool :=
    forallb (fun v => match assq v rt with Some t' => (t' <=? t)%Z | None => false end) (filter is_temporary (find_vars (snd a))).
  (** sched, t, ready_times, delayed_instructions *)
  Definition pstate : Type := Z * times * list assignment.
  (** the calls of recur that only issue a delayed instruction, and the state after them; each makes the list of
      delayed instructions shorter, [n] is its length *)
  Fixpoint issue (n : nat) (st : pstate) : list assignment * pstate :=
    let '(t, rt, delayed) := st in
    match List.partition (readyp t rt) delayed, n with
    | (a :: b, not_ready), S n' => let (l, st') := issue n' ((t + 1)%Z, update_readytimes t a rt, b ++ not_ready) in (a :: l, st')
    | _, _ => ([], st)
    end.
  Definition issued (l : list assignment) (s : sched) : sched := fold_right (fun a s => Seq (Instr a) s) s l.
  Fixpoint pipe_recur (s : sched) (st : pstate) : sched * pstate :=
    let (l, st1) := issue (length (snd st)) st in
    let '(t, rt, delayed) := st1 in
    let (s', st2) :=
      match s with
      | Done => (s, st1)
      | Instr a => if readyp t rt a then (s, ((t + 1)%Z, update_readytimes t a rt, delayed)) else (Done, (t, rt, a :: delayed))
      | Seq a b => let (a', sta) := pipe_recur a st1 in let (b', stb) := pipe_recur b sta in (Seq a' b', stb)
      | Par _ => (s, st1)
      end in
    (issued l s', st2).
  Fixpoint recur_until_done (fuel : nat) (s : sched) (st : pstate) : option sched :=
    match fuel with
    | O => None
    | S f =>
        let '(s', (t, rt, delayed)) := pipe_recur s st in
        match delayed with
        | [] => Some s'
        | _ => match recur_until_done f Done ((t + 1)%Z, rt, delayed) with Some r => Some (Seq s' r) | None => None end
        end
    end.
End Pipeline.
Definition schedule_for_pipeline (latency : Z) (fuel : nat) (s : sched) : option sched := recur_until_done latency fuel s (0%Z, [], []).

(** rewrite_declarations, annotate.ml:271-292 *)
Definition undeclared (x : annotated) : list variable := match x with Annotate _ u _ _ _ => u end.
Fixpoint rewrite_declarations (m : nat) (force : bool) (x : annotated) : annotated :=
  match x with
  | Annotate _ _ declared _ what =>
      let declare_it d := if force || (m <=? length d) then ([], d) else (d, []) in
      match what with
      | ADone => Annotate [] [] [] 0 what
      | AInstr i => let (u, d) := declare_it declared in Annotate [] u d 0 what
      | ASeq a b =>
          let ma := rewrite_declarations m false a in let mb := rewrite_declarations m false b in
          let (u, d) := declare_it (declared ++ undeclared ma ++ undeclared mb) in Annotate [] u d 0 (ASeq ma mb)
      end
  end.
(** analyze, annotate.ml:295-314 *)
Fixpoint analyze (live_at_end : list variable) (s : sched) : annotated :=
  match s with
  | Done => Annotate live_at_end [] [] 0 ADone
  | Instr (v, x) => Annotate (remove_var v (union live_at_end (find_vars x))) [v] [] 0 (AInstr (v, x))
  | Seq a b =>
      let ab := analyze live_at_end b in
      match ab with
      | Annotate live_at_begin_b defined_b _ depth_a _ =>
          let aa := analyze live_at_begin_b a in
          match aa with
          | Annotate live_at_begin_a defined_a _ depth_b _ =>
              let defined := filter is_temporary (defined_a ++ defined_b) in
              let declarable := diff defined live_at_end in
              let undeclarable := diff defined declarable in
              Annotate live_at_begin_a undeclarable declarable (length declarable + Nat.max depth_a depth_b) (ASeq aa ab)
          end
      end
  | Par _ => Annotate live_at_end [] [] 0 ADone
  end.

(** annotate, annotate.ml:294-354, without buddies (list_of_buddy_stores = []: collect_buddy_stores, annotate.ml:190-221, is then
    the identity; only gen_notw_c with -store-multiple has buddies) *)
Section Annotate.
  Variable sort : (keyed -> keyed -> Z) -> list keyed -> list keyed.
  Variable Mn : nmagic.
  Definition obind {A B} (x : option A) (f : A -> option B) : option B := match x with Some a => f a | None => None end.
  Definition pass (b : bool) (f : sched -> option sched) (x : sched) : option sched := if b then f x else Some x.
  Definition final_order (fuel : nat) (schedule : sched) : option sched :=
    obind (linearize sort fuel schedule) (fun x =>
    obind (pass (schedule_for_pipeline_on Mn && (0 <? pipeline_latency Mn)%Z) (schedule_for_pipeline (pipeline_latency Mn) fuel) x) (fun x =>
    obind (pass (reorder_insns Mn) (fun x => obind (anticipate_friends use_same_vars x) (linearize sort fuel)) x) (fun x =>
    obind (pass (reorder_stores Mn) (fun x => obind (delay_friends store_to_same_class x) (linearize sort fuel)) x) (fun x =>
    pass (reorder_loads Mn) (fun x => obind (anticipate_friends loads_from_same_class x) (linearize sort fuel)) x)))).
  Definition annotate (fuel : nat) (schedule : sched) : option annotated :=
    match final_order fuel schedule with
    | Some x => Some (rewrite_declarations (number_of_variables Mn) true (analyze [] x))
    | None => None
    end.
End Annotate.

(** What unparse_annotated prints (c.ml:161-188): a block declares the temporaries of its third list at its start (a
    block without declarations has no braces, which changes nothing).  All declarations, and the
    instructions in the order of the text, each with the variables that the blocks around it declare *)
Fixpoint decls (x : annotated) : list variable :=
  match x with Annotate _ _ d _ c => filter is_temporary d ++ match c with ASeq a b => decls a ++ decls b | _ => [] end end.
Fixpoint scoped (outer : list variable) (x : annotated) : list (list variable * assignment) :=
  match x with
  | Annotate _ _ d _ c =>
      let sc := filter is_temporary d ++ outer in
      match c with ADone => [] | AInstr i => [(sc, i)] | ASeq a b => scoped sc a ++ scoped sc b end
  end.
