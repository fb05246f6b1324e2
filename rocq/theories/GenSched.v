(** * genfft: the dag of the assignments and the instruction scheduler (dag.ml, schedule.ml)

    A node of the dag is the position of its assignment in the list from which the dag is made.
    The mutable fields label and color are functions of the node; the fields successors and
    predecessors, which do not change after makedag, are functions of the list. *)
From Coq Require Import ZArith List Bool Lia.
From Verif Require Import Cplx GenExpr GenAlg GenAlist.
Import ListNotations.
Open Scope nat_scope.

(** same, variable.ml:33: physical equality; the variables of the model are identities *)
Definition same (a b : variable) : bool := if var_eq_dec a b then true else false.
(** same_location, variable.ml:47-51 *)
Definition same_location (a b : variable) : bool :=
  match a, b with Locative la _ _, Locative lb _ _ => (la =? lb)%Z | _, _ => false end.
(** same_class, variable.ml:53-59 *)
Definition same_class (a b : variable) : bool :=
  match a, b with
  | Locative _ ca _, Locative _ cb _ => (ca =? cb)%Z
  | Constant ca _, Constant cb _ => (ca =? cb)%Z
  | _, _ => false
  end.

(** node_uses, node_clobbers and depends_on, dag.ml:49-60.  The input variables of a node are find_vars of
    its expression *)
Definition node_uses (v : variable) (node : assignment) : bool := existsb (same v) (find_vars (snd node)).
Definition node_clobbers (node : assignment) (v : variable) : bool := existsb (same_location v) (find_vars (snd node)).
Definition depends_on (nodea nodeb : assignment) : bool :=
  node_uses (fst nodea) nodeb || node_clobbers nodea (fst nodeb).

(** the settings of magic.ml:37, 45 *)
Record smagic := { schedule_type : Z; locations_are_special : bool }.

Section Dag.
  Variable dag : list assignment.
  Definition nnodes : nat := length dag.
  Definition nodes : list nat := seq 0 nnodes.
  Definition asg (i : nat) : assignment := nth i dag (Temporary 0, NaNI).
  (** makedag, dag.ml:63-83: each edge is put at the front of the lists *)
  Definition predecessors (j : nat) : list nat := rev (filter (fun i => depends_on (asg i) (asg j)) nodes).
  Definition successors (i : nat) : list nat := rev (filter (fun j => depends_on (asg i) (asg j)) nodes).
  Definition neighbors (i : nat) : list nat := predecessors i ++ successors i.

  (** bfs, dag.ml:95-109; min_list is util.ml:94.  [fuel] bounds the number of steps *)
  Definition min_list (l : list nat) : nat := fold_right Nat.min (N.to_nat 999999) l.
  Definition set_label (label : nat -> nat) (n x : nat) : nat -> nat := fun m => if m =? n then x else label m.
  Fixpoint bfs_loop (fuel : nat) (label : nat -> nat) (work : list nat) : option (nat -> nat) :=
    match work with
    | [] => Some label
    | node :: rest =>
        match fuel with
        | O => None
        | S f =>
            let m := min_list (map label (neighbors node)) in
            if m + 1 <? label node then bfs_loop f (set_label label node (m + 1)) (rest ++ neighbors node)
            else bfs_loop f label rest
        end
    end.
  Definition bfs (fuel : nat) (label : nat -> nat) (node init_label : nat) : option (nat -> nat) :=
    bfs_loop fuel (set_label label node init_label) (neighbors node).

  Definition null {A} (l : list A) : bool := match l with [] => true | _ => false end.
  Definition inputs : list nat := filter (fun n => null (predecessors n)) nodes.
  Definition outputs : list nat := filter (fun n => null (successors n)) nodes.
  (** infinity and cc, schedule.ml:46-62; failwith is None *)
  Definition infinity : nat := N.to_nat 100000.
  Definition cc (fuel : nat) : option (list assignment * list assignment) :=
    match inputs with
    | a :: _ =>
        match bfs fuel (fun _ => infinity) a 0 with
        | Some label => Some (map asg (filter (fun n => label n <? infinity) nodes), map asg (filter (fun n => label n =? infinity) nodes))
        | None => None
        end
    | [] => None
    end.

  (** single_load and loads_locative, schedule.ml:73-83 *)
  Variable Ms : smagic.
  Definition single_load (n : nat) : bool :=
    match find_vars (snd (asg n)), predecessors n with
    | [x], [] => var_is_constant x || (locations_are_special Ms && is_locative x)
    | _, _ => false
    end.
  Definition loads_locative (n : nat) : bool :=
    match find_vars (snd (asg n)), predecessors n with
    | [x], [] => is_locative x
    | _, _ => false
    end.

  Inductive color := RED | BLUE | BLACK | YELLOW.
  Definition colors := nat -> color.
  Definition color_eqb (a b : color) : bool :=
    match a, b with RED, RED | BLUE, BLUE | BLACK, BLACK | YELLOW, YELLOW => true | _, _ => false end.
  (** has_color, set_color and has_either_color, schedule.ml:42-44 *)
  Definition has_color (c : color) (k : colors) (n : nat) : bool := color_eqb (k n) c.
  Definition has_either_color (c1 c2 : color) (k : colors) (n : nat) : bool := color_eqb (k n) c1 || color_eqb (k n) c2.
  Definition set_color (c : color) (k : colors) (n : nat) : colors := fun m => if m =? n then c else k m.
  Definition set_all (c : color) (l : list nat) (k : colors) : colors := fold_left (set_color c) l k.

  (** loopi and loopo, schedule.ml:123-151 *)
  Definition ready_in (k : colors) : list nat :=
    filter (fun n => has_color BLACK k n && forallb (has_either_color RED YELLOW k) (predecessors n)) nodes.
  Definition ready_out (k : colors) : list nat :=
    filter (fun n => has_either_color BLACK YELLOW k n && forallb (has_color BLUE k) (successors n)) nodes.
  Fixpoint loopio (fuel : nat) (inp donep : bool) (k : colors) : option colors :=
    match fuel with
    | O => None
    | S f =>
        if inp then
          match ready_in k with
          | [] => if donep then Some k else loopio f false true k
          | i => loopio f false false (fold_left (fun k n => set_all RED (predecessors n) (set_color RED k n)) i k)
          end
        else
          match ready_out k with
          | [] => if donep then Some k else loopio f true true k
          | o => loopio f true false (set_all BLUE o k)
          end
    end.
  (** partition, schedule.ml:85-160 *)
  Definition init_colors : colors :=
    let c := if (schedule_type Ms =? 1)%Z then RED else if (schedule_type Ms =? -1)%Z then BLUE else BLACK in
    set_all BLUE outputs (set_all YELLOW (filter single_load nodes) (set_all RED inputs (fun _ => c))).
  Definition partition (fuel : nat) : option (list assignment * list assignment) :=
    match loopio fuel true false init_colors with
    | None => None
    | Some k =>
        let k := if existsb (has_color RED k) nodes then k else set_all RED inputs k in
        Some (map asg (filter (has_color RED k) nodes), map asg (filter (has_color BLUE k) nodes))
    end.
  (** partition_precomputations, schedule.ml:203-231 *)
  Definition red_front (k : colors) : list nat :=
    filter (fun n => has_color RED k n && existsb (has_color BLUE k) (successors n)) nodes.
  Fixpoint loopp (fuel : nat) (k : colors) : option colors :=
    match fuel with
    | O => None
    | S f =>
        match red_front k with
        | [] => Some k
        | i => loopp f (fold_left (fun k n => set_all RED (successors n) k) i k)
        end
    end.
  Definition partition_precomputations (fuel : nat) : option (list assignment * list assignment) :=
    match loopp fuel (set_all RED (filter loads_locative nodes) (fun _ => BLUE)) with
    | None => None
    | Some k => Some (map asg (filter (has_color BLUE k) nodes), map asg (filter (has_color RED k) nodes))
    end.
End Dag.

(** connected_components, schedule.ml:64-71 *)
Fixpoint connected_components (fuel : nat) (alist : list assignment) : option (list (list assignment)) :=
  match fuel with
  | O => None
  | S f =>
      match cc alist fuel with
      | None => None
      | Some (a, []) => Some [a]
      | Some (a, b) => match connected_components f b with Some l => Some (a :: l) | None => None end
      end
  end.

(** schedule.ml:162-166 *)
Inductive sched :=
| Done
| Instr (a : assignment)
| Seq (a b : sched)
| Par (l : list sched).

(** schedule, schedule.ml:175-192 *)
Fixpoint omap {A B} (f : A -> option B) (l : list A) : option (list B) :=
  match l with
  | [] => Some []
  | a :: r => match f a with Some b => match omap f r with Some s => Some (b :: s) | None => None end | None => None end
  end.
Fixpoint schedule_alist (Ms : smagic) (fuel : nat) (alist : list assignment) : option sched :=
  match alist with
  | [] => Some Done
  | [a] => Some (Instr a)
  | _ =>
      match fuel with
      | O => None
      | S f =>
          match connected_components fuel alist with
          | None => None
          | Some [a] =>
              match partition a Ms fuel with
              | Some (r, b) =>
                  match schedule_alist Ms f r, schedule_alist Ms f b with
                  | Some s, Some t => Some (Seq s t)
                  | _, _ => None
                  end
              | None => None
              end
          | Some l => match omap (schedule_alist Ms f) l with Some s => Some (Par s) | None => None end
          end
      end
  end.
Definition schedule (Ms : smagic) (fuel : nat) (alist : list assignment) : option sched := schedule_alist Ms fuel alist.
(** isolate_precomputations_and_schedule, schedule.ml:233-235 *)
Definition isolate_precomputations_and_schedule (Ms : smagic) (fuel : nat) (alist : list assignment) : option sched :=
  match partition_precomputations alist fuel with
  | Some (a, b) =>
      match schedule Ms fuel a, schedule Ms fuel b with Some s, Some t => Some (Seq s t) | _, _ => None end
  | None => None
  end.
