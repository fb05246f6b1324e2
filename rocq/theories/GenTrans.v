(** * genfft: the network transposition of algsimp.ml (module Transpose) and the simplification loop

    The nodes of a dag have an identity here: the dag is a heap of nodes that refer to each other
    by number, and the physical equality (==) of the code is the equality of numbers.  A node
    refers only to nodes with smaller numbers ([acyclic] in GenTransProofs: the code builds
    immutable values, so that a node exists after the nodes it refers to).  The expressions that
    the transposition makes are trees ([expr] of GenExpr.v); the tests == between them, in
    makePlus, are made by [pheq], any function that is true only for equal expressions. *)
From Coq Require Import Reals ZArith List Bool Lia.
From Verif Require Import Cplx GenExpr GenCplx GenAlg.
Import ListNotations.
Open Scope nat_scope.

(** expr.ml:27-38, with node numbers for the subexpressions *)
Inductive node :=
| NNum (a : R)
| NNaN
| NPlus (l : list nat)
| NTimes (a b : nat)
| NCTimes (a b : nat)
| NCTimesJ (a b : nat)
| NUminus (a : nat)
| NLoad (v : variable)
| NStore (v : variable) (a : nat).
Definition heap := nat -> node.

(** the children of a node, algsimp.ml:419-426 *)
Definition children (x : node) : list nat :=
  match x with
  | NStore _ n => [n]
  | NPlus l => l
  | NTimes a b | NCTimes a b | NCTimesJ a b => [a; b]
  | NUminus x => [x]
  | _ => []
  end.

(** the expression that node [i] stands for (not in the code; [fuel] > [i] is enough) *)
Fixpoint treeF (H : heap) (fuel : nat) (i : nat) : expr :=
  match fuel with
  | O => NaNI
  | S f =>
      let t := treeF H f in
      match H i with
      | NNum a => Num a
      | NNaN => NaNI
      | NPlus l => Plus (map t l)
      | NTimes a b => Times (t a) (t b)
      | NCTimes a b => CTimes (t a) (t b)
      | NCTimesJ a b => CTimesJ (t a) (t b)
      | NUminus a => Uminus (t a)
      | NLoad v => ELoad v
      | NStore v a => EStore v (t a)
      end
  end.
Definition tree (H : heap) (i : nat) : expr := treeF H (S i) i.

Section Trans.
  Variable pheq : expr -> expr -> bool.
  Variable H : heap.

  (** the parent table: a node that is not in the table has the empty list, an entry of the
      table is never empty; inserting replaces the entry (the hash table of assoctable.ml, see
      GenAlg.v, finds the last value inserted for a key) *)
  Definition ptable := nat -> list nat.
  (** loop, algsimp.ml:427-432 *)
  Definition add_parent (node : nat) (t : ptable) (a : nat) : ptable :=
    fun n => if n =? a then node :: t n else t n.
  Definition loop (node : nat) (t : ptable) (cs : list nat) : ptable := fold_left (add_parent node) cs t.
  Definition mem (n : nat) (l : list nat) : bool := existsb (fun m => n =? m) l.
  (** visit, algsimp.ml:413-438.  The table vtable has exactly the nodes of the list visited *)
  Fixpoint visit (fuel : nat) (visited : list nat) (pt : ptable) (work : list nat) : option (list nat * ptable) :=
    match work with
    | [] => Some (visited, pt)
    | n :: rest =>
        match fuel with
        | O => None
        | S f =>
            if mem n visited then visit f visited pt rest
            else visit f (n :: visited) (loop n pt (children (H n))) (children (H n) ++ rest)
        end
    end.

  Variable pt : ptable.
  (** dualM, dualExpressionM and termM, algsimp.ml:440-482.  Each dual is computed once in the
      code and then found in a table; it is a function of the node *)
  Fixpoint dualM (fuel : nat) (this : nat) : option expr :=
    match fuel with
    | O => None
    | S f =>
        let termM (p : nat) : option (list expr) :=
          match H p with
          | NStore _ n => if n =? this then match dualM f p with Some x => Some [x] | None => None end else Some []
          | NPlus l => if mem this l then match dualM f p with Some x => Some [x] | None => None end else Some []
          | NTimes a b => if b =? this then match dualM f p with Some x => Some [makeTimes (tree H a) x] | None => None end else Some []
          | NCTimes a b => if b =? this then match dualM f p with Some x => Some [CTimes (tree H a) x] | None => None end else Some []
          | NCTimesJ a b => if b =? this then match dualM f p with Some x => Some [CTimesJ (tree H a) x] | None => None end else Some []
          | NUminus n => if n =? this then match dualM f p with Some x => Some [makeUminus x] | None => None end else Some []
          | _ => Some []
          end in
        let dualExpressionM : option expr :=
          match pt this with
          | [] => None (* failwith "bug in dualExpressionM" *)
          | ps => match omapM termM ps with Some l => Some (makePlus pheq (concat l)) | None => None end
          end in
        match H this with
        | NLoad v =>
            if var_is_constant v then Some (ELoad v)
            else match dualExpressionM with Some d => Some (EStore v d) | None => None end
        | NStore v _ => Some (ELoad v)
        | _ => dualExpressionM
        end
    end.
End Trans.
(** is_store, algsimp.ml:484-486 *)
Definition is_store (e : expr) : bool := match e with EStore _ _ => true | _ => false end.
(** transpose, algsimp.ml:488-497 *)
Definition transpose (pheq : expr -> expr -> bool) (H : heap) (fuel : nat) (dag : list nat) : option (list expr) :=
  match visit H fuel [] (fun _ => []) dag with
  | None => None
  | Some (all_nodes, pt) =>
      match omapM (dualM pheq H pt fuel) all_nodes with
      | None => None
      | Some duals => Some (filter is_store duals)
      end
  end.
