(** * Specification of parallel loops (no model of C code)

    A parallel loop is fork and join: the blocks run concurrently, in any
    interleaving, each exactly once, and what follows the loop starts when all
    of them have ended. *)
From Coq Require Import ZArith List Bool.
Import ListNotations.

(** A block of iterations min <= i < max, executed by the thread thr. *)
Record spawn_data := mksd { sd_min : Z; sd_max : Z; sd_thr : Z }.

(** What a thread executes: atomic actions on the memory, and parallel loops,
    whose blocks are programs again. *)
Inductive prog (A : Type) :=
| PEnd
| PAct (a : A) (k : prog A)
| PSpawn (bs : list (prog A)) (k : prog A).
Arguments PEnd {A}.
Arguments PAct {A}.
Arguments PSpawn {A}.

(** A running program: a sequential part, or a parallel loop with the states of
    its blocks and what follows. *)
Inductive tree (A : Type) :=
| TSeq (p : prog A)
| TPar (ts : list (tree A)) (k : prog A).
Arguments TSeq {A}.
Arguments TPar {A}.

Section Semantics.
Context {A M : Type}.
Variable act : A -> M -> M.
Inductive tstep : tree A -> M -> tree A -> M -> Prop :=
| ts_act a k m : tstep (TSeq (PAct a k)) m (TSeq k) (act a m)
| ts_fork bs k m : tstep (TSeq (PSpawn bs k)) m (TPar (map TSeq bs) k) m
| ts_block ts1 t t' ts2 k m m' : tstep t m t' m' -> tstep (TPar (ts1 ++ t :: ts2) k) m (TPar (ts1 ++ t' :: ts2) k) m'
| ts_join ts k m : Forall (fun t => t = TSeq PEnd) ts -> tstep (TPar ts k) m (TSeq k) m.
Inductive tsteps : tree A -> M -> tree A -> M -> Prop :=
| tss_nil t m : tsteps t m t m
| tss_snoc t m t1 m1 t2 m2 : tsteps t m t1 m1 -> tstep t1 m1 t2 m2 -> tsteps t m t2 m2.
End Semantics.
