(** * Specification of data races and of sequential execution (no model of C code)

    The atomic actions of a thread are single memory operations: read some
    locations, compute, write one location.  (A processor's loads and stores are
    the special cases with one source and the identity, registers being private
    locations.) *)
From Coq Require Import Reals ZArith List Bool Permutation.
From Verif Require Import Cplx Spec SpecThreads.
Import ListNotations.
Open Scope Z_scope.

Record access := mkac { ac_src : list loc; ac_fun : list R -> R; ac_dst : loc }.

Definition store (m : mem) (l : loc) (v : R) : mem :=
  fun x => if (fst l =? fst x)%nat && (snd l =? snd x) then v else m x.
Definition do_access (a : access) (m : mem) : mem := store m (ac_dst a) (ac_fun a (map m (ac_src a))).

(** Two actions conflict if one writes a location the other reads or writes. *)
Definition conflict (a b : access) : Prop :=
  ac_dst a = ac_dst b \/ In (ac_dst a) (ac_src b) \/ In (ac_dst b) (ac_src a).

(** All actions of a program. *)
Fixpoint actions (p : prog access) : list access :=
  match p with
  | PEnd => []
  | PAct a k => a :: actions k
  | PSpawn bs k => flat_map actions bs ++ actions k
  end.

(** No two blocks of a parallel loop contain conflicting actions. *)
Definition independent (p q : prog access) : Prop :=
  forall a b, In a (actions p) -> In b (actions q) -> ~ conflict a b.
Inductive race_free : prog access -> Prop :=
| rf_end : race_free PEnd
| rf_act a k : race_free k -> race_free (PAct a k)
| rf_spawn bs k : Forall race_free bs -> ForallOrdPairs independent bs -> race_free k -> race_free (PSpawn bs k).

(** Sequential execution: the blocks of a parallel loop one after the other. *)
Fixpoint run_seq (p : prog access) (m : mem) : mem :=
  match p with
  | PEnd => m
  | PAct a k => run_seq k (do_access a m)
  | PSpawn bs k => run_seq k (fold_left (fun m p => run_seq p m) bs m)
  end.

(** p, then q *)
Fixpoint papp (p q : prog access) : prog access :=
  match p with PEnd => q | PAct a k => PAct a (papp k q) | PSpawn bs k => PSpawn bs (papp k q) end.

(** A program that computes a DFT problem: executed sequentially it does, its
    parallel loops have no races, and it accesses nothing but the arrays of the
    problem, private scratch memory [S] and constant tables [K] ([nd]: the input
    is to be preserved). *)
Record dft_program (nd : bool) (sz vec : list iodim) (pi po : cptr) (S K : loc -> Prop) (p : prog access) : Prop := {
  dp_race_free : race_free p;
  dp_writes : forall a, In a (actions p) ->
    out_loc po (sz ++ vec) (ac_dst a) \/ (nd = false /\ in_loc pi (sz ++ vec) (ac_dst a)) \/ S (ac_dst a);
  dp_reads : forall a l, In a (actions p) -> In l (ac_src a) ->
    in_loc pi (sz ++ vec) l \/ out_loc po (sz ++ vec) l \/ S l \/ K l;
  dp_alone : forall m, is_transform sz vec pi po m (run_seq p m)
}.

(** A program that computes the butterflies lo <= k < hi of a Cooley-Tukey step of
    radix r for a transform of size r*m, on v arrays: element j of butterfly k of
    array i is at k*ms + j*irs + i*ivs before and at k*ms + j*ors + i*ovs after;
    with decimation in time the inputs are multiplied by the twiddle factors,
    otherwise the outputs. *)
Definition tw_loc (di r rs ms v vs lo hi : Z) (p : loc) (l : loc) : Prop :=
  exists k j i c, lo <= k < hi /\ 0 <= j < r /\ 0 <= i < v /\ 0 <= c < 2 /\ l = sh p (k * ms + c * di + j * rs + i * vs).
Record twiddle_program (dit : bool) (di r irs ors m ms v ivs ovs lo hi : Z) (p : loc) (S K : loc -> Prop) (q : prog access) : Prop := {
  tp_race_free : race_free q;
  tp_writes : forall a, In a (actions q) ->
    tw_loc di r ors ms v ovs lo hi p (ac_dst a) \/ tw_loc di r irs ms v ivs lo hi p (ac_dst a) \/ S (ac_dst a);
  tp_reads : forall a l, In a (actions q) -> In l (ac_src a) ->
    tw_loc di r irs ms v ivs lo hi p l \/ tw_loc di r ors ms v ovs lo hi p l \/ S l \/ K l;
  tp_alone : forall mm i k k1, 0 <= i < v -> lo <= k < hi -> 0 <= k1 < r ->
    let x j := rdc mm (p, sh p di) (i * ivs + k * ms + j * irs) in
    rdc (run_seq q mm) (p, sh p di) (i * ovs + k * ms + k1 * ors) =
    (if dit then Csum r (fun j => x j * W (r * m)%Z (j * k)%Z * W r (j * k1)%Z)
     else Csum r (fun j => x j * W r (j * k1)%Z) * W (r * m)%Z (k1 * k)%Z)%C
}.
