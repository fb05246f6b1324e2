(** * MpiDistModel: the distributed transpose, mpi/transpose-pairwise.c

    The whole plan: local transposition, pairwise exchange, local
    transposition(s).  The local transpositions are arbitrary plans that the
    rank-0 rdft solvers can build ([rchild0], Rank0Model). *)
From Coq Require Import Reals ZArith List Lia Bool.
From Verif Require Import NumTheory Cplx Spec Base PrimesModel TensorModel Offs XForm CopyModel Rank0Model MpiModel MpiTransModel.
Import ListNotations.
Open Scope Z_scope.

(** mpi/transpose-problem.c:98-119, the canonical block sizes and flags *)
Definition mkproblem_transpose (nx ny vn block tblock : Z) (tin tout : bool) : problem_t * (bool * bool) :=
  let b := if nx <? block then nx else block in
  let tb := if ny <? tblock then ny else tblock in
  (mkpt nx ny vn b tb, (tin || (b =? 1), tout || (tb =? 1))).

(** The arrays: blocks 0 (input) and 1 (output) of the process' memory, or block
    0 for both.  Blocks 2, 3, .. are buffers of the local plans. *)
Definition arrI : loc := (0%nat, 0).
Definition arrO (inplace : bool) : loc := if inplace then arrI else (1%nat, 0).

(** The plan structure P of mpi/transpose-pairwise.c:31-47, local part *)
Record tplan := mktp {
  t_cld1 : option rapply; t_cld2 : rapply; t_cld2rest : option rapply; t_cld3 : option rapply;
  t_restI : Z; t_restO : Z; t_preserve : bool }.

(** mpi/transpose-pairwise.c:271-345 mkplans_posttranspose; [ip]: I == O *)
Inductive posttranspose (qs : qsort_t) (p : problem_t) (tout ip : bool) (w : Z) :
  rapply -> option rapply -> option rapply -> Z -> Z -> Prop :=
| pt_direct : forall c2 c2r rI rO,
    let vn := p_vn p in let b := p_block p in let bt := block (p_ny p) (p_tblock p) w in
    let nxb := Z.quot (p_nx p) b in let nxr := p_nx p - nxb * b in
    tout = false -> nxr = 0 \/ ip = false ->
    rchild0 qs ip [mkdim nxb (bt * (b * vn)) (b * vn); mkdim bt (b * vn) (p_nx p * vn); mkdim (b * vn) 1 1] c2 ->
    (if 0 <? nxr then
       rI = nxb * bt * (b * vn) /\ rO = nxb * (b * vn) /\
       exists c, c2r = Some c /\ rchild0 qs ip [mkdim bt (nxr * vn) (p_nx p * vn); mkdim (nxr * vn) 1 1] c
     else rI = 0 /\ rO = 0 /\ c2r = None) ->
    posttranspose qs p tout ip w c2 c2r None rI rO
| pt_twice : forall c2 c2r c3,
    let vn := p_vn p in let b := p_block p in let bt := block (p_ny p) (p_tblock p) w in
    let nxb := Z.quot (p_nx p) b in let nxr := p_nx p - nxb * b in
    ~ (tout = false /\ (nxr = 0 \/ ip = false)) ->
    rchild0 qs ip [mkdim nxb (bt * b * vn) (bt * b * vn); mkdim bt (b * vn) vn; mkdim b vn (bt * vn); mkdim vn 1 1] c2 ->
    rchild0 qs ip [mkdim bt (nxr * vn) vn; mkdim nxr vn (bt * vn); mkdim vn 1 1] c2r ->
    (if tout then c3 = None
     else exists c, c3 = Some c /\ rchild0 qs true [mkdim (p_nx p) (bt * vn) vn; mkdim bt vn (p_nx p * vn); mkdim vn 1 1] c) ->
    posttranspose qs p tout ip w c2 (Some c2r) c3 (nxb * bt * b * vn) (nxb * bt * b * vn).

(** mpi/transpose-pairwise.c:357-408, the local plans of process [w].
    [preserve]: the solver's flag, or NO_DESTROY_INPUT; an in-place problem is
    not applicable with the solver's flag, and with NO_DESTROY_INPUT I == O
    anyway. *)
Inductive tplanned (qs : qsort_t) (p : problem_t) (tin tout inplace preserve : bool) (w : Z) : tplan -> Prop :=
| tpl : forall c1 c2 c2r c3 rI rO,
    let b := block (p_nx p) (p_block p) w in
    (if tin then c1 = None
     else exists c, c1 = Some c /\
       rchild0 qs inplace [mkdim b (p_ny p * p_vn p) (p_vn p); mkdim (p_ny p) (p_vn p) (b * p_vn p); mkdim (p_vn p) 1 1] c) ->
    posttranspose qs p tout (inplace || preserve) w c2 c2r c3 rI rO ->
    tplanned qs p tin tout inplace preserve w (mktp c1 c2 c2r c3 rI rO preserve).

(** mpi/transpose-pairwise.c:101-150 apply: before the exchange, the arrays of
    the exchange, and after it *)
Definition t_before (tp : tplan) (I O : loc) (m : mem) : mem :=
  match t_cld1 tp with Some c => c 2%nat I O m | None => m end.
Definition t_arrays (tp : tplan) (I O : loc) : loc * loc :=
  match t_cld1 tp with
  | Some _ => let I := if t_preserve tp then O else I in (O, I)
  | None => if t_preserve tp then (I, O) else (I, I)
  end.
Definition t_after (tp : tplan) (I O : loc) (m : mem) : mem :=
  let I := if t_preserve tp then O else I in
  let m := t_cld2 tp 2%nat I O m in
  match t_cld2rest tp with
  | None => m
  | Some r =>
    let m := r 2%nat (sh I (t_restI tp)) (sh O (t_restO tp)) m in
    match t_cld3 tp with Some c => c 2%nat O O m | None => m end
  end.

(** The memory of a process as a family of arrays (the exchange) and as one
    function of locations (the local plans). *)
Definition as_arrays (m : mem) : pmem R := fun a x => m (a, x).
Definition as_mem (m : pmem R) : mem := fun l => m (fst l) (snd l).

(** ** The processes

    [C] processes run the plan; the first [P] take part in the exchange (the
    others have sched == 0 and skip transpose_chunks, line 54). *)
Inductive phase := Before | Exchanging | Done.
Record dst := mkds { d_ph : Z -> phase; d_g : gst R }.
Section Dist.
Variables (C P : Z) (T : Z -> tplan) (A : Z -> targs) (inplace : bool) (eager : Z -> nat -> bool).
Definition set_mem (g : gst R) (w : Z) (f : mem -> mem) : gst R :=
  let q := procs g w in
  mkgs (upd (procs g) w (mkps (as_arrays (f (as_mem (ps_mem q)))) (ps_i q) (ps_posted q) (ps_recvd q))) (chan g).
Inductive dstep : dst -> dst -> Prop :=
| ds_before : forall d w, 0 <= w < C -> d_ph d w = Before ->
    dstep d (mkds (upd (d_ph d) w Exchanging) (set_mem (d_g d) w (t_before (T w) arrI (arrO inplace))))
| ds_exchange : forall d w g', d_ph d w = Exchanging -> pstep A P eager w (d_g d) g' -> dstep d (mkds (d_ph d) g')
| ds_after : forall d w, 0 <= w < C -> d_ph d w = Exchanging -> (P <= w \/ ps_i (procs (d_g d) w) = length (ta_sched (A w))) ->
    dstep d (mkds (upd (d_ph d) w Done) (set_mem (d_g d) w (t_after (T w) arrI (arrO inplace)))).
Inductive dsteps : nat -> dst -> dst -> Prop :=
| dn_nil : forall d, dsteps 0 d d
| dn_snoc : forall n d e f, dsteps n d e -> dstep e f -> dsteps (S n) d f.
Definition dstart (m0 : Z -> mem) : dst := mkds (fun _ => Before) (start (fun w => as_arrays (m0 w))).
(** errors of the exchange, see [wrong] *)
Definition dwrong (d : dst) : Prop := exists w, 0 <= w < P /\ d_ph d w = Exchanging /\ wrong_at A (d_g d) w.
Definition all_done (d : dst) : Prop := forall w, 0 <= w < C -> d_ph d w = Done.
End Dist.
