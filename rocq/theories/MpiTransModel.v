(** * MpiTransModel: the pairwise exchange of mpi/transpose-pairwise.c

    The communication schedule, the sizes and offsets computed by mkplan, and
    the exchange loop transpose_chunks as a system of communicating processes.
    INT overflow is not modelled in this file. *)
From Coq Require Import ZArith List Lia Bool.
From Verif Require Import Base NumTheory Offs MpiModel.
Import ListNotations.
Open Scope Z_scope.

(** for (pe = 0; pe < n; ++pe) over a state of type [A] *)
Fixpoint ofold {A} (f : Z -> A -> out A) (l : list Z) (a : A) : out A :=
  match l with [] => Ret a | x :: t => a' <- f x a ;; ofold f t a' end.

(** mpi/transpose-pairwise.c:215-243 fill1_comm_sched.  [acc] is the filled
    prefix sched[0..s-1]; the final assertion s == npes also bounds every write. *)
Definition fill1_body (which_pe npes n : Z) (pe : Z) (acc : list Z) : out (list Z) :=
  let acc :=
    if Z.rem npes 2 =? 0 then
      if pe =? which_pe then acc ++ [npes - 1]
      else if npes - 1 =? which_pe then acc ++ [pe] else acc
    else if pe =? which_pe then acc ++ [pe] else acc in
  if negb (pe =? which_pe) && (which_pe <? n - 1) then
    i <- crem (pe - which_pe + (n - 1)) (n - 1) ;;
    acc <- (if i <? Z.quot n 2 then v <- crem (pe + i) (n - 1) ;; Ret (acc ++ [v]) else Ret acc) ;;
    i <- crem (which_pe - pe + (n - 1)) (n - 1) ;;
    (if i <? Z.quot n 2 then v <- crem (pe - i + (n - 1)) (n - 1) ;; Ret (acc ++ [v]) else Ret acc)
  else Ret acc.
Definition fill1_comm_sched (which_pe npes : Z) : out (list Z) :=
  _ <- assert_ ((0 <=? which_pe) && (which_pe <? npes)) ;;
  let n := if Z.rem npes 2 =? 0 then npes else npes + 1 in
  let acc := if Z.rem npes 2 =? 0 then [which_pe] else [] in
  acc <- ofold (fill1_body which_pe npes n) (zr (n - 1)) acc ;;
  _ <- assert_ (Z.of_nat (length acc) =? npes) ;;
  Ret acc.

(** Array element access with bounds checks. *)
Definition aget {A} (l : list A) (i : Z) : out A :=
  if i <? 0 then UB else match nth_error l (Z.to_nat i) with Some v => Ret v | None => UB end.
Fixpoint lset {A} (l : list A) (i : nat) (v : A) : list A :=
  match l, i with
  | [], _ => []
  | _ :: t, O => v :: t
  | x :: t, S j => x :: lset t j v
  end.
Definition aset {A} (l : list A) (i : Z) (v : A) : out (list A) :=
  if (0 <=? i) && (i <? Z.of_nat (length l)) then Ret (lset l (Z.to_nat i) v) else UB.

(** mpi/transpose-pairwise.c:253-267 sort1_comm_sched.  The malloc'ed array
    sortsched has two halves: [ss], filled by fill1_comm_sched, and [up], the
    second half, whose cells are uninitialised ([None]) at first; reading an
    uninitialised cell is undefined.  (A write outside the second half would be
    undefined here although some of them would stay inside the array.) *)
Definition read_init (o : option Z) : out Z := match o with Some v => Ret v | None => UB end.
Fixpoint oseq {A} (l : list (out A)) : out (list A) :=
  match l with [] => Ret [] | x :: t => a <- x ;; r <- oseq t ;; Ret (a :: r) end.
Definition sort1_comm_sched (sched : list Z) (npes sortpe : Z) (ascending : bool) : out (list Z) :=
  ss <- fill1_comm_sched sortpe npes ;;
  up <- ofold (fun i up =>
          si <- aget ss i ;;
          v <- aget sched i ;;
          aset up (if ascending then si else npes - 1 - si) (Some v))
        (zr npes) (repeat None (Z.to_nat npes)) ;;
  oseq (map read_init up).

(** mpi/transpose-pairwise.c:414-432, the sizes mkplan computes: for process
    [me], what it sends to and receives from [pe]. *)
Record problem_t := mkpt { p_nx : Z; p_ny : Z; p_vn : Z; p_block : Z; p_tblock : Z }.
Definition n_pes_of (p : problem_t) : out Z :=
  a <- num_blocks (p_nx p) (p_block p) ;; b <- num_blocks (p_ny p) (p_tblock p) ;; Ret (Z.max a b).
Definition my_b (p : problem_t) (w : Z) : Z := block (p_nx p) (p_block p) w.
Definition my_bt (p : problem_t) (w : Z) : Z := block (p_ny p) (p_tblock p) w.
Definition sbs (p : problem_t) (me pe : Z) : Z := my_b p me * my_bt p pe * p_vn p.
Definition sbo (p : problem_t) (me pe : Z) : Z := pe * (my_b p me * p_tblock p) * p_vn p.
Definition rbs (p : problem_t) (me pe : Z) : Z := my_b p pe * my_bt p me * p_vn p.
Definition rbo (p : problem_t) (me pe : Z) : Z := pe * (p_block p * my_bt p me) * p_vn p.

(** mpi/transpose-pairwise.c:434-438, the search for the process that needs a
    sorted schedule; the assertion (435) allows only one. *)
Definition sort_body (p : problem_t) (pe : Z) (s : Z * bool) : out (Z * bool) :=
  let db := my_b p pe in
  let dbt := my_bt p pe in
  if (0 <? db * dbt) && negb (db * p_tblock p =? p_block p * dbt) then
    _ <- assert_ (fst s =? -1) ;;
    Ret (pe, p_block p * dbt <? db * p_tblock p)
  else Ret s.
Definition find_sort_pe (p : problem_t) (n_pes : Z) : out (Z * bool) := ofold (sort_body p) (zr n_pes) (-1, true).

(** mpi/transpose-pairwise.c:447-455, the schedule of process [my_pe];
    [None]: the process takes no part *)
Definition mksched (p : problem_t) (my_pe : Z) : out (option (list Z)) :=
  n_pes <- n_pes_of p ;;
  s <- find_sort_pe p n_pes ;;
  if n_pes <=? my_pe then Ret None
  else
    l <- fill1_comm_sched my_pe n_pes ;;
    l <- (if 0 <=? fst s then sort1_comm_sched l n_pes (fst s) (snd s) else Ret l) ;;
    Ret (Some l).

(** ** The exchange

    Arguments of transpose_chunks on one process: schedule, number of
    processes, own rank, sizes and offsets, and the two arrays [I], [O]
    (identified by a number; different numbers are disjoint arrays). *)
Record targs := mkta {
  ta_sched : list Z; ta_npes : Z; ta_me : Z;
  ta_sbs : Z -> Z; ta_sbo : Z -> Z; ta_rbs : Z -> Z; ta_rbo : Z -> Z;
  ta_I : nat; ta_O : nat }.

Section Exchange.
Context {V : Type}.

(** contents of the arrays of one process *)
Definition pmem := nat -> Z -> V.
(** O + lo .. O + lo + length d - 1 := d *)
Definition store (m : pmem) (arr : nat) (lo : Z) (d : list V) : pmem :=
  fun a x => if Nat.eqb a arr && (lo <=? x) && (x <? lo + Z.of_nat (length d))
             then nth (Z.to_nat (x - lo)) d (m a x) else m a x.
Definition fetch (m : pmem) (arr : nat) (lo len : Z) : list V := map (fun j => m arr (lo + j)) (zr len).

(** A process: its memory, the loop counter i, and inside MPI_Sendrecv whether
    the send and the receive have been posted and whether the receive has
    completed. *)
Record pst := mkps { ps_mem : pmem; ps_i : nat; ps_posted : bool; ps_recvd : bool }.
(** A message in flight: tag and data (the data are those at the time of the
    call; the send buffer is not written while the call is in progress). *)
Record gst := mkgs { procs : Z -> pst; chan : Z -> Z -> list (Z * list V) }.

Definition upd {A} (f : Z -> A) (a : Z) (v : A) : Z -> A := fun x => if x =? a then v else f x.
Definition upd2 {A} (f : Z -> Z -> A) (a b : Z) (v : A) : Z -> Z -> A := fun x y => if (x =? a) && (y =? b) then v else f x y.

Definition tag (npes src dst : Z) : Z := Z.land (src * npes + dst) 32767.

(** One step of the system, by process [w]; [A w] are the arguments of process [w],
    [P] the number of processes, and [eager w i] says whether the MPI library
    lets the i-th send of process [w] complete before it is received.

    mpi/transpose-pairwise.c:60-82 (I == O) and 83-97 (I != O). *)
Inductive pstep (A : Z -> targs) (P : Z) (eager : Z -> nat -> bool) : Z -> gst -> gst -> Prop :=
| st_self : forall s w p, 0 <= w < P -> p = procs s w ->
    nth_error (ta_sched (A w)) (ps_i p) = Some w -> ps_posted p = false ->
    let T := A w in
    let m' := if Nat.eqb (ta_I T) (ta_O T) && (ta_rbo T w =? ta_sbo T w) then ps_mem p
              else store (ps_mem p) (ta_O T) (ta_rbo T w) (fetch (ps_mem p) (ta_I T) (ta_sbo T w) (ta_sbs T w)) in
    pstep A P eager w s (mkgs (upd (procs s) w (mkps m' (S (ps_i p)) false false)) (chan s))
| st_post : forall s w p pe, 0 <= w < P -> p = procs s w ->
    nth_error (ta_sched (A w)) (ps_i p) = Some pe -> pe <> w -> ps_posted p = false ->
    let T := A w in
    let msg := (tag (ta_npes T) w pe, fetch (ps_mem p) (ta_I T) (ta_sbo T pe) (ta_sbs T pe)) in
    pstep A P eager w s (mkgs (upd (procs s) w (mkps (ps_mem p) (ps_i p) true false))
                           (upd2 (chan s) w pe (chan s w pe ++ [msg])))
| st_deliver : forall s w p pe l1 l2 d, 0 <= w < P -> p = procs s w ->
    nth_error (ta_sched (A w)) (ps_i p) = Some pe -> ps_posted p = true -> ps_recvd p = false ->
    let T := A w in
    chan s pe w = l1 ++ (tag (ta_npes T) pe w, d) :: l2 ->
    (forall t e, In (t, e) l1 -> t <> tag (ta_npes T) pe w) ->
    pstep A P eager w s (mkgs (upd (procs s) w (mkps (store (ps_mem p) (ta_O T) (ta_rbo T pe) d) (ps_i p) true true))
                           (upd2 (chan s) pe w (l1 ++ l2)))
| st_done : forall s w p pe, 0 <= w < P -> p = procs s w ->
    nth_error (ta_sched (A w)) (ps_i p) = Some pe -> ps_posted p = true -> ps_recvd p = true ->
    (eager w (ps_i p) = true \/ chan s w pe = []) ->
    pstep A P eager w s (mkgs (upd (procs s) w (mkps (ps_mem p) (S (ps_i p)) false false)) (chan s)).

Definition step (A : Z -> targs) (P : Z) (eager : Z -> nat -> bool) (s t : gst) : Prop := exists w, pstep A P eager w s t.

(** Errors: the in-place buffer (sbs[0] elements, line 61) is too small for a
    block that is about to be copied into it; or a message is longer than the
    receive count. *)
Definition wrong_at (A : Z -> targs) (s : gst) (w : Z) : Prop :=
  exists pe, nth_error (ta_sched (A w)) (ps_i (procs s w)) = Some pe /\ pe <> w /\
    ((ps_posted (procs s w) = false /\ ta_I (A w) = ta_O (A w) /\ ta_sbs (A w) 0 < ta_sbs (A w) pe) \/
     (ps_posted (procs s w) = true /\ ps_recvd (procs s w) = false /\
      exists t d, In (t, d) (chan s pe w) /\ ta_rbs (A w) pe < Z.of_nat (length d))).
Definition wrong (A : Z -> targs) (P : Z) (s : gst) : Prop := exists w, 0 <= w < P /\ wrong_at A s w.

Definition start (m0 : Z -> pmem) : gst := mkgs (fun w => mkps (m0 w) 0 false false) (fun _ _ => []).
Definition finished (A : Z -> targs) (P : Z) (s : gst) : Prop :=
  forall w, 0 <= w < P -> ps_i (procs s w) = length (ta_sched (A w)).

Inductive steps (A : Z -> targs) (P : Z) (eager : Z -> nat -> bool) : nat -> gst -> gst -> Prop :=
| ss_nil : forall s, steps A P eager 0 s s
| ss_snoc : forall n s t u, steps A P eager n s t -> step A P eager t u -> steps A P eager (S n) s u.

End Exchange.
Arguments pmem : clear implicits.
Arguments pst : clear implicits.
Arguments gst : clear implicits.
