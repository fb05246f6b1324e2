(** * ThreadModel: parallel loops, threads/threads.c

    The block arithmetic of X(spawn_loop) and the pool of worker threads.

    Semaphores and mutexes are modelled as atomic counters and locks (their
    implementations, lines 37-130 and 165-212, are not modelled), memory is
    sequentially consistent, and creating a thread never fails (the result of
    pthread_create is ignored by the code, line 143). *)
From Coq Require Import ZArith List Lia Bool PeanoNat.
From Verif Require Import Base Offs SpecThreads.
Import ListNotations.

(** ** Blocks ([spawn_data], threads/threads.h:28-31, is in SpecThreads) *)
Section Blocks.
Open Scope Z_scope.
(** int arithmetic: overflow is undefined *)
Definition INT_MAX : Z := 2 ^ 31 - 1.
Definition ci (z : Z) : out Z := if (- INT_MAX - 1 <=? z) && (z <=? INT_MAX) then Ret z else UB.

(** threads/threads.c:423-427 and 441-445 (the same in threads/openmp.c:66-70 and 79-83): d of iteration i *)
Definition spawn_item (loopmax block_size i : Z) : out spawn_data :=
  lo <- ci (i * block_size) ;;
  hi <- ci (lo + block_size) ;;
  Ret (mksd lo (if loopmax <? hi then loopmax else hi) i).
Fixpoint omap {A B} (f : A -> out B) (l : list A) : out (list B) :=
  match l with [] => Ret [] | x :: t => a <- f x ;; r <- omap f t ;; Ret (a :: r) end.
(** threads/threads.c:404-445: the list of the d's of all iterations, in order;
    [] if loopmax == 0 (the division by block_size is then not reached) *)
Definition spawn_blocks (loopmax nthr : Z) : out (list spawn_data) :=
  _ <- assert_ (0 <=? loopmax) ;;
  _ <- assert_ (0 <? nthr) ;;
  if loopmax =? 0 then Ret []
  else
    a <- ci (loopmax + nthr) ;; a <- ci (a - 1) ;;
    let block_size := Z.quot a nthr in
    b <- ci (loopmax + block_size) ;; b <- ci (b - 1) ;;
    if block_size =? 0 then UB
    else omap (spawn_item loopmax block_size) (zr (Z.quot b block_size)).
End Blocks.

(** ** The pool *)
(** The name of an activation: the user thread, then for each enclosing
    parallel loop the number of the block. *)
Definition path := list nat.
Definition path_dec : forall a b : path, {a = b} + {a <> b} := list_eq_dec Nat.eq_dec.

Section Pool.
Open Scope nat_scope.
Context {A M : Type}.
Variable act : A -> M -> M.

(** threads/threads.c:277-281 [struct work]; [None]: not initialised.  [w_proc]
    stands for proc and d together. *)
Record work := mkwork { w_proc : option (prog A); w_q : option nat }.

(** A pointer to a struct work: element j of the array r of the spawn_loop
    activation with that name, or the one of kill_workforce. *)
Inductive wptr := WP (p : path) (j : nat) | WKill.

(** Where in spawn_loop a thread is, threads/threads.c:434-467 *)
Inductive spc :=
| Fill                      (* :441-446 fill in r[i] *)
| DqLock | DqRead | DqPop (q : option nat) | DqUnlock (q : option nat) | DqMake (q : option nat) (* dequeue, :331-348, and :453 *)
| SetW                      (* :456 *)
| Up                        (* :457 *)
| Inline                    (* :450 proc(d) is being executed *)
| Wait                      (* :461-463 *)
| EqLock | EqCdr | EqHead | EqUnlock. (* enqueue, :323-329, called in :464 *)

(** An activation: code being executed, or a call of spawn_loop with its local
    variables: the array r, the loop counter i, and what comes after it. *)
Inductive frame :=
| FCode (p : prog A)
| FSpawn (bs : list (prog A)) (r : nat -> work) (pc : spc) (i : nat) (k : prog A).

(** Where in [worker] a worker thread is, threads/threads.c:294-321 *)
Inductive wpos :=
| WDown                     (* :301 *)
| WLoad                     (* :303 *)
| WTest (w : wptr)          (* :306 *)
| WBusy (w : wptr)          (* :309 *)
| WUp                       (* :312 *)
| WTerm                     (* :316 *)
| WExit.                    (* :318 *)

(** threads/threads.c:255-260 [struct worker] together with the position of its
    thread; [w_alive]: allocated *)
Record worker := mkwk { w_alive : bool; w_ready : nat; w_done : nat; w_w : option wptr; w_cdr : option (option nat); w_pos : wpos }.

Inductive owner := LPath (p : path) | LKill.

(** Where in kill_workforce the thread that cleans up is, threads/threads.c:351-374 *)
Inductive kpos :=
| KNone                     (* not called *)
| KLock
| KHead                     (* :365 while (worker_queue) *)
| KCdr (q : nat)            (* :366-367 *)
| KSetW (q : nat)           (* :368 *)
| KUp (q : nat)             (* :369 *)
| KDown (q : nat)           (* :370 *)
| KFree (q : nat)           (* :371 *)
| KDone.

Record st := mkst {
  s_mem : M;
  s_lock : option owner;        (* queue_lock *)
  s_head : option nat;          (* worker_queue *)
  s_f : path -> option frame;
  s_w : nat -> worker;
  s_nw : nat;                   (* workers 0 .. s_nw - 1 have been made *)
  s_term : nat;                 (* termination_semaphore *)
  s_k : kpos }.

Definition set_mem x s := mkst x (s_lock s) (s_head s) (s_f s) (s_w s) (s_nw s) (s_term s) (s_k s).
Definition set_lock x s := mkst (s_mem s) x (s_head s) (s_f s) (s_w s) (s_nw s) (s_term s) (s_k s).
Definition set_head x s := mkst (s_mem s) (s_lock s) x (s_f s) (s_w s) (s_nw s) (s_term s) (s_k s).
Definition set_f p x s := mkst (s_mem s) (s_lock s) (s_head s) (fun y => if path_dec y p then x else s_f s y) (s_w s) (s_nw s) (s_term s) (s_k s).
Definition set_w q x s := mkst (s_mem s) (s_lock s) (s_head s) (s_f s) (fun y => if Nat.eq_dec y q then x else s_w s y) (s_nw s) (s_term s) (s_k s).
Definition set_nw x s := mkst (s_mem s) (s_lock s) (s_head s) (s_f s) (s_w s) x (s_term s) (s_k s).
Definition set_term x s := mkst (s_mem s) (s_lock s) (s_head s) (s_f s) (s_w s) (s_nw s) x (s_k s).
Definition set_k x s := mkst (s_mem s) (s_lock s) (s_head s) (s_f s) (s_w s) (s_nw s) (s_term s) x.
Definition set_r (r : nat -> work) i x : nat -> work := fun y => if Nat.eq_dec y i then x else r y.

(** The result of trying to make a step: [Err] is undefined behaviour (a null,
    uninitialised or dangling pointer, unlocking somebody else's mutex). *)
Inductive res := Ok (s : st) | Blocked | Err.

(** accesses to *q *)
Definition with_worker (s : st) (q : nat) (f : worker -> res) : res :=
  if (q <? s_nw s) && w_alive (s_w s q) then f (s_w s q) else Err.
Definition unlock (s : st) (o : owner) (f : st -> res) : res :=
  match s_lock s, o with
  | Some (LPath p), LPath p' => if path_dec p p' then f (set_lock None s) else Err
  | Some LKill, LKill => f (set_lock None s)
  | _, _ => Err
  end.
Definition lock (s : st) (o : owner) (f : st -> res) : res :=
  match s_lock s with None => f (set_lock (Some o) s) | Some _ => Blocked end.

(** The thread that executes activation [p] makes a step. *)
Definition fexec (s : st) (p : path) : res :=
  match s_f s p with
  | None => Blocked
  | Some (FCode PEnd) => Blocked   (* returns: see Inline and WBusy *)
  | Some (FCode (PAct a k)) => Ok (set_f p (Some (FCode k)) (set_mem (act a (s_mem s)) s))
  | Some (FCode (PSpawn bs k)) =>
      (* :404-437 *)
      match bs with
      | [] => Ok (set_f p (Some (FCode k)) s)
      | _ => Ok (set_f p (Some (FSpawn bs (fun _ => mkwork None None) Fill 0 k)) s)
      end
  | Some (FSpawn bs r pc i k) =>
      let n := length bs in
      let go r pc i s := Ok (set_f p (Some (FSpawn bs r pc i k)) s) in
      match pc with
      | Fill =>
          match nth_error bs i with
          | None => Err
          | Some b =>
              let r' := set_r r i (mkwork (Some b) (w_q (r i))) in
              if i =? n - 1
              then Ok (set_f (p ++ [i]) (Some (FCode b)) (set_f p (Some (FSpawn bs r' Inline i k)) s))
              else go r' DqLock i s
          end
      | DqLock => lock s (LPath p) (fun s => go r DqRead i s)
      | DqRead => go r (DqPop (s_head s)) i s
      | DqPop None => go r (DqUnlock None) i s
      | DqPop (Some q) => with_worker s q (fun w =>
          match w_cdr w with None => Err | Some c => go r (DqUnlock (Some q)) i (set_head c s) end)
      | DqUnlock q => unlock s (LPath p) (fun s => go r (DqMake q) i s)
      | DqMake None =>
          (* make_worker :262-268, os_create_thread :344 *)
          let q := s_nw s in
          go (set_r r i (mkwork (w_proc (r i)) (Some q))) SetW i
            (set_nw (S q) (set_w q (mkwk true 0 0 None None WDown) s))
      | DqMake (Some q) => go (set_r r i (mkwork (w_proc (r i)) (Some q))) SetW i s
      | SetW =>
          match w_q (r i) with
          | None => Err
          | Some q => with_worker s q (fun w =>
              go r Up i (set_w q (mkwk (w_alive w) (w_ready w) (w_done w) (Some (WP p i)) (w_cdr w) (w_pos w)) s))
          end
      | Up =>
          match w_q (r i) with
          | None => Err
          | Some q => with_worker s q (fun w =>
              go r Fill (S i) (set_w q (mkwk (w_alive w) (S (w_ready w)) (w_done w) (w_w w) (w_cdr w) (w_pos w)) s))
          end
      | Inline =>
          match s_f s (p ++ [i]) with
          | Some (FCode PEnd) => Ok (set_f p (Some (FSpawn bs r Wait 0 k)) (set_f (p ++ [i]) None s))
          | _ => Blocked
          end
      | Wait =>
          if i <? n - 1 then
            match w_q (r i) with
            | None => Err
            | Some q => with_worker s q (fun w =>
                match w_done w with
                | 0 => Blocked
                | S d => go r EqLock i (set_w q (mkwk (w_alive w) (w_ready w) d (w_w w) (w_cdr w) (w_pos w)) s)
                end)
            end
          else Ok (set_f p (Some (FCode k)) s) (* STACK_FREE(r), return *)
      | EqLock => lock s (LPath p) (fun s => go r EqCdr i s)
      | EqCdr =>
          match w_q (r i) with
          | None => Err
          | Some q => with_worker s q (fun w =>
              go r EqHead i (set_w q (mkwk (w_alive w) (w_ready w) (w_done w) (w_w w) (Some (s_head s)) (w_pos w)) s))
          end
      | EqHead => match w_q (r i) with None => Err | Some q => go r EqUnlock i (set_head (Some q) s) end
      | EqUnlock => unlock s (LPath p) (fun s => go r Wait (S i) s)
      end
  end.

(** Worker thread [q] makes a step of its loop, threads/threads.c:294-321 *)
Definition wexec (s : st) (q : nat) : res :=
  if q <? s_nw s then
    let w := s_w s q in
    let goto pos s := Ok (set_w q (mkwk (w_alive w) (w_ready w) (w_done w) (w_w w) (w_cdr w) pos) s) in
    match w_pos w with
    | WDown => with_worker s q (fun w =>
        match w_ready w with
        | 0 => Blocked
        | S n => Ok (set_w q (mkwk (w_alive w) n (w_done w) (w_w w) (w_cdr w) WLoad) s)
        end)
    | WLoad => with_worker s q (fun w => match w_w w with None => Err | Some x => goto (WTest x) s end)
    | WTest (WP p j) =>
        match s_f s p with
        | Some (FSpawn bs r pc i k) =>
            if j <? length bs then
              match w_proc (r j) with
              | None => Err
              | Some b => goto (WBusy (WP p j)) (set_f (p ++ [j]) (Some (FCode b)) s)
              end
            else Err
        | _ => Err
        end
    | WTest WKill => match s_k s with KNone | KLock | KDone => Err | _ => goto WTerm s end
    | WBusy (WP p j) =>
        match s_f s (p ++ [j]) with
        | Some (FCode PEnd) => goto WUp (set_f (p ++ [j]) None s)
        | _ => Blocked
        end
    | WBusy WKill => Err
    | WUp => with_worker s q (fun w =>
        Ok (set_w q (mkwk (w_alive w) (w_ready w) (S (w_done w)) (w_w w) (w_cdr w) WDown) s))
    | WTerm => goto WExit (set_term (S (s_term s)) s)
    | WExit => Blocked
    end
  else Blocked.

(** The thread that calls kill_workforce (X(threads_cleanup), :471-476) makes a
    step.  [quiet]: the user calls it only when all user threads have finished
    their work. *)
Definition kexec (s : st) : res :=
  let goto k s := Ok (set_k k s) in
  match s_k s with
  | KNone => goto KLock s
  | KLock => lock s LKill (fun s => goto KHead s)
  | KHead => match s_head s with None => unlock s LKill (fun s => goto KDone s) | Some q => goto (KCdr q) s end
  | KCdr q => with_worker s q (fun w =>
      match w_cdr w with None => Err | Some c => goto (KSetW q) (set_head c s) end)
  | KSetW q => with_worker s q (fun w =>
      goto (KUp q) (set_w q (mkwk (w_alive w) (w_ready w) (w_done w) (Some WKill) (w_cdr w) (w_pos w)) s))
  | KUp q => with_worker s q (fun w =>
      goto (KDown q) (set_w q (mkwk (w_alive w) (S (w_ready w)) (w_done w) (w_w w) (w_cdr w) (w_pos w)) s))
  | KDown q => match s_term s with 0 => Blocked | S n => goto (KFree q) (set_term n s) end
  | KFree q => with_worker s q (fun w =>
      goto KHead (set_w q (mkwk false (w_ready w) (w_done w) (w_w w) (w_cdr w) (w_pos w)) s))
  | KDone => Blocked
  end.

Inductive who := Frame (p : path) | Worker (q : nat) | Killer.

(** The user threads have finished. *)
Definition quiet (n : nat) (s : st) : Prop := forall k, k < n -> s_f s [k] = Some (FCode PEnd).


(** [n] user threads. *)
Inductive can (n : nat) : st -> who -> res -> Prop :=
| can_frame s p : can n s (Frame p) (fexec s p)
| can_worker s q : can n s (Worker q) (wexec s q)
| can_kill s : (s_k s = KNone -> quiet n s) -> can n s Killer (kexec s).

Inductive steps (n : nat) : nat -> st -> st -> Prop :=
| st_nil s : steps n 0 s s
| st_snoc c s t u l : steps n c s t -> can n t l (Ok u) -> steps n (S c) s u.

(** [ps]: the programs of the user threads *)
Definition init (ps : list (prog A)) (m : M) : st :=
  mkst m None None
    (fun p => match p with [k] => match nth_error ps k with Some b => Some (FCode b) | None => None end | _ => None end)
    (fun _ => mkwk false 0 0 None None WExit) 0 0 KNone.

End Pool.
