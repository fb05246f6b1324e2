(** * C34, C36: parallel loops and the worker pool *)
From Coq Require Import ZArith List Lia Bool PeanoNat.
From Verif Require Import Base NumTheory Offs SpecThreads ThreadModel ThreadTree ThreadInv ThreadStep.
Import ListNotations.

(** ** C34: blocks *)
Section C34.
Open Scope Z_scope.

Lemma len_zr n : length (zr n) = Z.to_nat n.
Proof. unfold zr. apply length_zrange. Qed.
Lemma nth_zr' n k : (k < Z.to_nat n)%nat -> nth_error (zr n) k = Some (Z.of_nat k).
Proof.
  intros H. unfold zr, zrange. rewrite nth_error_map. rewrite (nth_error_nth' _ 0%nat) by (now rewrite seq_length). rewrite seq_nth by auto. cbn. reflexivity.
Qed.
Lemma ci_ok z : 0 <= z <= INT_MAX -> ci z = Ret z.
Proof. intros H. unfold ci, INT_MAX in *. destruct (Z.leb_spec (- (2 ^ 31 - 1) - 1) z); [|lia]. destruct (Z.leb_spec z (2 ^ 31 - 1)); [reflexivity|lia]. Qed.

Lemma omap_ret {B C} (f : B -> out C) (g : B -> C) l : (forall x, In x l -> f x = Ret (g x)) -> omap f l = Ret (map g l).
Proof. induction l as [|x l IH]; intros H; cbn; auto. rewrite H by (now left). cbn. rewrite IH by (intros; apply H; now right). reflexivity. Qed.

(** What spawn_loop computes, in closed form: [bs] is the block size, [nb] the number of blocks. *)
Lemma spawn_blocks_eq loopmax nthr : 0 < loopmax -> 0 < nthr -> loopmax + nthr <= INT_MAX ->
  let bs := (loopmax + nthr - 1) / nthr in let nb := (loopmax + bs - 1) / bs in
  loopmax + bs <= INT_MAX ->
  spawn_blocks loopmax nthr = Ret (map (fun i => mksd (i * bs) (Z.min (i * bs + bs) loopmax) i) (zr nb)).
Proof.
  intros H1 H2 H3 bs nb H4.
  assert (Hbs : 0 < bs) by (unfold bs; apply Z.div_str_pos; lia).
  unfold spawn_blocks. destruct (Z.leb_spec 0 loopmax); [|lia]. destruct (Z.ltb_spec 0 nthr); [|lia]. cbn [assert_ bind].
  destruct (Z.eqb_spec loopmax 0); [lia|]. rewrite ci_ok by (unfold INT_MAX in *; lia). cbn [bind]. rewrite ci_ok by (unfold INT_MAX in *; lia). cbn [bind].
  rewrite Z.quot_div_nonneg by lia. fold bs. rewrite ci_ok by lia. cbn [bind]. rewrite ci_ok by lia. cbn [bind].
  destruct (Z.eqb_spec bs 0); [lia|]. rewrite Z.quot_div_nonneg by lia. fold nb.
  apply omap_ret. intros i Hi. apply in_zr in Hi.
  assert (Hi2 : i * bs < loopmax).
  { assert (bs * nb <= loopmax + bs - 1) by (apply Z.mul_div_le; lia). nia. }
  unfold spawn_item. rewrite ci_ok by nia. cbn [bind]. rewrite ci_ok by nia. cbn [bind].
  f_equal. f_equal. destruct (Z.ltb_spec loopmax (i * bs + bs)); lia.
Qed.

(** C34: the blocks of a parallel loop are consecutive non-empty intervals that
    partition [0, loopmax); there are at most nthr of them and block number j
    is executed as thread number j; no block is longer than any partition into
    nthr blocks must allow for, and no fewer blocks of that length suffice. *)
Theorem C34_partition loopmax nthr : 0 <= loopmax -> 0 < nthr -> loopmax + nthr <= INT_MAX -> loopmax + (loopmax + nthr - 1) / nthr <= INT_MAX ->
  exists ds, spawn_blocks loopmax nthr = Ret ds /\
    Z.of_nat (length ds) <= nthr /\
    (forall j d, nth_error ds j = Some d -> sd_thr d = Z.of_nat j /\ 0 <= sd_min d < sd_max d /\ sd_max d <= loopmax) /\
    (forall i, 0 <= i < loopmax -> exists j, (exists d, nth_error ds j = Some d /\ sd_min d <= i < sd_max d) /\
       forall j' d', nth_error ds j' = Some d' -> sd_min d' <= i < sd_max d' -> j' = j) /\
    (exists len, (forall d, In d ds -> sd_max d - sd_min d <= len) /\ (0 < loopmax -> (len - 1) * nthr < loopmax /\ (Z.of_nat (length ds) - 1) * len < loopmax)).
Proof.
  intros H1 H2 H3 H4. destruct (Z.eq_dec loopmax 0) as [->|Hn].
  - exists []. split; [unfold spawn_blocks; destruct (Z.ltb_spec 0 nthr); [reflexivity|lia]|]. split; [cbn; lia|]. split; [intros [|j] d; discriminate|].
    split; [intros; lia|]. exists 0. split; [intros d []|lia].
  - set (bs := (loopmax + nthr - 1) / nthr) in *. set (nb := (loopmax + bs - 1) / bs) in *.
    assert (Hbs : 0 < bs) by (unfold bs; apply Z.div_str_pos; lia).
    assert (B1 : bs * nthr <= loopmax + nthr - 1) by (unfold bs; pose proof (Z.mul_div_le (loopmax + nthr - 1) nthr); lia).
    assert (B2 : loopmax <= bs * nthr) by (unfold bs; pose proof (Z.mul_succ_div_gt (loopmax + nthr - 1) nthr); lia).
    assert (B3 : bs * nb <= loopmax + bs - 1) by (apply Z.mul_div_le; lia).
    assert (B4 : loopmax <= bs * nb) by (unfold nb; pose proof (Z.mul_succ_div_gt (loopmax + bs - 1) bs); lia).
    assert (B5 : 0 < nb) by (unfold nb; apply Z.div_str_pos; lia).
    exists (map (fun i => mksd (i * bs) (Z.min (i * bs + bs) loopmax) i) (zr nb)).
    assert (Nth : forall j d, nth_error (map (fun i => mksd (i * bs) (Z.min (i * bs + bs) loopmax) i) (zr nb)) j = Some d ->
       Z.of_nat j < nb /\ d = mksd (Z.of_nat j * bs) (Z.min (Z.of_nat j * bs + bs) loopmax) (Z.of_nat j)).
    { intros j d H. rewrite nth_error_map in H. destruct (nth_error (zr nb) j) as [x|] eqn:E; [|discriminate]. injection H as <-.
      assert (L : (j < length (zr nb))%nat) by (apply nth_error_Some; congruence). rewrite len_zr in L.
      rewrite nth_zr' in E by lia. injection E as <-. split; [lia|reflexivity]. }
    assert (Nth' : forall j, 0 <= j < nb -> nth_error (map (fun i => mksd (i * bs) (Z.min (i * bs + bs) loopmax) i) (zr nb)) (Z.to_nat j) = Some (mksd (j * bs) (Z.min (j * bs + bs) loopmax) j)).
    { intros j Hj. rewrite nth_error_map. rewrite nth_zr' by lia. cbn [option_map]. rewrite Z2Nat.id by lia. reflexivity. }
    split; [apply spawn_blocks_eq; try lia|]. split; [|split; [|split]].
    + rewrite map_length, len_zr, Z2Nat.id by lia. nia.
    + intros j d H. apply Nth in H as [L ->]. cbn [sd_thr sd_min sd_max]. split; [reflexivity|]. nia.
    + intros i Hi. exists (Z.to_nat (i / bs)). pose proof (Z.div_mod i bs ltac:(lia)) as D. pose proof (Z.mod_pos_bound i bs Hbs) as Mb.
      assert (Hd : 0 <= i / bs < nb). { split; [apply Z.div_pos; lia|]. nia. }
      split.
      * eexists. split; [apply Nth'; exact Hd|]. cbn [sd_min sd_max]. nia.
      * intros j' d' H Hr. apply Nth in H as [L ->]. cbn [sd_min sd_max] in Hr. assert (Z.of_nat j' = i / bs) by nia. lia.
    + exists bs. split.
      * intros d Hd. apply In_nth_error in Hd as (j & Hj). apply Nth in Hj as [_ ->]. cbn [sd_min sd_max]. lia.
      * intros _. split; [lia|]. rewrite map_length, len_zr, Z2Nat.id by lia. nia.
Qed.

(** The solvers of threads/ always ask for as many iterations as threads: then
    block i is iteration i, executed as thread i. *)
Theorem C34_one_per_thread nthr : 0 < nthr -> 2 * nthr <= INT_MAX ->
  spawn_blocks nthr nthr = Ret (map (fun i => mksd i (i + 1) i) (zr nthr)).
Proof.
  intros H1 H2. assert (E : (nthr + nthr - 1) / nthr = 1) by (symmetry; apply Z.div_unique with (nthr - 1); lia).
  pose proof (spawn_blocks_eq nthr nthr H1 H1 ltac:(lia)) as S. cbv zeta in S. rewrite E in S. rewrite S by lia.
  rewrite Z.div_1_r. replace (nthr + 1 - 1) with nthr by lia. f_equal. apply map_ext_in. intros i Hi. apply in_zr in Hi. f_equal; lia.
Qed.

(** Non-vacuity, and the example of the comment in the code: 5 iterations, 4 threads. *)
Example C34_5_4 : spawn_blocks 5 4 = Ret [mksd 0 2 0; mksd 2 4 1; mksd 4 5 2].
Proof. vm_compute. reflexivity. Qed.
(** The bound on loopmax is needed: signed overflow. *)
Example C34_overflow : spawn_blocks INT_MAX 2 = UB.
Proof. vm_compute. reflexivity. Qed.
End C34.

(** ** C36: the pool *)
Section C36.
Open Scope nat_scope.
Context {A M : Type}.
Variable act : A -> M -> M.
(** [ps]: the programs of the user threads; [c]: the number of steps made. *)
Variable ps : list (prog A).
Variable m : M.
Notation N := (length ps).
Notation st := (@st A M).

(** C36 (refinement): whatever the schedule, what the pool has done so far is an
    execution of the user threads under fork-join semantics, where each block is
    executed exactly once and what follows a loop waits for all its blocks; and
    a user thread that is outside of loops has still to execute exactly what
    the fork-join execution has. *)
Theorem C36_refines_fork_join c (s : st) : steps act N c (init ps m) s ->
  exists ts, tsteps act (TPar (map TSeq ps) PEnd) m (TPar ts PEnd) (s_mem s) /\ length ts = N /\
    (forall k b, s_f s [k] = Some (FCode b) -> nth_error ts k = Some (TSeq b)).
Proof.
  intros H. destruct (reach act N ps m c s eq_refl H) as (T & own & I & R & _).
  destruct (i_root N s T own I) as (ts & -> & L). exists ts. split; auto. split; auto.
  intros k b E. apply (i_code N s _ own I) in E. cbn in E. destruct (nth_error ts k); [congruence|discriminate].
Qed.

(** C36 (safety): no thread ever dereferences a null, uninitialised or freed
    pointer, nor unlocks a lock it does not hold. *)
Theorem C36_no_undefined_behaviour c (s : st) l r : steps act N c (init ps m) s -> can act N s l r -> r <> Err.
Proof.
  intros H C. destruct (reach act N ps m c s eq_refl H) as (T & own & I & _ & _).
  pose proof (can_ok act N s T own l r I C) as G. destruct r; [discriminate|discriminate|contradiction].
Qed.

(** C36 (liveness): as long as the clean-up is not complete some thread can make a
    step, and the number of steps is bounded. *)
Theorem C36_no_deadlock c (s : st) : steps act N c (init ps m) s -> s_k s = KDone \/ exists l s', can act N s l (Ok s').
Proof. intros H. destruct (reach act N ps m c s eq_refl H) as (T & own & I & _ & _). exact (progress act N s T own I). Qed.
Theorem C36_terminates : exists bound, forall c (s : st), steps act N c (init ps m) s -> c <= bound.
Proof.
  exists (list_sum (map cost ps) + 22). intros c s H. destruct (reach act N ps m c s eq_refl H) as (T & own & I & _ & B).
  rewrite mu_init in B. lia.
Qed.

(** The workers on a list that starts at [h] and is linked by cdr. *)
Fixpoint linked (s : st) (h : option nat) (l : list nat) : Prop :=
  match l with
  | [] => h = None
  | q :: t => h = Some q /\ exists c, w_cdr (s_w s q) = Some c /\ linked s c t
  end.
(** C36 (queue): at any time (also while somebody changes it) the queue of idle
    workers is a well-formed list without repetitions, and none of the workers in
    it is running, has been told to run or has been freed. *)
Theorem C36_idle_workers c (s : st) : steps act N c (init ps m) s ->
  exists l, NoDup l /\ linked s (s_head s) l /\
    (forall q, In q l -> q < s_nw s /\ w_alive (s_w s q) = true /\ w_pos (s_w s q) = WDown /\ w_ready (s_w s q) = 0 /\ w_done (s_w s q) = 0).
Proof.
  intros H. destruct (reach act N ps m c s eq_refl H) as (T & own & I & _ & B). destruct (i_queue N s T own I) as (l & ND & Ch & Hl).
  exists l. split; auto. split; auto. intros q Hq. apply Hl in Hq as [Hq Oq]. pose proof (i_role N s T own I q Hq) as R. unfold roleok in R. rewrite Oq in R.
  destruct R as (R1 & R2 & R3 & R4 & R5). auto.
Qed.

(** C36 (exactly once): no two workers execute the same block. *)
Theorem C36_one_worker_per_block c (s : st) q q' w : steps act N c (init ps m) s -> q < s_nw s -> q' < s_nw s ->
  w_pos (s_w s q) = WBusy w -> w_pos (s_w s q') = WBusy w -> q = q'.
Proof.
  intros H. destruct (reach act N ps m c s eq_refl H) as (T & own & I & _ & B).
  assert (K : forall q, q < s_nw s -> w_pos (s_w s q) = WBusy w -> exists p j bs r pc i k, w = WP p j /\ s_f s p = Some (FSpawn bs r pc i k) /\ w_q (r j) = Some q).
  { clear q q'. intros q Hq P. pose proof (i_role N s T own I q Hq) as R. unfold roleok in R. destruct (own q) as [|p j| |] eqn:O.
    - destruct R as (_ & _ & _ & _ & R). congruence.
    - destruct R as (bs & r & pc & i & k & E & Hl & Lj). pose proof (i_spawn N s T own I _ _ _ _ _ _ E) as S.
      destruct (nth_error bs j) as [b|] eqn:Eb; [|apply nth_error_None in Eb; lia]. pose proof (sp_slot _ _ _ _ _ _ _ _ _ S j b Eb) as Sb.
      exists p, j, bs, r, pc, i, k. destruct (stat pc i (length bs) j) as [|pc1| | | |pc1] eqn:Es; try contradiction.
      + exfalso. destruct Sb as (_ & _ & Sb). destruct pc1 as [| | |[y|]|[y|]|[y|]| | | | | | | |]; try contradiction; subst.
        * destruct Sb as (_ & _ & _ & _ & _ & Sb). congruence.
        * destruct Sb as (_ & _ & _ & _ & _ & Sb). congruence.
        * destruct Sb as (y & Y1 & Y2 & Y3 & Y4 & Y5). assert (y = q) by congruence. subst. destruct Y5 as (_ & _ & _ & _ & Y5). congruence.
        * destruct Sb as (y & Y1 & Y2 & Y3 & Y4 & Y5 & _). assert (y = q) by congruence. subst. destruct Y5 as (_ & _ & _ & _ & Y5). congruence.
      + destruct Sb as (S2 & y & Y1 & Y2 & Y3 & Y4 & Y5 & Y6). assert (y = q) by congruence. subst y. split; [|auto].
        unfold phase in Y6. destruct Y6 as [(P1 & _)|[(P1 & _)|[(P1 & _)|[(P1 & _)|[(P1 & _)|(P1 & _)]]]]]; congruence.
      + exfalso. destruct Sb as (_ & y & Y1 & Y2 & Y3 & Y4 & Y5). assert (y = q) by congruence. subst. destruct Y5 as (_ & _ & _ & _ & Y5). congruence.
    - exfalso. unfold dying in R. destruct R as (_ & _ & R). destruct (s_k s); try contradiction.
      + destruct R as (_ & _ & R & _). congruence.
      + destruct R as (_ & _ & R & _). congruence.
      + destruct R as (_ & _ & [(_ & R & _)|[(_ & [R|[R|R]] & _)|(_ & R & _)]]); congruence.
      + destruct R as (_ & _ & R & _). congruence.
    - destruct R as (_ & R & _). congruence. }
  intros H1 H2 P1 P2. destruct (K q H1 P1) as (p & j & bs & r & pc & i & k & -> & E & Q). destruct (K q' H2 P2) as (p' & j' & bs' & r' & pc' & i' & k' & E1 & E' & Q').
  injection E1 as <- <-. rewrite E in E'. injection E' as <- <- <- <- <-. congruence.
Qed.

(** C36 (clean-up): when it returns, every worker thread ever made has exited and its
    memory has been freed, the queue is empty and the lock is free. *)
Theorem C36_cleanup c (s : st) : steps act N c (init ps m) s -> s_k s = KDone ->
  s_head s = None /\ s_lock s = None /\ forall q, q < s_nw s -> w_alive (s_w s q) = false /\ w_pos (s_w s q) = WExit.
Proof.
  intros H K. destruct (reach act N ps m c s eq_refl H) as (T & own & I & _ & B).
  assert (Q : quiet N s) by (apply (i_kill N s T own I); congruence). split; [|split].
  - now apply (i_kdone N s T own I).
  - destruct (s_lock s) as [[p|]|] eqn:L; auto.
    + exfalso. now apply (nolockp N s T own I Q p).
    + apply (i_lockk N s T own I) in L. rewrite K in L. discriminate.
  - intros q Hq. destruct (krole N s T own I Q q Hq) as [[O _]|[[_ (R1 & R2 & _)]|[_ R]]].
    + exfalso. destruct (i_queue N s T own I) as (l & _ & Ch & Hl). assert (In q l) by (now apply Hl). rewrite (i_kdone N s T own I K) in Ch.
      destruct l; [contradiction|]. destruct Ch as [Ch _]. discriminate.
    + auto.
    + apply dying_hand in R. unfold inhand in R. rewrite K in R. discriminate.
Qed.

(** C36 (summary): when the clean-up has returned, the user threads have executed
    all of their programs. *)
Theorem C36_complete c (s : st) : steps act N c (init ps m) s -> s_k s = KDone ->
  tsteps act (TPar (map TSeq ps) PEnd) m (TPar (map (fun _ => TSeq PEnd) ps) PEnd) (s_mem s).
Proof.
  intros H K. destruct (reach act N ps m c s eq_refl H) as (T & own & I & R & B).
  assert (Q : quiet N s) by (apply (i_kill N s T own I); congruence).
  destruct (i_root N s T own I) as (ts & -> & L).
  assert (E : ts = map (fun _ => TSeq PEnd) ps); [|now rewrite <- E].
  clear R B.
  apply nth_ext with (d := TSeq PEnd) (d' := TSeq PEnd); [now rewrite map_length|]. intros k Hk. rewrite L in Hk.
  pose proof (i_code N s _ own I _ _ (Q k Hk)) as G. cbn in G. destruct (nth_error ts k) as [t|] eqn:Et; [|discriminate]. injection G as ->.
  rewrite (nth_error_nth _ _ _ Et). symmetry. clear. revert k. induction ps as [|x l IH]; intros [|k]; cbn; auto.
Qed.
End C36.

(** Non-vacuity: one user thread runs a loop of two blocks that write 1 and 2, and
    then cleans up.  A complete execution, in which a worker is made, used and
    killed. *)
Module Toy.
Open Scope nat_scope.
Definition tact (a : nat) (m : list nat) : list nat := a :: m.
Definition prg : list (prog nat) := [PSpawn [PAct 1 PEnd; PAct 2 PEnd] (PAct 3 PEnd)].
Definition exec1 (w : who) (s : @st nat (list nat)) : option st :=
  match w with
  | Frame p => match fexec tact s p with Ok t => Some t | _ => None end
  | Worker q => match wexec s q with Ok t => Some t | _ => None end
  | Killer =>
      match s_k s, s_f s [0] with
      | KNone, Some (FCode PEnd) => match kexec s with Ok t => Some t | _ => None end
      | KNone, _ => None
      | _, _ => match kexec s with Ok t => Some t | _ => None end
      end
  end.
Fixpoint exec (l : list who) (s : st) : option st := match l with [] => Some s | w :: l => match exec1 w s with Some t => exec l t | None => None end end.
Lemma exec1_can w s t : exec1 w s = Some t -> can tact 1 s w (Ok t).
Proof.
  destruct w as [p|q|]; cbn.
  - intros H. destruct (fexec tact s p) as [u| |] eqn:E; try discriminate. injection H as <-. rewrite <- E. constructor.
  - intros H. destruct (wexec s q) as [u| |] eqn:E; try discriminate. injection H as <-. rewrite <- E. constructor.
  - intros H. assert (K : kexec s = Ok t /\ (s_k s = KNone -> s_f s [0] = Some (FCode PEnd))).
    { destruct (s_k s) eqn:Ks.
      - destruct (s_f s [0]) as [[[| |]|]|] eqn:F; try discriminate. destruct (kexec s); try discriminate. split; congruence.
      - destruct (kexec s); try discriminate. split; congruence.
      - destruct (kexec s); try discriminate. split; congruence.
      - destruct (kexec s); try discriminate. split; congruence.
      - destruct (kexec s); try discriminate. split; congruence.
      - destruct (kexec s); try discriminate. split; congruence.
      - destruct (kexec s); try discriminate. split; congruence.
      - destruct (kexec s); try discriminate. split; congruence.
      - destruct (kexec s); try discriminate. split; congruence. }
    destruct K as [K1 K2]. rewrite <- K1. constructor. intros Ks k Hk. assert (k = 0) by lia. subst. auto.
Qed.
Lemma exec_steps l : forall c s0 s t, steps tact 1 c s0 s -> exec l s = Some t -> steps tact 1 (c + length l) s0 t.
Proof.
  induction l as [|w l IH]; intros c s0 s t H E; cbn in E.
  - injection E as <-. now rewrite Nat.add_0_r.
  - destruct (exec1 w s) as [u|] eqn:E1; [|discriminate]. replace (c + length (w :: l)) with (S c + length l) by (cbn; lia).
    eapply IH; [|exact E]. eapply st_snoc; [exact H|]. apply exec1_can, E1.
Qed.
Definition sched : list who :=
  repeat (Frame [0]) 10 ++ [Frame [0; 1]; Worker 0; Worker 0; Frame [0]; Worker 0; Frame [0; 0]; Worker 0; Worker 0] ++
  repeat (Frame [0]) 7 ++ repeat Killer 6 ++ repeat (Worker 0) 4 ++ repeat Killer 3.
Example C36_run : exists s c, steps tact (length prg) c (init prg []) s /\ s_k s = KDone /\ s_nw s = 1 /\ s_mem s = [3; 1; 2].
Proof.
  assert (E : match exec sched (init prg []) with Some s => (s_k s, s_nw s, s_mem s) = (KDone, 1, [3; 1; 2]) | None => False end) by (vm_compute; reflexivity).
  destruct (exec sched (init prg [])) as [s|] eqn:Es; [|contradiction]. exists s, (0 + length sched).
  split; [eapply exec_steps; [constructor|exact Es]|]. repeat split; congruence.
Qed.
End Toy.

Print Assumptions C34_partition.
Print Assumptions C34_one_per_thread.
Print Assumptions C36_refines_fork_join.
Print Assumptions C36_no_undefined_behaviour.
Print Assumptions C36_no_deadlock.
Print Assumptions C36_terminates.
Print Assumptions C36_idle_workers.
Print Assumptions C36_one_worker_per_block.
Print Assumptions C36_cleanup.
Print Assumptions C36_complete.
