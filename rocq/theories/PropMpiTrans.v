(** * Property C42: the pairwise exchange of the MPI transpose *)
From Coq Require Import ZArith List Lia Bool Permutation.
From Verif Require Import Base NumTheory Offs MpiModel MpiProofs MpiTransModel MpiSched MpiExch.
Import ListNotations.
Open Scope Z_scope.

(** ** Specification

    [p] is an [nx] x [ny] matrix of [vn]-tuples; process [w] owns [rows p w]
    rows before and [cols p w] columns after the transposition.  Process [a]
    has to send [chunk p a b] numbers to process [b]. *)
Definition rows (p : problem_t) (w : Z) : Z := Z.max 0 (Z.min (p_block p) (p_nx p - w * p_block p)).
Definition cols (p : problem_t) (w : Z) : Z := Z.max 0 (Z.min (p_tblock p) (p_ny p - w * p_tblock p)).
Definition chunk (p : problem_t) (a b : Z) : Z := rows p a * cols p b * p_vn p.
(** where the chunk for [b] begins in the array of [a], and where [b] wants it *)
Definition from (p : problem_t) (a b : Z) : Z := b * (rows p a * p_tblock p) * p_vn p.
Definition into (p : problem_t) (a b : Z) : Z := a * (p_block p * cols p b) * p_vn p.

Lemma rows_eq p w : problem_ok p -> 0 <= w -> my_b p w = rows p w.
Proof. intros (H1 & H2 & H3 & H4 & H5) Hw. apply block_min; auto. Qed.
Lemma cols_eq p w : problem_ok p -> 0 <= w -> my_bt p w = cols p w.
Proof. intros (H1 & H2 & H3 & H4 & H5) Hw. apply block_min; auto. Qed.

(** The schedules: [n_pes] processes take part, each meets every process
    (itself included) exactly once, and partners meet at the same step. *)
Theorem C42_schedule : forall p, problem_ok p -> exists P S, n_pes_of p = Ret P /\ 1 <= P /\
  (forall w, P <= w -> mksched p w = Ret None) /\
  (forall w, 0 <= w < P -> mksched p w = Ret (Some (S w)) /\ Permutation (S w) (zr P) /\
     forall k v, nth_error (S w) k = Some v -> nth_error (S v) k = Some w).
Proof.
  intros p Hp. destruct (mksched_ok p Hp) as (S & H1 & T & H2 & _). exists (npes p), S.
  destruct Hp as (P1 & P2 & P3 & P4 & P5).
  split; [now apply n_pes_ok|]. split; [unfold npes; pose proof (nblk_pos (p_nx p) (p_block p) P1 P4); lia|]. split; auto.
  intros w Hw. split; auto. split.
  - apply NoDup_Permutation; [apply (tm_nodup _ _ T); auto|apply NoDup_zr|]. intros v. rewrite in_zr. split.
    + apply (tm_range _ _ T); auto.
    + intros Hv. apply (tm_all _ _ T); auto.
  - intros k v. apply (tm_sym _ _ T); auto.
Qed.
Print Assumptions C42_schedule.

(** The arguments with which process [w] calls transpose_chunks. *)
Definition call_of (p : problem_t) (P : Z) (S : Z -> list Z) (I O : Z -> nat) (w : Z) : targs :=
  mkta (S w) P w (sbs p w) (sbo p w) (rbs p w) (rbo p w) (I w) (O w).

Lemma block_le0 n b w : 1 <= n -> 1 <= b -> 0 <= w -> block n b w <= block n b 0.
Proof. intros Hn Hb Hw. rewrite !block_min by lia. nia. Qed.

Lemma call_ok p S I O : problem_ok p -> (forall w, 0 <= w < npes p -> mksched p w = Ret (Some (S w))) ->
  exch_ok (npes p) (call_of p (npes p) S I O).
Proof.
  intros Hp HS. destruct (mksched_ok p Hp) as (S' & H1 & T' & H2 & Srt').
  assert (ES : forall w, 0 <= w < npes p -> S' w = S w) by (intros w Hw; specialize (H1 w Hw); rewrite HS in H1 by auto; congruence).
  assert (T : Tournament (npes p) S).
  { constructor.
    - intros w Hw. rewrite <- ES by auto. now apply (tm_len _ _ T').
    - intros w b Hw. rewrite <- ES by auto. now apply (tm_range _ _ T').
    - intros w Hw. rewrite <- ES by auto. now apply (tm_nodup _ _ T').
    - intros w k b Hw. rewrite <- ES by auto. intros E. assert (0 <= b < npes p) by (apply (tm_range _ _ T' w); auto; eapply nth_error_In; eauto).
      rewrite <- ES by auto. now apply (tm_sym _ _ T'). }
  destruct Hp as (P1 & P2 & P3 & P4 & P5).
  assert (B : forall w, 0 <= my_b p w <= p_block p) by (intros w; now apply block_nonneg).
  assert (Bt : forall w, 0 <= my_bt p w <= p_tblock p) by (intros w; now apply block_nonneg).
  constructor; cbn [call_of ta_sched ta_npes ta_sbs ta_sbo ta_rbs ta_rbo ta_I ta_O].
  - exact T.
  - reflexivity.
  - intros a b Ha Hb. unfold sbs, rbs. split; [reflexivity|]. specialize (B a). specialize (Bt b). nia.
  - intros w a b x Hw Ha Hb Nab [X1 X2] [Y1 Y2]. unfold rbs, rbo in *.
    pose proof (B a) as Ba. pose proof (B b) as Bb. pose proof (Bt w) as Bw.
    set (K := p_block p * my_bt p w * p_vn p).
    assert (K0 : 0 <= my_bt p w * p_vn p) by nia.
    assert (Ka : my_b p a * my_bt p w * p_vn p <= K) by (unfold K; nia).
    assert (Kb : my_b p b * my_bt p w * p_vn p <= K) by (unfold K; nia).
    replace (a * (p_block p * my_bt p w) * p_vn p) with (a * K) in * by (unfold K; ring).
    replace (b * (p_block p * my_bt p w) * p_vn p) with (b * K) in * by (unfold K; ring).
    assert (0 <= K) by (unfold K; nia). nia.
  - intros w i j a b x Hw _ Hij Ea Eb [X1 X2] [Y1 Y2]. unfold rbs, rbo, sbs, sbo in *.
    assert (Ha : 0 <= a < npes p) by (apply (tm_range _ _ T w); auto; eapply nth_error_In; eauto).
    assert (Hb : 0 <= b < npes p) by (apply (tm_range _ _ T w); auto; eapply nth_error_In; eauto).
    assert (Nab : a <> b).
    { intros ->. assert (i = j); [|lia]. apply (proj1 (NoDup_nth_error _) (tm_nodup _ _ T w Hw)); [apply nth_error_Some; congruence|congruence]. }
    pose proof (B a) as Ba. pose proof (B w) as Bw. pose proof (Bt w) as Btw. pose proof (Bt b) as Btb.
    set (K := p_block p * my_bt p w * p_vn p) in *. set (L := my_b p w * p_tblock p * p_vn p) in *.
    assert (Q1 : 0 <= my_bt p w * p_vn p) by nia. assert (Q2 : 0 <= my_b p w * p_vn p) by nia.
    assert (Ka : my_b p a * my_bt p w * p_vn p <= K) by (unfold K; nia).
    assert (Lb : my_b p w * my_bt p b * p_vn p <= L) by (unfold L; nia).
    replace (a * (p_block p * my_bt p w) * p_vn p) with (a * K) in * by (unfold K; ring).
    replace (b * (my_b p w * p_tblock p) * p_vn p) with (b * L) in * by (unfold L; ring).
    assert (0 <= K) by (unfold K; nia). assert (0 <= L) by (unfold L; nia).
    destruct (Z.eq_dec (my_b p w * p_tblock p) (p_block p * my_bt p w)) as [Eq|Ne].
    + assert (K = L) by (unfold K, L; rewrite Eq; ring). nia.
    + destruct (Z.eq_dec (my_b p w * my_bt p w) 0) as [Z0|NZ].
      * apply Z.mul_eq_0 in Z0 as [Z0|Z0]; rewrite Z0 in *; lia.
      * assert (U : unequal p w) by (split; nia).
        rewrite <- ES in Ea, Eb by auto.
        destruct (Srt' w Hw U i j a b Hij Ea Eb) as [U1 U2].
        assert (D : p_block p * my_bt p w < my_b p w * p_tblock p \/ my_b p w * p_tblock p < p_block p * my_bt p w) by lia.
        destruct D as [D|D].
        -- specialize (U1 D). assert (K <= L) by (unfold K, L; nia). nia.
        -- specialize (U2 D). assert (L <= K) by (unfold K, L; nia). nia.
  - intros w pe Hw Hpe _ _. unfold sbs. pose proof (B w). assert (my_bt p pe <= my_bt p 0) by (apply block_le0; lia).
    assert (0 <= my_b p w * p_vn p) by nia. nia.
Qed.

(** For every matrix and every pair of block sizes, every choice of arrays (the
    same for input and output, or different ones), every decision of the MPI
    library which sends complete early, every initial contents and every
    interleaving: no buffer or message is overrun, the exchange never gets stuck,
    it is over after at most 3 P^2 steps, and then each process has received
    every chunk in the right place and nothing else has changed. *)
Theorem C42_exchange : forall V p P S I O eager (m0 : Z -> pmem V), problem_ok p -> n_pes_of p = Ret P ->
  (forall w, 0 <= w < P -> mksched p w = Ret (Some (S w))) ->
  let A := call_of p P S I O in
  forall n s, steps A P eager n (start m0) s ->
  ~ wrong A P s /\ Z.of_nat n <= 3 * P * P /\ (finished A P s \/ exists t, step A P eager s t) /\
  (finished A P s -> forall w, 0 <= w < P ->
    (forall v j, 0 <= v < P -> 0 <= j < chunk p v w -> ps_mem (procs s w) (O w) (into p v w + j) = m0 v (I v) (from p v w + j)) /\
    (forall arr x, (arr <> O w \/ forall v, 0 <= v < P -> ~ into p v w <= x < into p v w + chunk p v w) ->
      ps_mem (procs s w) arr x = m0 w arr x)).
Proof.
  intros V p P S I O eager m0 Hp HP HS A n s ST.
  assert (P = npes p) by (destruct Hp as (P1 & P2 & P3 & P4 & P5); rewrite n_pes_ok in HP by auto; unfold npes; congruence). subst P.
  assert (P1 : 1 <= npes p) by (destruct Hp as (P1 & P2 & P3 & P4 & P5); unfold npes; pose proof (nblk_pos (p_nx p) (p_block p) P1 P4); lia).
  pose proof (call_ok p S I O Hp HS) as EO. fold A in EO.
  assert (IV : Inv (npes p) A m0 s) by (eapply Inv_steps; eauto; now apply Inv_start).
  split; [now apply (not_wrong (npes p) A m0)|]. split.
  { pose proof (steps_work (npes p) A eager m0 EO n (start m0) s (Inv_start _ _ _) ST).
    rewrite (work_start (npes p) A m0 EO) in H by lia. pose proof (work_nonneg (npes p) A m0 s IV). lia. }
  split.
  { 
    assert (D : finished A (npes p) s \/ ~ finished A (npes p) s).
    { unfold finished. assert (G : forall k, (forall w, 0 <= w < Z.of_nat k -> ps_i (procs s w) = length (ta_sched (A w))) \/
        ~ (forall w, 0 <= w < Z.of_nat k -> ps_i (procs s w) = length (ta_sched (A w)))).
      { induction k as [|k [IH|IH]]; [left; intros; lia| |right; intros Q; apply IH; intros; apply Q; lia].
        destruct (Nat.eq_dec (ps_i (procs s (Z.of_nat k))) (length (ta_sched (A (Z.of_nat k))))) as [E|E].
        - left. intros w Hw. destruct (Z.eq_dec w (Z.of_nat k)) as [->|]; auto. apply IH. lia.
        - right. intros Q. apply E, Q. lia. }
      specialize (G (Z.to_nat (npes p))). rewrite Z2Nat.id in G by lia. exact G. }
    destruct D as [D|D]; [now left|right]. now apply (progress (npes p) A eager m0). }
  intros F w Hw. destruct (finished_result (npes p) A m0 EO s IV F w Hw) as [R1 R2].
  unfold A in R1, R2. cbn [call_of ta_sbs ta_sbo ta_rbs ta_rbo ta_I ta_O] in R1, R2. unfold rbs, rbo, sbo, reg in R1, R2.
  unfold chunk, into, from. split.
  - intros v j Hv Hj. rewrite <- !rows_eq, <- !cols_eq in * by (auto; lia). rewrite (R1 v) by (auto; lia). f_equal. lia.
  - intros arr x N. apply R2. destruct N as [N|N]; [now left|right]. intros v Hv. specialize (N v Hv).
    rewrite <- !rows_eq, <- !cols_eq in N by (auto; lia). exact N.
Qed.
Print Assumptions C42_exchange.

(** ** Concrete cases.  10 x 7 pairs, blocks of 3 rows and 2 columns: 4
    processes; process 3 has 1 row and 1 column, so its chunks sent and received
    in place do not have the same places, and the schedules are sorted for it. *)
Definition ex10x7 : problem_t := mkpt 10 7 2 3 2.
Example C42_case_ok : problem_ok ex10x7.
Proof. unfold problem_ok, ex10x7. cbn. lia. Qed.
Example C42_case_schedules : n_pes_of ex10x7 = Ret 4 /\ map (mksched ex10x7) [0; 1; 2; 3; 4] =
  [Ret (Some [0; 1; 2; 3]); Ret (Some [1; 0; 3; 2]); Ret (Some [2; 3; 0; 1]); Ret (Some [3; 2; 1; 0]); Ret None].
Proof. split; vm_compute; reflexivity. Qed.
Example C42_case_odd : map (mksched (mkpt 5 5 1 1 1)) [0; 1; 2; 3; 4] =
  [Ret (Some [0; 2; 4; 1; 3]); Ret (Some [4; 1; 3; 0; 2]); Ret (Some [3; 0; 2; 4; 1]); Ret (Some [2; 4; 1; 3; 0]); Ret (Some [1; 3; 0; 2; 4])].
Proof. vm_compute. reflexivity. Qed.
