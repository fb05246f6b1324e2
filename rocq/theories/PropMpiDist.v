(** * Property C44: the distributed transpose transposes *)
From Coq Require Import Reals ZArith List Lia Bool.
From Verif Require Import NumTheory Cplx Spec Base PrimesModel TensorModel Offs TensorProofs XForm CopyModel CopyProofs TransProofs Rank0Model PropTranspose
  MpiModel MpiProofs MpiTransModel MpiSched MpiExch PropMpiTrans MpiDistModel MpiDistLocal MpiDistSim.
Import ListNotations.
Open Scope Z_scope.

(** ** Specification

    [X i j v]: component [v] of the tuple in row [i], column [j] of the matrix.
    With blocks of [b], process [w] has the rows [w*b .. w*b + share n b w - 1]
    of a matrix with [n] rows. *)
Definition share (n b w : Z) : Z := Z.max 0 (Z.min b (n - w * b)).
(** Places of the components in the array of a process that has [r] rows of
    [c] tuples: row by row, or (FFTW_MPI_TRANSPOSED_IN and _OUT) column by column. *)
Definition place (transposed : bool) (r c vn i j v : Z) : Z := if transposed then (j * r + i) * vn + v else (i * c + j) * vn + v.

(** The call of transpose_chunks made by process [w]. *)
Definition exchange_args (p : problem_t) (P : Z) (S : Z -> list Z) (T : Z -> tplan) (inplace : bool) : Z -> targs :=
  call_of p P S (fun w => fst (fst (t_arrays (T w) arrI (arrO inplace)))) (fun w => fst (snd (t_arrays (T w) arrI (arrO inplace)))).

Lemma block_share n b w : 1 <= n -> 1 <= b -> 0 <= w -> block n b w = share n b w.
Proof. apply block_min. Qed.
Lemma as_mem_arrays m l : as_mem (as_arrays m) l = m l.
Proof. now destruct l. Qed.
Definition canon (n b : Z) : Z := if n <? b then n else b.
Lemma canon_pos n b : 1 <= n -> 1 <= b -> 1 <= canon n b.
Proof. unfold canon. destruct (n <? b); lia. Qed.
Lemma canon_share n b w : 1 <= n -> 1 <= b -> 0 <= w -> share n (canon n b) w = share n b w.
Proof. intros Hn Hb Hw. unfold share, canon. destruct (Z.ltb_spec n b); [|auto]. destruct (Z.eq_dec w 0) as [->|]; nia. Qed.
Lemma canon_start n b w : 1 <= n -> 1 <= b -> 0 <= w -> 0 < share n b w -> w * canon n b = w * b.
Proof. intros Hn Hb Hw. unfold share, canon. destruct (Z.ltb_spec n b); [|auto]. destruct (Z.eq_dec w 0) as [->|]; nia. Qed.

Lemma share_nonneg n b w : 0 <= share n b w. Proof. unfold share. lia. Qed.
Lemma arrO_ok (ip : bool) : if ip then arrI = arrO ip else fst arrI <> fst (arrO ip).
Proof. destruct ip; [reflexivity|discriminate]. Qed.
Lemma arrI2_ok (ip pr : bool) : if ip || pr then (if pr then arrO ip else arrI) = arrO ip else fst (if pr then arrO ip else arrI : loc) <> fst (arrO ip).
Proof. destruct ip, pr; cbn; auto. Qed.
Lemma arrO_2 (ip : bool) : (fst (arrO ip) < 2)%nat.
Proof. destruct ip; cbn; lia. Qed.
Lemma snd_arrO (ip : bool) : snd (arrO ip) = 0.
Proof. now destruct ip. Qed.
Lemma arrO_1 (ip : bool) : ip = false -> fst (arrO ip) = 1%nat.
Proof. now intros ->. Qed.

Section Main.
Variables (qs : qsort_t) (nx ny vn blk tblk : Z) (tin tout inplace preserve : bool) (C P : Z) (S : Z -> list Z) (T : Z -> tplan)
  (eager : Z -> nat -> bool) (m0 : Z -> mem) (X : Z -> Z -> Z -> R).
Hypothesis Hq : qsort_perm qs.
Hypothesis Hnx : 1 <= nx.
Hypothesis Hny : 1 <= ny.
Hypothesis Hvn : 1 <= vn.
Hypothesis Hblk : 1 <= blk.
Hypothesis Htblk : 1 <= tblk.
Let pr := mkproblem_transpose nx ny vn blk tblk tin tout.
Let p := fst pr.
Hypothesis HP : n_pes_of p = Ret P.
Hypothesis HC : P <= C.
Hypothesis HS : forall w, 0 <= w < P -> mksched p w = Ret (Some (S w)).
Hypothesis HT : forall w, 0 <= w < C -> tplanned qs p (fst (snd pr)) (snd (snd pr)) inplace preserve w (T w).
Hypothesis Hin : forall w i j v, 0 <= w < C -> 0 <= i < share nx blk w -> 0 <= j < ny -> 0 <= v < vn ->
  m0 w (0%nat, place tin (share nx blk w) ny vn i j v) = X (w * blk + i) j v.
Let A := exchange_args p P S T inplace.
Let B := canon nx blk.
Let TB := canon ny tblk.
Let O := arrO inplace.
Let I2 := if preserve then O else arrI.

Lemma p_is : p = mkpt nx ny vn B TB.
Proof. reflexivity. Qed.
Lemma p_ok : problem_ok p.
Proof. rewrite p_is. unfold problem_ok. cbn. pose proof (canon_pos nx blk Hnx Hblk) as Q1. pose proof (canon_pos ny tblk Hny Htblk) as Q2. fold B in Q1. fold TB in Q2. lia. Qed.
Lemma P_is : P = npes p.
Proof. destruct p_ok as (P1 & P2 & P3 & P4 & P5). rewrite n_pes_ok in HP by auto. unfold npes. congruence. Qed.
Lemma P_pos : 1 <= P.
Proof. rewrite P_is. destruct p_ok as (P1 & P2 & P3 & P4 & P5). unfold npes. pose proof (nblk_pos (p_nx p) (p_block p) P1 P4). lia. Qed.
Lemma B_pos : 1 <= B. Proof. now apply canon_pos. Qed.
Lemma TB_pos : 1 <= TB. Proof. now apply canon_pos. Qed.

(** the arrays *)
Lemma cld1_none w : 0 <= w < C -> (t_cld1 (T w) = None <-> tin || (B =? 1) = true).
Proof.
  intros Hw. destruct (HT w Hw) as [c1 c2 c2r c3 rI rO b Hc _]. cbn [t_cld1]. change (fst (snd pr)) with (tin || (B =? 1)) in Hc.
  destruct (tin || (B =? 1)); [now subst|]. destruct Hc as (c & -> & _). split; discriminate.
Qed.
Lemma preserve_is w : 0 <= w < C -> t_preserve (T w) = preserve.
Proof. intros Hw. now destruct (HT w Hw). Qed.
Lemma out_arr w : 0 <= w < C -> snd (t_arrays (T w) arrI O) = I2.
Proof. intros Hw. unfold t_arrays, I2. rewrite preserve_is by auto. destruct (t_cld1 (T w)); destruct preserve; reflexivity. Qed.
Definition I1 (w : Z) : loc := fst (t_arrays (T w) arrI O).
Lemma I1_is w : I1 w = match t_cld1 (T w) with Some _ => O | None => arrI end.
Proof. unfold I1, t_arrays. destruct (t_cld1 (T w)), (t_preserve (T w)); reflexivity. Qed.
Lemma fst_O : (fst O < 2)%nat.
Proof. apply arrO_2. Qed.
Lemma fst_I1 w : (fst (I1 w) < 2)%nat.
Proof. rewrite I1_is. destruct (t_cld1 (T w)); [apply fst_O|cbn; lia]. Qed.
Lemma snd_arr : snd O = 0 /\ (forall w, snd (I1 w) = 0) /\ snd I2 = 0.
Proof.
  assert (snd O = 0) by apply snd_arrO. split; auto. split.
  - intros w. rewrite I1_is. destruct (t_cld1 (T w)); auto.
  - unfold I2. destruct preserve; auto.
Qed.

(** after the first local transposition *)
Notation M1 := (m1 T inplace m0).
Lemma before_data w i j v : 0 <= w < C -> 0 <= i < share nx B w -> 0 <= j < ny -> 0 <= v < vn ->
  M1 w (fst (I1 w)) ((j * share nx B w + i) * vn + v) = X (w * B + i) j v.
Proof.
  intros Hw Hi Hj Hv. pose proof B_pos as HB. assert (Es : share nx B w = share nx blk w) by (apply canon_share; lia).
  assert (Ew : w * B = w * blk) by (apply canon_start; auto; try lia; rewrite <- Es; lia).
  rewrite Ew. unfold m1, as_arrays at 1. fold O. pose proof (I1_is w) as EI. destruct (HT w Hw) as [c1 c2 c2r c3 rI rO b Hc Hpost].
  cbn [t_cld1 t_before] in *. change (fst (snd pr)) with (tin || (B =? 1)) in Hc. unfold t_before. cbn [t_cld1].
  destruct (tin || (B =? 1)) eqn:Et.
  - subst c1. rewrite EI. change (fst arrI) with 0%nat. rewrite as_mem_arrays. rewrite <- Hin by (auto; lia). f_equal. f_equal. unfold place.
    destruct tin; [now rewrite Es|]. cbn [orb] in Et. apply Z.eqb_eq in Et.
    assert (share nx B w = 1) by (unfold share in *; lia). rewrite H in *. assert (i = 0) by lia. subst i. f_equal. f_equal. lia.
  - destruct Hc as (c & -> & Hc). rewrite EI. rewrite p_is in Hc. cbn [p_nx p_ny p_vn p_block] in Hc. unfold b in Hc. rewrite p_is in Hc. cbn [p_nx p_block] in Hc.
    rewrite block_share in Hc by lia.
    destruct (transpose_copy qs Hq inplace (share nx B w) ny vn c arrI O (as_mem (as_arrays (m0 w)))) as [V _];
      [apply share_nonneg|lia|lia|exact Hc|apply arrO_ok|cbn; lia|apply fst_O|].
    specialize (V i j v Hi Hj Hv). replace (fst O, (j * share nx B w + i) * vn + v) with (sh O ((j * share nx B w + i) * vn + v)).
    2:{ unfold sh. f_equal. destruct snd_arr as [-> _]. lia. }
    rewrite V, as_mem_arrays. rewrite <- Hin by (auto; lia). f_equal. unfold sh, arrI. cbn [fst snd]. f_equal. unfold place.
    apply orb_false_iff in Et as [-> _]. lia.
Qed.
Lemma before_frame w a x : 0 <= w < C -> (a < 2)%nat -> (~ 0 <= x < share nx B w * ny * vn \/ a <> fst O) -> M1 w a x = m0 w (a, x).
Proof.
  intros Hw Ha N. pose proof B_pos as HB. unfold m1, as_arrays at 1. fold O. unfold t_before. destruct (HT w Hw) as [c1 c2 c2r c3 rI rO b Hc Hpost]. cbn [t_cld1].
  destruct (fst (snd pr)); [subst c1; apply as_mem_arrays|]. destruct Hc as (c & -> & Hc).
  rewrite p_is in Hc. cbn [p_nx p_ny p_vn p_block] in Hc. unfold b in Hc. rewrite p_is in Hc. cbn [p_nx p_block] in Hc. rewrite block_share in Hc by lia.
  destruct (transpose_copy qs Hq inplace (share nx B w) ny vn c arrI O (as_mem (as_arrays (m0 w)))) as [_ F];
    [apply share_nonneg|lia|lia|exact Hc|apply arrO_ok|cbn; lia|apply fst_O|].
  rewrite F; auto. intros y Hy E. injection E as E1 E2. destruct N as [N|N]; [|contradiction]. assert (E0 : snd O = 0) by apply snd_arrO. lia.
Qed.


(** after the exchange *)
Lemma inactive w : P <= w -> share nx B w = 0 /\ share ny TB w = 0.
Proof.
  intros Hw. pose proof P_pos. pose proof B_pos. pose proof TB_pos. assert (Hw0 : 0 <= w) by lia. rewrite P_is in Hw. unfold npes in Hw. rewrite p_is in *. cbn [p_nx p_ny p_block p_tblock] in *.
  rewrite <- !block_share by lia. pose proof (block_nonneg nx B w ltac:(lia)). pose proof (block_nonneg ny TB w ltac:(lia)).
  pose proof (block_pos nx B w ltac:(lia) ltac:(lia) ltac:(lia)). pose proof (block_pos ny TB w ltac:(lia) ltac:(lia) ltac:(lia)). lia.
Qed.
Lemma active w : 0 <= w -> 0 < share nx B w -> w < P.
Proof. intros Hw H. destruct (Z_lt_le_dec w P); auto. destruct (inactive w); lia. Qed.

Lemma exch_received s : finished A P s -> Inv P A M1 s -> (forall w, P <= w -> ps_mem (procs s w) = M1 w) ->
  forall w, 0 <= w < C -> received p w (fun i j v => X i (w * TB + j) v) (as_mem (ps_mem (procs s w))) I2.
Proof.
  intros F IV Out w Hw. pose proof B_pos as HB. pose proof TB_pos as HTB. pose proof P_pos as HP1.
  assert (Ebt : block (p_ny p) (p_tblock p) w = share ny TB w) by (rewrite p_is; apply block_share; lia).
  destruct (Z_lt_le_dec w P) as [LP|LP].
  2:{ destruct (inactive w LP) as [_ Z0]. rewrite Z0 in Ebt. split; intros; exfalso; rewrite Ebt in *; lia. }
  destruct (finished_result P A M1) with (s := s) (w := w) as [R1 _]; auto; [|lia|].
  { unfold A, exchange_args. rewrite P_is. apply call_ok; [apply p_ok|]. intros v Hv. apply HS. rewrite P_is. auto. }
  unfold A, exchange_args in R1. cbn [call_of ta_sbs ta_sbo ta_rbs ta_rbo ta_I ta_O] in R1. fold O in R1. rewrite out_arr in R1 by auto.
  unfold reg, rbs, rbo, sbo, my_b, my_bt in R1. rewrite Ebt in R1. rewrite p_is in R1. cbn [p_nx p_ny p_vn p_block p_tblock] in R1.
  assert (CW : forall j, 0 <= j < share ny TB w -> 0 <= w * TB + j < ny) by (unfold share; nia).
  assert (G : forall pe i j v, 0 <= pe < P -> 0 <= i < share nx B pe -> 0 <= j < share ny TB w -> 0 <= v < vn ->
     as_mem (ps_mem (procs s w)) (sh I2 (pe * (B * share ny TB w) * vn + ((j * share nx B pe + i) * vn + v))) = X (pe * B + i) (w * TB + j) v).
  { intros pe i j v Hpe Hi Hj Hv. unfold as_mem, sh. cbn [fst snd]. destruct snd_arr as (_ & _ & ->). rewrite Z.add_0_l.
    specialize (R1 pe (pe * (B * share ny TB w) * vn + ((j * share nx B pe + i) * vn + v)) Hpe). rewrite block_share in R1 by lia. rewrite R1.
    2:{ assert (0 <= j * share nx B pe) by nia. assert (j * share nx B pe + i < share ny TB w * share nx B pe) by nia.
        assert (0 <= (j * share nx B pe + i) * vn) by nia. assert ((j * share nx B pe + i) * vn + v < share ny TB w * share nx B pe * vn) by nia. lia. }
    rewrite <- (before_data pe i (w * TB + j) v) by (auto; lia). f_equal. ring. }
  unfold received. rewrite Ebt. rewrite p_is. cbn [p_nx p_vn p_block].
  assert (NF := nxb_facts (mkpt nx ny vn B TB) w Hnx HB). cbn [p_nx p_block] in NF. destruct NF as (N1 & N2 & N3).
  set (nxb := Z.quot nx B) in *. set (nxr := nx - nxb * B) in *. split.
  - intros q i j v Hq' Hi Hj Hv. assert (Sq : share nx B q = B) by (unfold share; nia).
    rewrite <- (G q i j v); auto.
    + f_equal. f_equal. rewrite Sq. ring.
    + split; [lia|]. apply active; lia.
    + now rewrite Sq.
  - intros i j v Hi Hj Hv. assert (Sq : share nx B nxb = nxr) by (unfold share; lia).
    rewrite <- (G nxb i j v); auto.
    + f_equal. f_equal. rewrite Sq. ring.
    + split; [lia|]. apply active; lia.
    + now rewrite Sq.
Qed.
Lemma exch_frame s : finished A P s -> Inv P A M1 s -> (forall w, P <= w -> ps_mem (procs s w) = M1 w) ->
  forall w a x, 0 <= w < C -> (~ 0 <= x < nx * share ny TB w * vn \/ a <> fst I2) -> ps_mem (procs s w) a x = M1 w a x.
Proof.
  intros F IV Out w a x Hw N. pose proof B_pos as HB. pose proof TB_pos as HTB.
  destruct (Z_lt_le_dec w P) as [LP|LP]; [|now rewrite Out].
  destruct (finished_result P A M1) with (s := s) (w := w) as [_ R2]; auto; [|lia|].
  { unfold A, exchange_args. rewrite P_is. apply call_ok; [apply p_ok|]. intros v Hv. apply HS. rewrite P_is. auto. }
  unfold A, exchange_args in R2. cbn [call_of ta_sbs ta_sbo ta_rbs ta_rbo ta_I ta_O] in R2. fold O in R2. rewrite out_arr in R2 by auto.
  apply R2. destruct N as [N|N]; [right|now left]. intros pe Hpe [H1 H2]. apply N.
  unfold rbs, rbo, my_b, my_bt in *. rewrite p_is in *. cbn [p_nx p_ny p_vn p_block p_tblock] in *. rewrite !block_share in * by lia.
  set (t := share ny TB w) in *. assert (0 <= t) by apply share_nonneg.
  assert (0 <= t * vn) by nia. assert (0 <= pe * (B * t) * vn) by nia. split; [lia|].
  assert (0 < share nx B pe). { destruct (Z.eq_dec (share nx B pe) 0) as [E|]; [rewrite E in *; lia|]. pose proof (share_nonneg nx B pe). lia. }
  assert (pe * B + share nx B pe <= nx) by (unfold share in *; lia).
  assert (pe * (B * t) * vn + share nx B pe * t * vn = (pe * B + share nx B pe) * (t * vn)) by ring. nia.
Qed.

Lemma main : forall n d, dsteps C P T A inplace eager n (dstart m0) d ->
  ~ dwrong P A d /\ Z.of_nat n <= 3 * P * P + 2 * C /\
  (all_done C d \/ exists e, dstep C P T A inplace eager d e) /\
  (all_done C d -> forall w, 0 <= w < C -> let m' := ps_mem (procs (d_g d) w) in
    (forall i j v, 0 <= i < nx -> 0 <= j < share ny tblk w -> 0 <= v < vn ->
       m' (fst O) (place tout (share ny tblk w) nx vn j i v) = X i (w * tblk + j) v) /\
    (forall a x, (a < 2)%nat -> ~ 0 <= x < Z.max (share nx blk w * ny) (nx * share ny tblk w) * vn -> m' a x = m0 w (a, x)) /\
    (preserve = true -> inplace = false -> forall x, m' 0%nat x = m0 w (0%nat, x))).
Proof.
  intros n d ST. pose proof B_pos as HB. pose proof TB_pos as HTB. pose proof P_pos as HP1.
  assert (EO : exch_ok P A) by (unfold A, exchange_args; rewrite P_is; apply call_ok; [apply p_ok|]; intros v Hv; apply HS; rewrite P_is; auto).
  assert (HPC : 1 <= P <= C) by lia.
  pose proof (sim_steps C P T A inplace eager m0 n d ST) as SM.
  split; [eapply sim_safe; eauto|]. split; [eapply sim_bound; eauto|].
  split; [eapply sim_progress; eauto|].
  intros AD w Hw. edestruct (sim_result C P T A inplace eager m0) as (s & F & IV & Out & R); eauto. rewrite R by auto. fold O.
  pose proof (exch_received s F IV Out w Hw) as RC. pose proof (exch_frame s F IV Out w) as XF.
  assert (Est : share ny TB w = share ny tblk w) by (apply canon_share; lia).
  assert (Esx : share nx B w = share nx blk w) by (apply canon_share; lia).
  assert (Ebt : block (p_ny p) (p_tblock p) w = share ny tblk w) by (rewrite p_is; cbn [p_ny p_tblock]; rewrite block_share by lia; auto).
  set (mx := as_mem (ps_mem (procs s w))) in *.
  pose proof (preserve_is w Hw) as Ep.
  assert (AO : (forall i j v, 0 <= i < p_nx p -> 0 <= j < block (p_ny p) (p_tblock p) w -> 0 <= v < p_vn p ->
       t_after (T w) arrI O mx (sh O (out_off p w (tout || (TB =? 1)) i j v)) = X i (w * TB + j) v) /\
     (forall l, (fst l < 2)%nat -> (forall x, 0 <= x < p_nx p * block (p_ny p) (p_tblock p) w * p_vn p -> l <> sh O x) -> t_after (T w) arrI O mx l = mx l)).
  { destruct (HT w Hw) as [c1 c2 c2r c3 rI rO b Hc Hpost].
    assert (E : t_after (mktp c1 c2 c2r c3 rI rO preserve) arrI O mx = run_after c2 c2r c3 rI rO I2 O mx) by reflexivity. rewrite E.
    apply (after_ok qs Hq p w (fun i j v => X i (w * TB + j) v)) with (ip := inplace || preserve); auto.
    - rewrite Ebt. apply share_nonneg.
    - apply arrI2_ok.
    - unfold I2. destruct preserve; [apply fst_O|cbn; lia].
    - apply fst_O. }
  destruct AO as [AV AF]. rewrite Ebt in *. change (p_nx p) with nx in *. change (p_vn p) with vn in *.
  destruct snd_arr as (SO & _ & SI). cbn zeta. split; [|split].
  - intros i j v Hi Hj Hv. specialize (AV i j v Hi Hj Hv).
    assert (EX : w * TB = w * tblk) by (apply canon_start; lia). rewrite EX in AV. rewrite <- AV. unfold as_arrays, sh. rewrite SO, Z.add_0_l.
    do 2 f_equal. unfold out_off, place. rewrite Ebt. change (p_nx p) with nx. change (p_vn p) with vn.
    destruct tout; [reflexivity|]. cbn [orb]. destruct (Z.eqb_spec TB 1) as [E1|]; [|reflexivity].
    rewrite E1 in Est. assert (share ny tblk w = 1) by (unfold share in *; lia). rewrite H in *. assert (j = 0) by lia. subst j. f_equal. f_equal. lia.
  - intros a x Ha N. unfold as_arrays at 1. rewrite AF; auto.
    + unfold mx, as_mem. cbn [fst snd]. rewrite XF; auto.
      * apply before_frame; auto. left. intros H. apply N. rewrite Esx in H. split; [lia|].
        assert (share nx blk w * ny <= Z.max (share nx blk w * ny) (nx * share ny tblk w)) by lia. nia.
      * left. intros H. apply N. rewrite Est in H. split; [lia|].
        assert (nx * share ny tblk w <= Z.max (share nx blk w * ny) (nx * share ny tblk w)) by lia. nia.
    + intros y Hy E. injection E as E1 E2. rewrite SO in E2. apply N. split; [lia|].
        assert (nx * share ny tblk w <= Z.max (share nx blk w * ny) (nx * share ny tblk w)) by lia. nia.
  - intros Pr Ip x. assert (fst O = 1%nat) by now apply arrO_1.
    unfold as_arrays at 1. rewrite AF; [|cbn; lia|intros y Hy E; injection E as E1 E2; congruence].
    unfold mx, as_mem. cbn [fst snd]. rewrite XF; auto.
    + apply before_frame; auto. right. rewrite H. discriminate.
    + right. unfold I2. rewrite Pr, H. discriminate.
Qed.
End Main.

(** For every matrix, block sizes, layout flags, in place or not, with or
    without preserved input, for every set of local plans the rank-0 solvers can
    build, every behaviour of the MPI library and every interleaving: the
    distributed transpose never overruns a buffer, never gets stuck, finishes
    after at most 3 P^2 + 2 C steps, and then the processes hold the transposed
    matrix; nothing beyond the two blocks of local data is written, and the input
    survives if it was to be preserved. *)
Theorem C44_transpose : forall qs nx ny vn xblock yblock tin tout inplace preserve C P S T eager (m0 : Z -> mem) (X : Z -> Z -> Z -> R),
  qsort_perm qs -> 1 <= nx -> 1 <= ny -> 1 <= vn -> 1 <= xblock -> 1 <= yblock ->
  let (p, tf) := mkproblem_transpose nx ny vn xblock yblock tin tout in
  n_pes_of p = Ret P -> P <= C ->
  (forall w, 0 <= w < P -> mksched p w = Ret (Some (S w))) ->
  (forall w, 0 <= w < C -> tplanned qs p (fst tf) (snd tf) inplace preserve w (T w)) ->
  (forall w i j v, 0 <= w < C -> 0 <= i < share nx xblock w -> 0 <= j < ny -> 0 <= v < vn ->
     m0 w (0%nat, place tin (share nx xblock w) ny vn i j v) = X (w * xblock + i) j v) ->
  let A := exchange_args p P S T inplace in
  forall n d, dsteps C P T A inplace eager n (dstart m0) d ->
  ~ dwrong P A d /\ Z.of_nat n <= 3 * P * P + 2 * C /\
  (all_done C d \/ exists e, dstep C P T A inplace eager d e) /\
  (all_done C d -> forall w, 0 <= w < C -> let m' := ps_mem (procs (d_g d) w) in
    (forall i j v, 0 <= i < nx -> 0 <= j < share ny yblock w -> 0 <= v < vn ->
       m' (if inplace then 0%nat else 1%nat) (place tout (share ny yblock w) nx vn j i v) = X i (w * yblock + j) v) /\
    (forall a x, (a < 2)%nat -> ~ 0 <= x < Z.max (share nx xblock w * ny) (nx * share ny yblock w) * vn -> m' a x = m0 w (a, x)) /\
    (preserve = true -> inplace = false -> forall x, m' 0%nat x = m0 w (0%nat, x))).
Proof.
  intros qs nx ny vn xb yb tin tout inplace preserve C P S T eager m0 X Hq H1 H2 H3 H4 H5.
  pose proof (main qs nx ny vn xb yb tin tout inplace preserve C P S T eager m0 X Hq H1 H2 H3 H4 H5) as M.
  destruct (mkproblem_transpose nx ny vn xb yb tin tout) as [p tf] eqn:E. cbn [fst snd] in M.
  intros HP HC HS HT Hin A n d D. specialize (M HP HC HS HT Hin n d D).
  assert (EO : fst (arrO inplace) = if inplace then 0%nat else 1%nat) by now destruct inplace. rewrite EO in M. exact M.
Qed.
Print Assumptions C44_transpose.

(** ** A concrete case: 5 x 4 numbers, blocks of 2 rows and 2 columns, out of
    place: three processes take part (2, 2 and 1 rows; 2, 2 and 0 columns), a
    fourth one is idle.  All the plans exist. *)
Ltac plan_copy := first
  [ eapply RC_empty; [discriminate|reflexivity]
  | eapply RC_plan; [discriminate|reflexivity|]; eapply RP_rank0; [reflexivity|];
    first [apply R0_iter0; reflexivity | eapply R0_iter1; reflexivity | apply R0_iter; [reflexivity|cbn; lia]] ].
Example C44_case : let pr := mkproblem_transpose 5 4 1 2 2 false false in
  n_pes_of (fst pr) = Ret 3 /\
  (exists S, forall w, 0 <= w < 3 -> mksched (fst pr) w = Ret (Some (S w))) /\
  exists T, forall w, 0 <= w < 4 -> tplanned isort (fst pr) (fst (snd pr)) (snd (snd pr)) false false w (T w).
Proof.
  cbn zeta. split; [vm_compute; reflexivity|]. split.
  - exists (fun w => match mksched (mkpt 5 4 1 2 2) w with Ret (Some l) => l | _ => [] end). intros w Hw.
    assert (w = 0 \/ w = 1 \/ w = 2) as [->|[->| ->]] by lia; vm_compute; reflexivity.
  - assert (G : forall w, In w [0; 1; 2; 3] -> exists tp, tplanned isort (mkpt 5 4 1 2 2) false false false false w tp).
    { intros w Hw.
      assert (P1 : exists c1, rchild0 isort false [mkdim (block 5 2 w) 4 1; mkdim 4 1 (block 5 2 w * 1); mkdim 1 1 1] c1)
        by (destruct Hw as [<-|[<-|[<-|[<-|[]]]]]; eexists; cbn; plan_copy).
      assert (P2 : exists c2 c2r c3 rI rO, posttranspose isort (mkpt 5 4 1 2 2) false false w c2 c2r c3 rI rO).
      { assert (Q1 : exists c2, rchild0 isort false [mkdim 2 (block 4 2 w * 2) 2; mkdim (block 4 2 w) 2 5; mkdim 2 1 1] c2)
          by (destruct Hw as [<-|[<-|[<-|[<-|[]]]]]; eexists; cbn; plan_copy).
        assert (Q2 : exists c2, rchild0 isort false [mkdim (block 4 2 w) 1 5; mkdim 1 1 1] c2)
          by (destruct Hw as [<-|[<-|[<-|[<-|[]]]]]; eexists; cbn; plan_copy).
        destruct Q1 as [c2 Q1]. destruct Q2 as [c2r Q2]. do 5 eexists. apply pt_direct; [reflexivity|now right|exact Q1|].
        change (0 <? 5 - Z.quot 5 2 * 2) with true. cbv iota. split; [reflexivity|]. split; [reflexivity|]. eexists. split; [reflexivity|exact Q2]. }
      destruct P1 as [c1 P1]. destruct P2 as (c2 & c2r & c3 & rI & rO & P2). eexists. apply tpl; [|exact P2]. eexists. split; [reflexivity|exact P1]. }
    destruct (G 0 ltac:(cbn; auto)) as [t0 H0]. destruct (G 1 ltac:(cbn; auto)) as [t1 H1].
    destruct (G 2 ltac:(cbn; auto)) as [t2 H2]. destruct (G 3 ltac:(cbn; auto)) as [t3 H3].
    exists (fun w => if w =? 0 then t0 else if w =? 1 then t1 else if w =? 2 then t2 else t3). intros w Hw.
    assert (w = 0 \/ w = 1 \/ w = 2 \/ w = 3) as [->|[->|[->| ->]]] by lia; auto.
Qed.
