(** * MpiDistSim: the distributed transpose simulates the exchange *)
From Coq Require Import Reals ZArith List Lia Bool.
From Verif Require Import NumTheory Cplx Spec Base TensorModel Offs XForm MpiModel MpiProofs MpiTransModel MpiSched MpiExch MpiDistModel.
Import ListNotations.
Open Scope Z_scope.

Lemma dec_bounded (Q : Z -> Prop) n : (forall w, Q w \/ ~ Q w) -> (exists w, 0 <= w < n /\ Q w) \/ (forall w, 0 <= w < n -> ~ Q w).
Proof.
  intros D. assert (G : forall k, (exists w, 0 <= w < Z.of_nat k /\ Q w) \/ (forall w, 0 <= w < Z.of_nat k -> ~ Q w)).
  { induction k as [|k [(w & Hw & HQ)|IH]]; [right; intros; lia|left; exists w; split; [lia|auto]|].
    destruct (D (Z.of_nat k)) as [HQ|HQ]; [left; exists (Z.of_nat k); split; [lia|auto]|right].
    intros w Hw. destruct (Z.eq_dec w (Z.of_nat k)) as [->|]; auto. apply IH. lia. }
  destruct (Z_lt_le_dec n 0); [right; intros; lia|]. specialize (G (Z.to_nat n)). rewrite Z2Nat.id in G by lia. exact G.
Qed.

Section Sim.
Variables (C P : Z) (T : Z -> tplan) (A : Z -> targs) (inplace : bool) (eager : Z -> nat -> bool) (m0 : Z -> mem).
Hypothesis HP : 1 <= P <= C.
Hypothesis EO : exch_ok P A.
Definition m1 (w : Z) : pmem R := as_arrays (t_before (T w) arrI (arrO inplace) (as_mem (as_arrays (m0 w)))).

Definition related (d : dst) (s : gst R) : Prop :=
  chan s = chan (d_g d) /\
  forall w, match d_ph d w with
    | Before => procs (d_g d) w = mkps (as_arrays (m0 w)) 0 false false /\ procs s w = mkps (m1 w) 0 false false
    | Exchanging => procs s w = procs (d_g d) w
    | Done => 0 <= w < C /\ (P <= w \/ ps_i (procs s w) = length (ta_sched (A w))) /\
              ps_mem (procs (d_g d) w) = as_arrays (t_after (T w) arrI (arrO inplace) (as_mem (ps_mem (procs s w))))
    end.
Definition score (ph : phase) : Z := match ph with Before => 0 | Exchanging => 1 | Done => 2 end.
Definition total (d : dst) : Z := sumz (fun w => score (d_ph d w)) (zr C).

Lemma lift w (g g' s : gst R) : pstep A P eager w g g' -> procs s w = procs g w -> chan s = chan g ->
  exists s', pstep A P eager w s s' /\ chan s' = chan g' /\ procs s' w = procs g' w /\ (forall v, v <> w -> procs s' v = procs s v /\ procs g' v = procs g v).
Proof.
  intros ST Ep Ec. destruct ST as [g w p Hw Hp E Po TT m'|g w p pe Hw Hp E Ne Po TT msg|g w p pe l1 l2 d Hw Hp E Po Re TT Ch L1|g w p pe Hw Hp E Po Re Sd];
    rewrite <- Ep in Hp.
  - eexists. split; [apply (st_self A P eager s w p); auto|]. cbn [procs chan]. rewrite !upd_same. repeat split; auto; now rewrite upd_other.
  - eexists. split; [apply (st_post A P eager s w p pe); auto|]. cbn [procs chan]. rewrite !upd_same, Ec. repeat split; auto; now rewrite upd_other.
  - eexists. split; [apply (st_deliver A P eager s w p pe l1 l2 d); auto; rewrite Ec; auto|]. cbn [procs chan]. rewrite !upd_same, Ec. repeat split; auto; now rewrite upd_other.
  - eexists. split; [apply (st_done A P eager s w p pe); auto; rewrite Ec; auto|]. cbn [procs chan]. rewrite !upd_same. repeat split; auto; now rewrite upd_other.
Qed.

Definition simulates (n : nat) (d : dst) : Prop :=
  exists k s, steps A P eager k (start m1) s /\ related d s /\ Z.of_nat n = Z.of_nat k + total d.

Lemma total_upd d w a b : 0 <= w < C -> d_ph d w = a -> sumz (fun v => score (upd (d_ph d) w b v)) (zr C) = total d + (score b - score a).
Proof.
  intros Hw E. unfold total. rewrite (sumz_upd (fun v => score (d_ph d v)) _ (zr C) w (score a - score b)); [lia|apply NoDup_zr|now apply in_zr| |].
  - intros v Nv. now rewrite upd_other.
  - rewrite upd_same, E. lia.
Qed.

Lemma sim_start : simulates 0 (dstart m0).
Proof.
  exists 0%nat, (start m1). split; [constructor|]. split.
  - split; [reflexivity|]. intros w. cbn. auto.
  - unfold total, dstart. cbn [d_ph score]. assert (G : forall l, sumz (fun _ => 0) l = 0) by (induction l; cbn; auto). rewrite G. reflexivity.
Qed.
Lemma sim_step n d e : simulates n d -> dstep C P T A inplace eager d e -> simulates (S n) e.
Proof.
  intros (k & s & ST & [RC RP] & N) D. destruct D as [d w Hw E|d w g' E D|d w Hw E F].
  - exists k, s. split; auto. split.
    + split; [exact RC|]. intros v. cbn [d_ph d_g set_mem procs]. specialize (RP v). destruct (Z.eq_dec v w) as [->|Nv].
      * rewrite !upd_same. rewrite E in RP. destruct RP as [R1 R2]. rewrite R1, R2. reflexivity.
      * rewrite !upd_other by auto. exact RP.
    + unfold total. cbn [d_ph]. rewrite (total_upd d w Before) by auto. cbn [score]. lia.
  - pose proof (RP w) as RW. rewrite E in RW. destruct (lift w _ _ s D RW RC) as (s' & D' & C' & P' & O').
    exists (S k), s'. split; [econstructor; eauto; now exists w|]. split.
    + split; [exact C'|]. intros v. cbn [d_ph d_g]. destruct (Z.eq_dec v w) as [->|Nv].
      * rewrite E. exact P'.
      * destruct (O' v Nv) as [-> ->]. apply RP.
    + unfold total in *. cbn [d_ph]. lia.
  - exists k, s. split; auto. split.
    + split; [exact RC|]. intros v. cbn [d_ph d_g set_mem procs]. specialize (RP v). destruct (Z.eq_dec v w) as [->|Nv].
      * rewrite !upd_same. rewrite E in RP. rewrite RP. auto.
      * rewrite !upd_other by auto. exact RP.
    + unfold total. cbn [d_ph]. rewrite (total_upd d w Exchanging) by auto. cbn [score]. lia.
Qed.
Lemma sim_steps n d : dsteps C P T A inplace eager n (dstart m0) d -> simulates n d.
Proof.
  intros D. remember (dstart m0) as d0 eqn:E0. induction D as [d|n d e f D IH St]; subst; [apply sim_start|]. eapply sim_step; eauto.
Qed.

Lemma total_le d : total d <= 2 * C.
Proof.
  unfold total. assert (G : forall l, sumz (fun w => score (d_ph d w)) l <= 2 * Z.of_nat (length l)).
  { induction l as [|w l IH]; [cbn; lia|]. cbn [sumz fold_right length]. fold (sumz (fun w => score (d_ph d w)) l). destruct (d_ph d w); cbn [score]; lia. }
  specialize (G (zr C)). rewrite length_zr in G by lia. exact G.
Qed.
Lemma sim_bound n d : simulates n d -> Z.of_nat n <= 3 * P * P + 2 * C.
Proof.
  intros (k & s & ST & _ & N). pose proof (steps_work P A eager m1 EO k (start m1) s (Inv_start _ _ _) ST) as W.
  rewrite (work_start P A m1 EO) in W by lia. assert (IV : Inv P A m1 s) by (eapply Inv_steps; eauto; now apply Inv_start).
  pose proof (work_nonneg P A m1 s IV). pose proof (total_le d). lia.
Qed.
Lemma sim_progress n d : simulates n d -> all_done C d \/ exists e, dstep C P T A inplace eager d e.
Proof.
  intros (k & s & ST & [RC RP] & N).
  assert (IV : Inv P A m1 s) by (eapply Inv_steps; eauto; now apply Inv_start).
  destruct (dec_bounded (fun w => d_ph d w = Before) C) as [(w & Hw & E)|NB].
  { intros w. destruct (d_ph d w); [now left|now right..]. }
  { right. eexists. apply (ds_before C P T A inplace eager d w); auto. }
  destruct (dec_bounded (fun w => d_ph d w = Exchanging /\ (P <= w \/ ps_i (procs (d_g d) w) = length (ta_sched (A w)))) C) as [(w & Hw & E & F)|NX].
  { intros w. destruct (d_ph d w); [right; intros [? _]; discriminate| |right; intros [? _]; discriminate].
    destruct (Z_le_gt_dec P w); [left; auto|]. destruct (Nat.eq_dec (ps_i (procs (d_g d) w)) (length (ta_sched (A w)))); [left; auto|right; intros [_ [?|?]]; [lia|contradiction]]. }
  { right. eexists. apply (ds_after C P T A inplace eager d w); auto. }
  destruct (dec_bounded (fun w => d_ph d w = Exchanging) C) as [(w & Hw & E)|ND].
  { intros w. destruct (d_ph d w); [now right|now left|now right]. }
  2:{ left. intros w Hw. specialize (NB w Hw). specialize (ND w Hw). destruct (d_ph d w); tauto. }
  right. assert (NF : ~ finished A P s).
  { intros F. apply (NX w Hw). split; auto. destruct (Z_le_gt_dec P w); [now left|right]. specialize (RP w). rewrite E in RP. rewrite <- RP. apply F. lia. }
  destruct (progress P A eager m1 EO s IV ltac:(lia) NF) as (t & v & St).
  assert (Hv : 0 <= v < P /\ exists q, nth_error (ta_sched (A v)) (ps_i (procs s v)) = Some q).
  { destruct St as [s w' p Hw' -> E' ?|s w' p pe Hw' -> E' ? ?|s w' p pe l1 l2 dd Hw' -> E' ? ? ? ? ?|s w' p pe Hw' -> E' ? ? ?]; split; auto; eexists; exact E'. }
  destruct Hv as [Hv (q & Eq)]. pose proof (RP v) as RV. specialize (NB v ltac:(lia)). destruct (d_ph d v) eqn:Ev; [contradiction| |].
  - destruct (lift v s t (d_g d) St ltac:(auto) ltac:(auto)) as (g' & Sg & _). eexists. apply (ds_exchange C P T A inplace eager d v g'); auto.
  - exfalso. destruct RV as (_ & [L|L] & _); [lia|]. rewrite L in Eq. assert (length (ta_sched (A v)) < length (ta_sched (A v)))%nat by (apply nth_error_Some; congruence). lia.
Qed.
Lemma sim_safe n d : simulates n d -> ~ dwrong P A d.
Proof.
  intros (k & s & ST & [RC RP] & N) (w & Hw & Ew & W). assert (IV : Inv P A m1 s) by (eapply Inv_steps; eauto; now apply Inv_start).
  apply (not_wrong P A m1 EO s IV). exists w. split; auto. specialize (RP w). rewrite Ew in RP.
  unfold wrong_at in *. now rewrite RP, RC.
Qed.
Lemma outside k s w : steps A P eager k (start m1) s -> ~ 0 <= w < P -> procs s w = mkps (m1 w) 0 false false.
Proof.
  intros ST Hw. remember (start m1) as s0 eqn:E0. induction ST as [s|n s t u ST IH [v St]]; subst; [reflexivity|]. rewrite <- IH by auto.
  destruct St; cbn [procs]; rewrite upd_other; auto; intros ->; lia.
Qed.
(** the final memory of each process *)
Lemma sim_result n d : simulates n d -> all_done C d -> exists s, finished A P s /\ Inv P A m1 s /\
  (forall w, P <= w -> ps_mem (procs s w) = m1 w) /\
  forall w, 0 <= w < C -> ps_mem (procs (d_g d) w) = as_arrays (t_after (T w) arrI (arrO inplace) (as_mem (ps_mem (procs s w)))).
Proof.
  intros (k & s & ST & [RC RP] & N) AD. exists s. split; [|split; [|split]].
  - intros w Hw. specialize (RP w). rewrite AD in RP by lia. destruct RP as (_ & [L|L] & _); [lia|auto].
  - eapply Inv_steps; eauto; now apply Inv_start.
  - intros w Hw. rewrite (outside k s w ST) by lia. reflexivity.
  - intros w Hw. specialize (RP w). rewrite AD in RP by auto. tauto.
Qed.
End Sim.
