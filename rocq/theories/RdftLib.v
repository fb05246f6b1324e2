(** * Kernels, buffering and canonicalisation for real-to-real problems (proof library) *)
From Coq Require Import Reals ZArith List Lia Lra Bool Permutation.
From Verif Require Import NumTheory Cplx Spec SpecR2R Base TensorModel Offs TensorProofs XForm XKern XSeq CopyModel CopyProofs
  TransProofs Rank0Model Rank0Proofs Rank0Trans DftModel RdftModel DftTw DftTw2 DftComp DftSplit RSum RdftX.
Import ListNotations.
Open Scope Z_scope.

Lemma vals_rx0 vec I O m m' : vals xcopy vec I O m m' <->
  (forall a b, In (a, b) (offs vec) -> m' (sh O b) = m (sh I a)).
Proof.
  rewrite <- rx_nil, vals_rx. split.
  - intros H a b Hab. specialize (H a b Hab [] Logic.I). cbn [ds map ooff rmx] in H. now rewrite !Z.add_0_r in H.
  - intros H a b Hab ks Hks. destruct ks; [|destruct Hks]. cbn [ds map ooff rmx]. rewrite !Z.add_0_r. now apply H.
Qed.

(** ** run and prove one-dimensional transforms *)
(** the conditions under which a one-dimensional solver runs *)
Record W1 (nx : nat) (ip : bool) (I O : loc) (n is os : Z) : Prop := {
  w1_i : (fst I < nx)%nat; w1_o : (fst O < nx)%nat; w1_is : inj1 n is; w1_os : inj1 n os;
  w1_ip : if ip then I = O /\ (forall o, (exists j, 0 <= j < n /\ o = j * is) <-> (exists k, 0 <= k < n /\ o = k * os))
          else forall j k, 0 <= j < n -> 0 <= k < n -> sh I (j * is) <> sh O (k * os) }.
Lemma W1_Wf nx ip I O kd n is os : W1 nx ip I O n is os <-> Wf nx ip I O (rx (x1 kd n is os)) [].
Proof.
  assert (L : forall s o, In o (locs [(n, s)]) <-> exists j, 0 <= j < n /\ o = j * s).
  { intros s o. cbn [locs]. rewrite lplus_0_r. apply in_dimlocs. }
  split.
  - intros [HI HO NI NO HX]. constructor; auto.
    + constructor.
    + rewrite il_x1. now apply inj1_NoDup.
    + rewrite ol_x1. now apply inj1_NoDup.
    + destruct ip.
      * destruct HX as (-> & HX). split; auto. intros o. rewrite il_x1, ol_x1, !L. apply HX.
      * intros l. rewrite il_x1, ol_x1, !InP_x1. intros (j & Hj & ->) (k & Hk & E). now apply (HX j k).
  - intros [V1 V2 V3 V4 V5 V6]. rewrite il_x1 in *. rewrite ol_x1 in *. apply inj1_NoDup in V4, V5.
    constructor; auto. destruct ip.
    + destruct V6 as [-> S]. split; auto. intros o. rewrite <- !L. apply S.
    + intros j k Hj Hk E. apply (V6 (sh I (j * is))); [|rewrite E]; apply InP_x1; eauto.
Qed.
Lemma run_w1 nd ip kd n is os f nx I O m : Correct nd ip (rx (x1 kd n is os)) [] f -> W1 nx ip I O n is os ->
  (forall k, 0 <= k < n -> f nx I O m (sh O (k * os)) = Rsum n (fun j => m (sh I (j * is)%Z) * rk kd n j k)%R) /\
  (forall l, (fst l < nx)%nat -> (forall k, 0 <= k < n -> l <> sh O (k * os)) ->
     nd = true \/ (forall k, 0 <= k < n -> l <> sh I (k * is)) -> f nx I O m l = m l).
Proof.
  intros C HW. apply (W1_Wf _ _ _ _ kd) in HW. destruct (C nx I O m HW) as [V F]. split.
  - intros k Hk. rewrite vals_rx1 in V. specialize (V 0 0 (or_introl eq_refl) k Hk). rewrite Z.add_0_l in V. exact V.
  - intros l Hl Ho Hi. apply F; auto.
    + rewrite ol_x1, InP_x1. intros (k & Hk & E). eapply Ho; eauto.
    + destruct Hi as [Hi|Hi]; [left; auto|right]. rewrite il_x1, InP_x1. intros (k & Hk & E). eapply Hi; eauto.
Qed.
Lemma prove_r1 nd ip kd n is os f :
  (forall nx I O m, W1 nx ip I O n is os ->
    (forall k, 0 <= k < n -> f nx I O m (sh O (k * os)) = Rsum n (fun j => m (sh I (j * is)%Z) * rk kd n j k)%R) /\
    (forall l, (fst l < nx)%nat -> (forall k, 0 <= k < n -> l <> sh O (k * os)) ->
       nd = true \/ (forall k, 0 <= k < n -> l <> sh I (k * is)) -> f nx I O m l = m l)) ->
  Correct nd ip (rx (x1 kd n is os)) [] f.
Proof.
  intros H nx I O m HW. apply W1_Wf in HW. destruct (H nx I O m HW) as [V F].
  split.
  - rewrite vals_rx1. intros a b Hab k Hk. destruct Hab as [E|[]]. injection E as <- <-. rewrite Z.add_0_l, V by auto.
    apply Rsum_ext. intros j Hj. now rewrite Z.add_0_l.
  - intros l Hl Ho Hi. apply F; auto.
    + intros k Hk ->. apply Ho. rewrite ol_x1, InP_x1. eauto.
    + destruct Hi as [Hi|Hi]; [auto|right]. intros k Hk ->. apply Hi. rewrite il_x1, InP_x1. eauto.
Qed.
Lemma W1_same nx n s P : (fst P < nx)%nat -> inj1 n s -> W1 nx true P P n s s.
Proof. intros H K. constructor; auto. split; auto. tauto. Qed.
Lemma W1_disj nx n s u I O : (fst I < nx)%nat -> (fst O < nx)%nat -> inj1 n s -> inj1 n u -> fst I <> fst O -> W1 nx false I O n s u.
Proof. intros H1 H2 K1 K2 D. constructor; auto. intros j k _ _ E. apply D. apply (f_equal fst) in E. exact E. Qed.

(** ** Codelets *)
Lemma xsim_x1 kd n is os : xsim (rx (x1 kd n is os)) (xr2r kd n is os).
Proof.
  unfold xsim. split; [|split].
  - unfold rx, xr2r. cbn [xi]. change (locs (ti (ds (x1 kd n is os)))) with (lplus (dimlocs (n, is)) [0]).
    rewrite lplus_0_r. unfold dimlocs. cbn [fst snd]. reflexivity.
  - rewrite rx_fst. change (locs (to_ (ds (x1 kd n is os)))) with (lplus (dimlocs (n, os)) [0]). rewrite lplus_0_r.
    unfold xr2r, dimlocs. cbn [xo fst snd]. rewrite map_map. cbn [fst]. reflexivity.
  - intros o F H. apply in_rx in H as (ks & Hks & -> & ->). destruct ks as [|k [|? ?]]; cbn in Hks; try tauto.
    exists (fun x => Rsum n (fun j => x (j * is)%Z * rk kd n j k)%R). split.
    + unfold xr2r. cbn [xo]. apply in_map_iff. exists k. split; [|apply in_zr; tauto]. cbn [ds x1 map snd ooff dos]. now rewrite Z.add_0_r.
    + intros x. apply x1_rmx.
Qed.
Lemma same_set_x1 kd n s : same_set (rx (x1 kd n s s)) [].
Proof. intros o. rewrite il_x1, ol_x1. tauto. Qed.
Lemma vloop_x1_correct nd ip kd n is os vl ivs ovs f :
  (ip = true -> vl = 1 \/ ((is = os \/ n = 1) /\ ivs = ovs)) ->
  Correct nd ip (rx (x1 kd n is os)) [] f ->
  Correct nd ip (rx (x1 kd n is os)) [mkdim vl ivs ovs] (vloop vl ivs ovs f).
Proof.
  intros H C. destruct (Z.eq_dec vl 1) as [->|Hv].
  - eapply Correct_ext; [|apply Correct_dim1, C]. intros. unfold vloop. now rewrite zfor_1, !Z.mul_0_l, !sh_0.
  - apply Correct_loop; [apply rx_wf| |exact C]. intros E. destruct (H E) as [?|([->| ->] & ->)]; [easy| |].
    + split; auto. apply same_set_x1.
    + split; auto. intros o. rewrite il_x1, ol_x1. cbn. tauto.
Qed.
Lemma kr2r_correct nd ip kd n is os vl ivs ovs : (ip = true -> vl = 1 \/ (is = os /\ ivs = ovs)) ->
  Correct nd ip (rx (x1 kd n is os)) [mkdim vl ivs ovs] (kr2r kd n is os vl ivs ovs).
Proof.
  intros H. unfold kr2r. apply vloop_x1_correct; [intros E; destruct (H E); tauto|].
  eapply Correct_sim; [apply xsim_x1|apply Permutation_refl|auto|apply kern_correct].
Qed.
Lemma rpos_eq s j : rpos s (2 * s) j = j * s.
Proof. unfold rpos. pose proof (Z.div_mod j 2 ltac:(lia)). rewrite H at 3. ring. Qed.
Lemma cpos_eq kd n s k : cpos kd n (ioffset kd n s) s (- s) k = k * s.
Proof.
  unfold cpos, ioffset. destruct kd; cbn [rkind_eqb orb]; (destruct (Z.leb_spec (2 * k) n); destruct (Z.leb_spec (2 * k) (n - 1)); ring).
Qed.
Lemma r2c_eq kd n is os vl ivs ovs : r2c_apply kd n is os vl ivs ovs = kr2r kd n is os vl ivs ovs.
Proof.
  unfold r2c_apply, kr2r, kr2c. destruct (R2HC_KINDP kd) eqn:E; unfold xr2c; rewrite E; f_equal; f_equal; unfold xr2r; f_equal.
  - apply map_ext. intros j. apply rpos_eq.
  - apply map_ext. intros k. rewrite cpos_eq. apply (f_equal (pair _)).
    apply FunctionalExtensionality.functional_extensionality. intros x. apply Rsum_ext. intros j _. now rewrite rpos_eq.
  - apply map_ext. intros j. apply cpos_eq.
  - apply map_ext. intros k. rewrite rpos_eq. apply (f_equal (pair _)).
    apply FunctionalExtensionality.functional_extensionality. intros x. apply Rsum_ext. intros j _. now rewrite cpos_eq.
Qed.
Lemma r2c_f kd n B os vl ivs ovs : R2HC_KINDP kd = true ->
  kr2c kd n B (2 * B) (ioffset kd n os) os (- os) vl ivs ovs = kr2r kd n B os vl ivs ovs.
Proof. intros E. rewrite <- r2c_eq. unfold r2c_apply. now rewrite E. Qed.
Lemma r2c_b kd n B is vl ivs ovs : R2HC_KINDP kd = false ->
  kr2c kd n B (2 * B) (ioffset kd n is) is (- is) vl ivs ovs = kr2r kd n is B vl ivs ovs.
Proof. intros E. rewrite <- r2c_eq. unfold r2c_apply. now rewrite E. Qed.

(** ** Buffers *)
Lemma NoDup_rbuf n b vl bv : 0 <= n -> 0 <= vl -> (bv = 1 /\ vl <= b) \/ (b = 1 /\ n <= bv) -> NoDup (locs [(n, b); (vl, bv)]).
Proof.
  assert (G : forall n b vl, 0 <= n -> 0 <= vl <= b -> NoDup (locs [(n, b); (vl, 1)])).
  { clear. intros n b vl Hn Hb. refine (proj1 (locs_nest n b _ (n * b) Hn ltac:(lia) ltac:(lia) _ _)).
    - apply inj1_NoDup, inj1_1.
    - intros x Hx. cbn [locs] in Hx. rewrite lplus_0_r in Hx. apply in_dimlocs in Hx as (j & Hj & ->). lia. }
  intros Hn Hv [[-> H]|[-> H]]; [apply G; lia|]. eapply Permutation_NoDup; [apply locs_perm, perm_swap|]. apply G; lia.
Qed.
(** load into the buffer, then transform into the output *)
Lemma load_then nd nd2 ip kd n is os b bv vl ivs ovs f1 f2 : 0 <= n -> 0 <= vl -> NoDup (locs [(n, b); (vl, bv)]) ->
  Correct (nd && negb ip) false xcopy [mkdim n is b; mkdim vl ivs bv] f1 ->
  Correct nd2 false (rx (x1 kd n b os)) [mkdim vl bv ovs] f2 ->
  Correct nd ip (rx (x1 kd n is os)) [mkdim vl ivs ovs] (fun nx I O m => f2 (S nx) (nx, 0) O (f1 (S nx) I (nx, 0) m)).
Proof.
  intros Hn Hv ND C1 C2. rewrite <- rx_nil in C1.
  assert (C2' : Correct false false (rx (x1 kd n b os)) [mkdim vl bv ovs] f2) by (destruct nd2; [now apply Correct_nd|exact C2]).
  refine (Correct_buf2 nd ip _ _ _ _ _ _ f1 f2 (fun nx => (nx, 0)) _ _ _ _ _ _ _ _ C1 C2').
  - reflexivity.
  - repeat constructor; cbn; lia.
  - repeat constructor; cbn; lia.
  - rewrite !il_rx. reflexivity.
  - rewrite !ol_rx. reflexivity.
  - rewrite ol_rx. exact ND.
  - rewrite ol_rx, il_rx. reflexivity.
  - intros nx I O m m1 m2 V1 V2. rewrite rx_nil, vals_rx0 in V1. rewrite vals_rx1 in *.
    intros a b0 Hab k Hk. apply offs1_inv in Hab as (iv & Hiv & -> & ->).
    rewrite (V2 _ _ (offs1_in vl bv ovs iv Hiv) k Hk). apply Rsum_ext. intros j Hj. f_equal.
    rewrite (Z.add_comm (iv * bv)). rewrite (V1 _ _ (offs2_in n is b vl ivs bv j iv Hj Hiv)). do 2 f_equal. ring.
Qed.
(** transform into the buffer, then store *)
Lemma then_store nd nd2 ip kd n is os b bv vl ivs ovs f1 f2 : 0 <= n -> 0 <= vl -> NoDup (locs [(n, b); (vl, bv)]) ->
  Correct (nd && negb ip) false (rx (x1 kd n is b)) [mkdim vl ivs bv] f1 ->
  Correct nd2 false xcopy [mkdim n b os; mkdim vl bv ovs] f2 ->
  Correct nd ip (rx (x1 kd n is os)) [mkdim vl ivs ovs] (fun nx I O m => f2 (S nx) (nx, 0) O (f1 (S nx) I (nx, 0) m)).
Proof.
  intros Hn Hv ND C1 C2. rewrite <- rx_nil in C2.
  assert (C2' : Correct false false (rx []) [mkdim n b os; mkdim vl bv ovs] f2) by (destruct nd2; [now apply Correct_nd|exact C2]).
  refine (Correct_buf2 nd ip _ _ _ _ _ _ f1 f2 (fun nx => (nx, 0)) _ _ _ _ _ _ _ _ C1 C2').
  - reflexivity.
  - repeat constructor; cbn; lia.
  - repeat constructor; cbn; lia.
  - rewrite !il_rx. reflexivity.
  - rewrite !ol_rx. reflexivity.
  - rewrite ol_rx. exact ND.
  - rewrite ol_rx, il_rx. reflexivity.
  - intros nx I O m m1 m2 V1 V2. rewrite rx_nil, vals_rx0 in V2. rewrite vals_rx1 in *.
    intros a b0 Hab k Hk. apply offs1_inv in Hab as (iv & Hiv & -> & ->).
    rewrite (Z.add_comm (iv * ovs)). rewrite (V2 _ _ (offs2_in n b os vl bv ovs k iv Hk Hiv)).
    rewrite (Z.add_comm (k * b)). apply (V1 _ _ (offs1_in vl ivs bv iv Hiv) k Hk).
Qed.
(** load into O, then transform O in place *)
Lemma load_inplace nd nd2 ip kd n is os vl ivs ovs f1 f2 : 0 <= n -> 0 <= vl ->
  Correct nd ip xcopy [mkdim n is os; mkdim vl ivs ovs] f1 ->
  Correct nd2 true (rx (x1 kd n os os)) [mkdim vl ovs ovs] f2 ->
  Correct nd ip (rx (x1 kd n is os)) [mkdim vl ivs ovs] (fun nx I O m => f2 nx O O (f1 nx I O m)).
Proof.
  intros Hn Hv C1 C2. rewrite <- rx_nil in C1.
  refine (Correct_after nd nd2 ip _ _ _ _ _ _ f1 f2 _ _ _ _ _ _ _ C1 C2).
  - intros _. repeat constructor; cbn; lia.
  - intros _. repeat constructor; cbn; lia.
  - rewrite !il_rx. reflexivity.
  - rewrite !ol_rx. reflexivity.
  - rewrite ol_rx, il_rx. reflexivity.
  - rewrite !ol_rx. reflexivity.
  - intros I O m m1 m2 V1 V2. rewrite rx_nil, vals_rx0 in V1. rewrite vals_rx1 in *.
    intros a b0 Hab k Hk. apply offs1_inv in Hab as (iv & Hiv & -> & ->).
    rewrite (V2 _ _ (offs1_in vl ovs ovs iv Hiv) k Hk). apply Rsum_ext. intros j Hj. f_equal.
    rewrite (Z.add_comm (iv * ovs)). rewrite (V1 _ _ (offs2_in n is os vl ivs ovs j iv Hj Hiv)). do 2 f_equal. ring.
Qed.
Lemma drop_vl1 nd ip X a b f : Correct nd ip X [a; b; mkdim 1 1 1] f -> Correct nd ip X [a; b] f.
Proof.
  intros C. eapply Correct_sim; [apply xsim_refl| | |exact C].
  - cbn [offs]. change (oplus (dimoffs (mkdim 1 1 1)) [(0, 0)]) with [(0, 0)]. reflexivity.
  - intros H. inversion H as [|? ? H1 H2]; subst. inversion H2; subst. repeat constructor; auto. cbn. lia.
Qed.

Lemma r2c_dobatch_correct nd ip kd n is os ivs ovs B bsz : 0 <= n -> 0 <= bsz <= B ->
  Correct nd ip (rx (x1 kd n is os)) [mkdim bsz ivs ovs]
    (fun nx I O m => (if R2HC_KINDP kd then r2c_dobatch_f else r2c_dobatch_b) kd n is os ivs ovs B bsz (S nx) (nx, 0) I O m).
Proof.
  intros Hn Hb.
  assert (ND : NoDup (locs [(n, B); (bsz, 1)])) by (apply NoDup_rbuf; lia).
  assert (CI : forall nd, Correct nd false xcopy [mkdim n is B; mkdim bsz ivs 1] (cpy2d_ci n is B bsz ivs 1 1))
    by (intros; apply drop_vl1, cpy2d_ci_correct; lia).
  assert (CO : forall nd, Correct nd false xcopy [mkdim n B os; mkdim bsz 1 ovs] (cpy2d_co n B os bsz 1 ovs 1))
    by (intros; apply drop_vl1, cpy2d_co_correct; lia).
  assert (CB : forall nd, Correct nd false (rx (x1 kd n is B)) [mkdim bsz ivs 1]
             (fun nx I O m => kr2r kd n B B bsz 1 1 nx O O (cpy2d_ci n is B bsz ivs 1 1 nx I O m))).
  { intros nd'. apply load_inplace with (nd2 := true); try lia; [apply CI|]. apply kr2r_correct. auto. }
  destruct (R2HC_KINDP kd) eqn:E.
  - unfold r2c_dobatch_f. destruct (_ <? _).
    + rewrite r2c_f by auto. apply load_then with (b := B) (bv := 1) (nd2 := true); try lia; auto. apply kr2r_correct. discriminate.
    + rewrite r2c_f by auto. 
      exact (then_store nd true ip kd n is os B 1 bsz ivs ovs _ _ ltac:(lia) ltac:(lia) ND (CB _) (CO _)).
  - unfold r2c_dobatch_b. destruct (_ <? _).
    + rewrite r2c_b by auto. apply then_store with (b := B) (bv := 1) (nd2 := true); try lia; auto. apply kr2r_correct. discriminate.
    + rewrite r2c_b by auto. 
      exact (then_store nd true ip kd n is os B 1 bsz ivs ovs _ _ ltac:(lia) ltac:(lia) ND (CB _) (CO _)).
Qed.
Lemma r2c_apply_buf_correct nd ip kd n is os vl ivs ovs : 0 <= n -> 0 <= vl ->
  (ip = true -> vl <= compute_batchsize n \/ (is = os /\ ivs = ovs)) ->
  Correct nd ip (rx (x1 kd n is os)) [mkdim vl ivs ovs] (r2c_apply_buf kd n is os vl ivs ovs).
Proof.
  intros Hn Hv Hip. unfold r2c_apply_buf. cbn zeta. set (B := compute_batchsize n) in *.
  pose proof (batchsize_pos n Hn) as HB. fold B in HB.
  pose proof (nsteps_spec 0 (vl - B) B HB) as (Hc & Hc1 & Hc2). set (c := nsteps 0 (vl - B) B) in *. cbn zeta in *.
  assert (HcB : 0 <= vl - c * B <= B).
  { destruct Hc2 as [->|Hc2]; [lia|]. rewrite Z.mul_sub_distr_r in Hc2. lia. }
  apply (Correct_batch nd ip _ vl ivs ovs c B (vl - c * B)
    (fun nx I O m => (if R2HC_KINDP kd then r2c_dobatch_f else r2c_dobatch_b) kd n is os ivs ovs B B (S nx) (nx, 0) I O m)
    (fun nx I O m => (if R2HC_KINDP kd then r2c_dobatch_f else r2c_dobatch_b) kd n is os ivs ovs B (vl - c * B) (S nx) (nx, 0) I O m)); try lia.
  - apply rx_wf.
  - intros E. destruct (Hip E) as [H|(-> & ->)].
    + left. destruct Hc2 as [?|Hc2]; [lia|]. assert (c <= 0 \/ 1 <= c) as [?|?] by lia; [lia|].
      assert (B <= c * B) by nia. assert (0 <= (c - 1) * B) by nia. lia.
    + right. split; auto. apply same_set_x1.
  - apply r2c_dobatch_correct; lia.
  - apply r2c_dobatch_correct; lia.
Qed.

(** ** rdft/buffered.c *)
Lemma rbuffered_correct nd ip kd n is os vl ivs ovs nb bd f1 f2 fr :
  0 < n -> 0 < vl -> 0 < nb -> n <= bd ->
  (ip = true -> (is = os /\ ivs = ovs) \/ nb = vl) ->
  (Correct (nd && negb ip) false (rx (x1 kd n is 1)) [mkdim nb ivs bd] f1 /\
   Correct false false xcopy [mkdim n 1 os; mkdim nb bd ovs] f2) \/
  (Correct (nd && negb ip) false xcopy [mkdim n is 1; mkdim nb ivs bd] f1 /\
   Correct false false (rx (x1 kd n 1 os)) [mkdim nb bd ovs] f2) ->
  Correct nd (ip && (ivs * (nb * Z.quot vl nb) =? ovs * (nb * Z.quot vl nb))) (rx (x1 kd n is os)) [mkdim (Z.rem vl nb) ivs ovs] fr ->
  Correct nd ip (rx (x1 kd n is os)) [mkdim vl ivs ovs] (rbuffered_apply vl nb ivs ovs f1 f2 fr).
Proof.
  intros Hn Hv Pnb Hbd Hip C12 Cr.
  assert (ND : NoDup (locs [(n, 1); (nb, bd)])) by (apply NoDup_rbuf; lia).
  assert (C1 : Correct nd ip (rx (x1 kd n is os)) [mkdim nb ivs ovs] (fun nx I O m => f2 (S nx) (nx, 0) O (f1 (S nx) I (nx, 0) m))).
  { destruct C12 as [[D1 D2]|[D1 D2]].
    - apply then_store with (b := 1) (bv := bd) (nd2 := false); auto; lia.
    - apply load_then with (b := 1) (bv := bd) (nd2 := false); auto; lia. }
  clear C12. unfold rbuffered_apply. cbn zeta. set (cnt := nsteps nb (vl + 1) nb).
  assert (Ecnt : cnt = Z.quot vl nb /\ vl = cnt * nb + Z.rem vl nb /\ 0 <= cnt /\ 0 <= Z.rem vl nb < nb).
  { pose proof (nsteps_spec nb (vl + 1) nb Pnb) as (A1 & A2 & A3). fold cnt in A1, A2, A3.
    pose proof (Z.quot_rem' vl nb) as Q. pose proof (Z.rem_bound_pos vl nb ltac:(lia) Pnb) as Rb.
    assert (cnt = Z.quot vl nb); [|rewrite H; split; [auto|]; lia].
    destruct A3 as [A3|A3].
    - rewrite A3 in *. rewrite Z.quot_small; lia.
    - assert (cnt <= Z.quot vl nb) by nia. nia. }
  destruct Ecnt as (E1 & E2 & E3 & E4). set (rest := Z.rem vl nb) in *. clearbody rest.
  destruct (Bool.bool_dec ip true) as [Ei|Ei].
  - destruct (Hip Ei) as [(-> & ->)|Env].
    + rewrite Z.eqb_refl, andb_true_r in Cr.
      eapply Correct_ext; [|refine (Correct_batch nd ip _ vl ovs ovs cnt nb rest _ fr (rx_wf _) E3 _ _ E2 _ C1 Cr)]; try lia.
      * intros nx I O m. cbn beta. now rewrite !(Z.mul_comm nb).
      * intros _. right. split; auto. apply same_set_x1.
    + rewrite Env in *. assert (Q : Z.quot vl vl = 1) by (apply Z.quot_same; lia). rewrite Q in *.
      clearbody cnt. rewrite E1 in *. replace rest with 0 in Cr by lia. clear E1 E2.
      eapply Correct_ext; [|refine (Correct_then_zero nd ip _ _ _ (1 * (ivs * vl)) (1 * (ovs * vl)) ivs ovs _ fr _ C1 Cr)].
      * intros nx I O m. cbn beta. rewrite zfor_1. rewrite !Z.mul_0_l, !sh_0. reflexivity.
      * intros H. apply andb_true_iff in H as [H1 H2]. split; auto. apply Z.eqb_eq in H2. lia.
  - apply not_true_is_false in Ei. subst ip. cbn [andb] in Cr.
    eapply Correct_ext; [|refine (Correct_batch nd false _ vl ivs ovs cnt nb rest _ fr (rx_wf _) E3 _ _ E2 _ C1 Cr)]; try lia.
    intros nx I O m. cbn beta. now rewrite !(Z.mul_comm nb).
Qed.
