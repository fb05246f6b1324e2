(** * Every plan for an r2r problem computes the transform *)
From Coq Require Import Reals ZArith Znumtheory List Lia Bool Permutation.
From Verif Require Import NumTheory Cplx Spec SpecR2R Base PrimesModel PrimesProofs TensorModel Offs TensorProofs XForm XKern XSeq
  CopyModel CopyProofs TransProofs Rank0Model Rank0Proofs Rank0Plans DftModel RdftModel DftTw DftTw2 DftComp DftSplit DftPrime DftProofs XPar
  RSum RdftX RdftLib RdftCanon RdftLoop RMath RdftDht RdftGen RdftReo RdftPad RdftOdd RdftRad RdftSplit HcModel HcMath HcLib HcStep HcGen HcBuf HcComp.
Import ListNotations.
Open Scope Z_scope.

Lemma ss_except t i : same_strides t -> same_strides (tensor_copy_except t i).
Proof.
  unfold same_strides. rewrite !Forall_forall. intros H d Hd. apply H. unfold tensor_copy_except in Hd.
  apply in_app_or in Hd as [Hd|Hd].
  - rewrite <- (firstn_skipn i t). apply in_or_app. now left.
  - rewrite <- (firstn_skipn (S i) t). apply in_or_app. now right.
Qed.
Lemma okip_false sz vec : okip false sz vec. Proof. discriminate. Qed.
Lemma okip_kind ip kd d vec : reodft kd = false -> okip ip [(kd, d)] vec.
Proof. intros H _. left. repeat constructor. exact H. Qed.
Lemma okip_nil ip vec : okip ip [] vec.
Proof. intros _. left. constructor. Qed.
Lemma okip_ss ip sz vec : same_strides (ds sz ++ vec) -> okip ip sz vec.
Proof. intros H _. now right. Qed.
Lemma rpos1 kd n is os : 0 < n -> rpos_d [(kd, mkdim n is os)].
Proof. intros. repeat constructor. assumption. Qed.
Lemma nneg1 n is os : 0 <= n -> nnegd [mkdim n is os].
Proof. intros. repeat constructor. assumption. Qed.
Lemma rpos1_inv kd n is os l : rpos_d ((kd, mkdim n is os) :: l) -> 0 < n.
Proof. intros H. apply Forall_inv in H. exact H. Qed.

(** the vector condition for the solvers that loop over the vector without a stride check *)
Lemma okip_vloop ip kd n is os vec vl ivs ovs : reodft kd = true -> okip ip [(kd, mkdim n is os)] vec ->
  tensor_tornk1 vec = Some (vl, ivs, ovs) -> ip = true -> vl = 1 \/ ((is = os \/ n = 1) /\ ivs = ovs).
Proof.
  intros K H T E. destruct (H E) as [H'|H'].
  - apply Forall_inv in H'. cbn in H'. congruence.
  - cbn [ds map snd app] in H'. pose proof (Forall_inv H') as A. apply Forall_inv_tail in H'. cbn in A.
    destruct vec as [|d [|? ?]]; cbn in T; try discriminate; injection T as <- <- <-; [now left|].
    apply Forall_inv in H'. tauto.
Qed.
Lemma okip_vec ip kd n is os vec vl ivs ovs c : okip ip [(kd, mkdim n is os)] vec ->
  tensor_tornk1 vec = Some (vl, ivs, ovs) -> no1 vec -> okip ip [(kd, mkdim n is os)] [mkdim c ivs ovs].
Proof.
  intros H T N E. destruct (H E) as [H'|H']; [now left|right].
  cbn [ds map snd app] in *. constructor; [exact (Forall_inv H')|]. apply Forall_inv_tail in H'.
  destruct vec as [|d [|? ?]]; cbn in T; try discriminate; injection T as <- <- <-.
  - constructor; [now right|constructor].
  - apply Forall_inv in H'. apply Forall_inv in N. constructor; [|constructor]. right. cbn. lia.
Qed.

(** location sets in place *)
Lemma locs1_in n s o : In o (locs [(n, s)]) <-> exists k, 0 <= k < n /\ o = k * s.
Proof. cbn [locs]. rewrite lplus_0_r. apply in_dimlocs. Qed.
Lemma twice_locs n s : 1 < n -> s <> 0 -> Permutation (locs [(n, 2 * s)]) (locs [(n, s)]) -> False.
Proof.
  intros Hn Hs P. assert (Q : In ((n - 1) * (2 * s)) (locs [(n, s)])).
  { eapply Permutation_in; [exact P|]. apply locs1_in. exists (n - 1). lia. }
  apply locs1_in in Q as (k & Hk & E). assert (s * (2 * (n - 1) - k) = 0) by lia. apply Z.mul_eq_0 in H as [H|H]; lia.
Qed.

Definition RPpl (nd ip : bool) (sz : list rdim) (vec : list iodim) (f : rapply) : Prop :=
  rpos_d sz -> no1 vec -> okip ip sz vec -> Correct nd ip (rx sz) vec f.
Definition RPch (nd ip : bool) (sz : list rdim) (vec : list iodim) (f : rapply) : Prop :=
  rpos_d sz -> nnegd vec ->
  (ip = true -> Permutation (locs (ti (ds sz ++ vec))) (locs (to_ (ds sz ++ vec)))) /\
  (okip ip sz vec -> Correct nd ip (rx sz) vec f).

Definition RPhc (nd : bool) (kd : rkind) (r m ms v vs mstart mcount : Z) (w : wapply) : Prop :=
  kd = R2HC \/ kd = HC2R -> 0 < r -> 0 < m -> 0 <= v -> 0 <= mstart -> 0 < mcount -> 2 * (mstart + mcount - 1) <= m ->
  CorrectW (xhc kd r m ms mstart mcount) [mkdim v vs vs] w.
Lemma hc_child0 nd (b : bool) kd r s f : 0 < r -> reodft kd = false -> RPch nd true (if b then [(kd, mkdim r s s)] else []) [] f ->
  Correct nd true (rx (if b then [(kd, mkdim r s s)] else [])) [] f.
Proof.
  intros Hr Hk H. destruct b.
  - apply H; [now apply rpos1|constructor|now apply okip_kind].
  - apply H; [constructor|constructor|apply okip_nil].
Qed.
Lemma kd_mid_ok kd : kd = R2HC \/ kd = HC2R -> reodft kd = false /\ reodft (kd_mid kd) = false.
Proof. intros [->| ->]; split; reflexivity. Qed.
Lemma radix_divides M r n d : choose_radix M r n = Ret d -> 0 < d -> 1 < n -> (d | n).
Proof. intros H1 H2 H3. destruct (Z.eq_dec d 1) as [->|]; [apply Z.divide_1_l|]. eapply choose_radix_partial; eauto. lia. Qed.
Lemma mcount_ok m : 0 < m -> Z.quot (m + 2) 2 = (m + 2) / 2 /\ 0 < (m + 2) / 2 /\ 2 * ((m + 2) / 2 - 1) <= m.
Proof.
  intros Hm. rewrite Z.quot_div_nonneg by lia. pose proof (Z.div_mod (m + 2) 2 ltac:(lia)). pose proof (Z.mod_pos_bound (m + 2) 2 ltac:(lia)). lia.
Qed.

Theorem rplanned_correct qs : qsort_perm qs ->
  (forall nd ip sz vec f, rplanned qs nd ip sz vec f -> RPpl nd ip sz vec f) /\
  (forall nd kd r m ms v vs mstart mcount w, hplanned qs nd kd r m ms v vs mstart mcount w -> RPhc nd kd r m ms v vs mstart mcount w) /\
  (forall nd ip sz vec f, rchild qs nd ip sz vec f -> RPch nd ip sz vec f).
Proof.
  intros Hq. apply rplanned_ind2.
  - (* rank 0 *) intros nd ip vec f H P N K. rewrite rx_nil.
    assert (C : Correct true ip xcopy vec f) by (eapply (proj1 (rank0_correct qs Hq)); eauto).
    destruct nd; [exact C|now apply Correct_nd].
  - (* direct r2r *) intros nd ip kd [n is os] vec vl ivs ovs T S P N K. eapply Correct_tornk1; [exact T|]. cbn [dn dis dos].
    apply (kr2r_correct nd ip kd). intros E. destruct S as [S|[S|S]]; [congruence|auto|]. destruct (tornk1_eq _ _ _ _ _ T S). auto.
  - (* direct r2c *) intros nd ip kd [n is os] vec vl ivs ovs _ T S P N K. eapply Correct_tornk1; [exact T|]. cbn [dn dis dos].
    rewrite r2c_eq. apply (kr2r_correct nd ip kd). intros E. destruct S as [S|[S|S]]; [congruence|auto|]. destruct (tornk1_eq _ _ _ _ _ T S). auto.
  - (* direct r2c buf *) intros nd ip kd [n is os] vec vl ivs ovs _ T S P N K. eapply Correct_tornk1; [exact T|]. cbn [dn dis dos] in *.
    pose proof (tornk1_pos _ _ _ _ T N). apply rpos1_inv in P.
    apply (r2c_apply_buf_correct nd ip kd); try lia. intros E. destruct S as [S|[S|S]]; [congruence| |auto]. destruct (tornk1_eq _ _ _ _ _ T S). auto.
  - (* vrank *) intros nd ip sz vec i d f H1 H2 H3 _ IH P N K.
    assert (NN : nnegd (tensor_copy_except vec i)) by (apply nnegd_except, posd_nneg, no1_pos, N).
    destruct (IH P NN) as [Q C]. apply (rvrank_correct nd ip sz vec i); auto. apply C.
    intros E. destruct (K E) as [K'|K']; [now left|right]. apply ss_app in K' as [K1 K2]. apply ss_app. split; auto. now apply ss_except.
  - (* thr vrank *) intros nd ip sz vec i d nthr fs ord Ht H2 H3 _ IH HP P N K.
    assert (Hd : In d vec) by (eapply nth_error_In; eauto).
    assert (Hdn : 1 < dn d) by (unfold no1 in N; rewrite Forall_forall in N; specialize (N d Hd); lia).
    assert (NN : forall j, 0 <= j < thr_nb (dn d) nthr -> nnegd (set_nth vec i (mkdim (thr_cnt (dn d) nthr j) (dis d) (dos d)))).
    { intros j Hj. apply set_nth_Forall; [apply posd_nneg, no1_pos, N|]. cbn [dn].
      destruct (thr_block (dn d) nthr j ltac:(lia) ltac:(lia) Hj). lia. }
    eapply Correct_vperm; [apply copy_except_perm; exact H2|].
    replace d with (mkdim (dn d) (dis d) (dos d)) at 1 by now destruct d.
    apply Correct_cut; auto; try lia; try apply rx_wf.
    + intros E. split; [auto|]. intros j Hj. destruct (IH j Hj P (NN j Hj)) as [Q _].
      apply same_set_rx.
      assert (Q' : Permutation (set_nth vec i (mkdim (thr_cnt (dn d) nthr j) (dis d) (dos d)))
                   (mkdim (thr_cnt (dn d) nthr j) (dis d) (dos d) :: tensor_copy_except vec i)) by (eapply set_nth_perm; eauto).
      eapply perm_trans; [|eapply perm_trans; [exact (Q E)|]]; apply locs_perm; unfold ti, to_; apply Permutation_map, Permutation_app_head;
        [symmetry|]; exact Q'.
    + intros j Hj. destruct (IH j Hj P (NN j Hj)) as [_ C].
      eapply Correct_vperm; [symmetry; eapply set_nth_perm; eauto|]. apply C.
      intros E. destruct (K E) as [K'|K']; [now left|right]. apply ss_app in K' as [K1 K2]. apply ss_app. split; auto.
      apply set_nth_Forall; [exact K2|]. cbn. right. auto.
  - (* rank2 *) intros nd ip sz vec k f1 f2 Hk _ I1 _ I2 P N K.
    rewrite <- (firstn_skipn k sz) in P, K |- *. set (s1 := firstn k sz) in *. set (s2 := skipn k sz) in *. clearbody s1 s2.
    pose proof (proj1 (Forall_app _ _ _) P) as [P1 P2]. pose proof (proj1 (rpos_ds _) P1) as P1'. pose proof (proj1 (rpos_ds _) P2) as P2'.
    pose proof (no1_pos _ N) as PN.
    apply rrank2_correct with (nd2 := nd); try now apply posd_nneg.
    + apply I1; auto.
      * apply nnegd_app. split; now apply posd_nneg.
      * intros E. destruct (K E) as [K'|K']; [left|right].
        -- now apply Forall_app in K' as [_ K'].
        -- rewrite ds_app in K'. eapply ss_perm; [|exact K']. rewrite <- app_assoc. rewrite Permutation_app_comm, <- app_assoc. reflexivity.
    + apply I2; auto.
      * apply rpos_ds. rewrite ds_rip. now apply posd_inplace.
      * apply nnegd_app. split; now apply posd_nneg, posd_inplace.
      * apply okip_ss. rewrite ds_rip. apply ss_app. split; [apply ss_os|]. apply ss_app. split; apply ss_os.
  - (* before *) intros nd ip sz vec fc f H _ I1 _ I2 P N K.
    pose proof (proj1 (rpos_ds _) P) as P'. pose proof (no1_pos _ N) as PN.
    rewrite <- (app_nil_r sz). apply rrank2_correct with (nd2 := nd).
    + now apply posd_nneg.
    + constructor.
    + apply I1; [constructor|apply nnegd_app; split; now apply posd_nneg|apply okip_nil].
    + cbn [ds map tensor_copy_inplace]. rewrite app_nil_r. apply I2.
      * apply rpos_ds. rewrite ds_rip. now apply posd_inplace.
      * now apply posd_nneg, posd_inplace.
      * apply okip_ss. rewrite ds_rip. apply ss_app. split; apply ss_os.
  - (* after *) intros nd ip sz vec fc f H Hd _ I1 _ I2 P N K.
    pose proof (proj1 (rpos_ds _) P) as P'. pose proof (no1_pos _ N) as PN.
    apply rafter_correct with (nd1 := nd); auto; [now apply posd_nneg| |].
    + rewrite <- rx_nil. apply I1; [constructor|apply nnegd_app; split; now apply posd_nneg|apply okip_nil].
    + apply I2.
      * apply rpos_ds. rewrite ds_rip. now apply posd_inplace.
      * now apply posd_nneg, posd_inplace.
      * apply okip_ss. rewrite ds_rip. apply ss_app. split; apply ss_os.
  - (* buffered *) intros nd ip kd n is os vec vl ivs ovs maxnb nb bd fb fc fr Hk T HM H3 H4 HX H5 _ I1 _ I2 _ I3 P N K.
    eapply Correct_tornk1; [exact T|]. pose proof (tornk1_pos _ _ _ _ T N) as Hv. pose proof (rpos1_inv _ _ _ _ _ P) as Hn.
    assert (Hnb : 0 < nb) by (rewrite H3; apply nbuf_pos; lia).
    assert (Hnbl : nb <= vl) by (rewrite H3; apply nbuf_le).
    assert (Hbd : n <= bd) by (rewrite H4; apply bufdist_ge; lia).
    apply rbuffered_correct with (bd := bd); auto.
    + intros E. destruct H5 as [H5|[H5|[H5|H5]]]; [congruence| | |auto].
      * destruct (tornk1_eq _ _ _ _ _ T H5). left. auto.
      * subst vec. cbn in T. injection T as <- <- <-. right. lia.
    + left. split.
      * apply I1; [now apply rpos1|apply nneg1; lia|apply okip_false].
      * eapply Correct_vperm; [apply perm_swap|]. rewrite <- rx_nil.
        assert (CC : Correct nd false (rx []) [mkdim nb bd ovs; mkdim n 1 os] fc); [|destruct nd; [now apply Correct_nd|exact CC]].
        apply I2; [constructor| |apply okip_false]. repeat constructor; cbn; lia.
    + apply I3; [now apply rpos1|apply nneg1, Z.rem_nonneg; lia|].
      intros E. apply andb_true_iff in E as [E _]. subst ip. eapply okip_vec; eauto.
  - (* buffered hc2r *) intros nd ip n is os vec vl ivs ovs maxnb nb bd fb fc fr T HM H3 H4 HX H5 _ I1 _ I2 _ I3 P N K.
    eapply Correct_tornk1; [exact T|]. pose proof (tornk1_pos _ _ _ _ T N) as Hv. pose proof (rpos1_inv _ _ _ _ _ P) as Hn.
    assert (Hnb : 0 < nb) by (rewrite H3; apply nbuf_pos; lia).
    assert (Hnbl : nb <= vl) by (rewrite H3; apply nbuf_le).
    assert (Hbd : n <= bd) by (rewrite H4; apply bufdist_ge; lia).
    apply rbuffered_correct with (bd := bd); auto.
    + intros E. destruct H5 as [H5|[H5|[H5|H5]]]; [congruence| | |auto].
      * destruct (tornk1_eq _ _ _ _ _ T H5). left. auto.
      * subst vec. cbn in T. injection T as <- <- <-. right. lia.
    + right. split.
      * eapply Correct_vperm; [apply perm_swap|]. rewrite <- rx_nil.
        assert (CC : Correct nd false (rx []) [mkdim nb ivs bd; mkdim n is 1] fc).
        { apply I1; [constructor| |apply okip_false]. repeat constructor; cbn; lia. }
        destruct nd, ip; auto. now apply Correct_nd.
      * apply I2; [now apply rpos1|apply nneg1; lia|apply okip_false].
    + apply I3; [now apply rpos1|apply nneg1, Z.rem_nonneg; lia|now apply okip_kind].
  - (* dht r2hc *) intros nd ip n is os f _ IH P N K. pose proof (rpos1_inv _ _ _ _ _ P) as Hn.
    apply dht_r2hc_correct; auto. apply IH; [now apply rpos1|constructor|now apply okip_kind].
  - (* r2hc dht *) intros nd ip n is os f Hn _ IH P N K.
    apply r2hc_dht_correct; [lia|]. apply IH; [apply rpos1; lia|constructor|now apply okip_kind].
  - intros ip n is os f Hn _ IH P N K.
    apply hc2r_dht_correct; [lia|]. apply IH; [apply rpos1; lia|constructor|now apply okip_kind].
  - intros ip n is os f Hn _ IH P N K.
    apply hc2r_dht_save_correct; [lia|]. apply IH; [apply rpos1; lia|constructor|now apply okip_kind].
  - (* generic *) intros nd ip n is os H1 H2 P N K. apply is_prime_partial in H2. pose proof (prime_ge_2 _ H2).
    rewrite Z.rem_mod_nonneg in H1 by lia. pose proof (Z.div_mod n 2 ltac:(lia)) as E. rewrite H1 in E.
    apply (rgeneric_r2hc_correct n is os (n / 2)); lia.
  - intros nd ip n is os H1 H2 P N K. apply is_prime_partial in H2. pose proof (prime_ge_2 _ H2).
    rewrite Z.rem_mod_nonneg in H1 by lia. pose proof (Z.div_mod n 2 ltac:(lia)) as E. rewrite H1 in E.
    apply (rgeneric_hc2r_correct n is os (n / 2)); lia.
  - (* redft00 pad *) intros nd ip n is os vec vl ivs ovs f fc T H1 _ I1 _ I2 P N K. eapply Correct_tornk1; [exact T|].
    apply (vloop_x1_correct nd ip REDFT00 n is os); [eapply okip_vloop; eauto; reflexivity|].
    replace n with (n - 1 + 1) at 1 by lia. apply redft00_pad_correct with (nd2 := nd); try lia.
    + apply I1; [apply rpos1; lia|constructor|now apply okip_kind].
    + replace (n - 1 + 1) with n by lia. rewrite <- rx_nil. apply I2; [constructor|apply nneg1; lia|apply okip_nil].
  - (* rodft00 pad *) intros nd ip n is os vec vl ivs ovs f fc T _ I1 _ I2 P N K. eapply Correct_tornk1; [exact T|]. pose proof (rpos1_inv _ _ _ _ _ P) as Hn.
    apply (vloop_x1_correct nd ip RODFT00 n is os); [eapply okip_vloop; eauto; reflexivity|].
    replace n with (n + 1 - 1) at 1 by lia. apply rodft00_pad_correct with (nd2 := nd); try lia.
    + apply I1; [apply rpos1; lia|constructor|now apply okip_kind].
    + replace (n + 1 - 1) with n by lia. rewrite <- rx_nil. apply I2; [constructor|apply nneg1; lia|apply okip_nil].
  - (* 010 *) intros nd ip kd n is os vec vl ivs ovs f Hk T _ I1 P N K. eapply Correct_tornk1; [exact T|]. pose proof (rpos1_inv _ _ _ _ _ P) as Hn.
    apply (vloop_x1_correct nd ip kd n is os); [eapply okip_vloop; eauto; destruct Hk as [->|[->|[->| ->]]]; reflexivity|].
    apply reodft010_correct with (nd2 := nd); auto. apply I1; [apply rpos1; lia|constructor|now apply okip_kind].
  - (* 11 odd *) intros nd ip kd n is os vec vl ivs ovs f Hk T Ho _ I1 P N K. eapply Correct_tornk1; [exact T|]. pose proof (rpos1_inv _ _ _ _ _ P) as Hn.
    apply (vloop_x1_correct nd ip kd n is os); [eapply okip_vloop; eauto; destruct Hk as [->| ->]; reflexivity|].
    apply reodft11_odd_correct with (nd2 := nd); auto. apply I1; [apply rpos1; lia|constructor|now apply okip_kind].
  - (* 11 radix2 *) intros nd ip kd n is os vec vl ivs ovs f Hk T Ho _ I1 P N K. eapply Correct_tornk1; [exact T|]. pose proof (rpos1_inv _ _ _ _ _ P) as Hn.
    apply (vloop_x1_correct nd ip kd n is os); [eapply okip_vloop; eauto; destruct Hk as [->| ->]; reflexivity|].
    apply reodft11_radix2_correct with (nd2 := nd); auto. apply I1; [apply rpos1|apply nneg1; lia|now apply okip_kind].
    pose proof (Z.quot_rem' n 2). lia.
  - (* split e *) intros nd ip n0 n is os vec vl ivs ovs fe fo T H1 Ho En Hip _ I1 _ I2 P N K. eapply Correct_tornk1; [exact T|].
    apply (vloop_x1_correct nd ip REDFT00 n0 is os); [eapply okip_vloop; eauto; reflexivity|].
    assert (E : exists h, n = 2 * h /\ Z.quot n 2 = h).
    { exists (Z.quot n 2). split; auto. rewrite Z.rem_mod_nonneg in Ho by lia. rewrite Z.quot_div_nonneg by lia.
      pose proof (Z.div_mod n0 2 ltac:(lia)). replace n with ((n0 / 2) * 2) by lia. rewrite Z.div_mul by lia. lia. }
    destruct E as (h & Eh & Eq). rewrite Eq in *. assert (Hn0 : n0 = n + 1) by lia.
    replace (n0 - h) with (h + 1) in I1 by lia. 
    destruct I1 as [Q C]; [apply rpos1; lia|constructor|].
    destruct ip.
    + intros nx I O m HW. exfalso. specialize (Q eq_refl). cbn [ds map snd app ti to_ dn dis dos] in Q.
      apply W1_Wf in HW. destruct (W1_ip_strides _ _ _ _ _ _ HW) as [?|Es]; [lia|]. subst os.
      apply (twice_locs (h + 1) is); [lia| |exact Q]. intros ->. pose proof (w1_is _ _ _ _ _ _ _ HW 0 1). lia.
    + rewrite Hn0. apply split_e_correct with (h := h) (nd2 := nd); auto; try lia.
      * apply C, okip_false.
      * apply I2; [apply rpos1; lia|constructor|now apply okip_kind].
  - (* split o *) intros nd ip n0 n is os vec vl ivs ovs fe fo T H1 Ho En Hip _ I1 _ I2 P N K. eapply Correct_tornk1; [exact T|].
    apply (vloop_x1_correct nd ip RODFT00 n0 is os); [eapply okip_vloop; eauto; reflexivity|].
    assert (E : exists h, n = 2 * h /\ Z.quot n 2 = h).
    { exists (Z.quot n 2). split; auto. rewrite Z.rem_mod_nonneg in Ho by lia. rewrite Z.quot_div_nonneg by lia.
      pose proof (Z.div_mod n0 2 ltac:(lia)). replace n with ((n0 / 2 + 1) * 2) by lia. rewrite Z.div_mul by lia. lia. }
    destruct E as (h & Eh & Eq). rewrite Eq in *. assert (Hn0 : n0 = n - 1) by lia.
    replace (n0 - h) with (h - 1) in I1 by lia. 
    destruct I1 as [Q C]; [apply rpos1; lia|constructor|].
    destruct ip.
    + destruct (Z.eq_dec h 2) as [E2|E2].
      * rewrite Hn0. apply split_o_ip_correct with (h := h) (nd2 := nd); auto; try lia.
        -- apply C. intros _. right. constructor; [left; cbn; lia|constructor].
        -- apply I2; [apply rpos1; lia|constructor|now apply okip_kind].
      * intros nx I O m HW. exfalso. specialize (Q eq_refl). cbn [ds map snd app ti to_ dn dis dos] in Q.
        apply W1_Wf in HW. apply (twice_locs (h - 1) is); [lia| |exact Q]. intros ->. pose proof (w1_is _ _ _ _ _ _ _ HW 0 1). lia.
    + rewrite Hn0. apply split_o_correct with (h := h) (nd2 := nd); auto; try lia.
      * apply C, okip_false.
      * apply I2; [apply rpos1; lia|constructor|now apply okip_kind].
  - (* hc dit *) intros nd ip n is os vec v ivs ovs r0 r m w f T H2 Hr Hrn Hm _ IHw _ IHc P N K.
    eapply Correct_tornk1; [exact T|]. pose proof (tornk1_pos _ _ _ _ T N) as Hv.
    pose proof (radix_divides _ _ _ _ H2 Hr ltac:(lia)) as [q E].
    assert (m = q) by (rewrite Hm, E, Z.quot_mul by lia; reflexivity). clear Hm. subst q. assert (0 < m) by nia.
    destruct (mcount_ok m) as (M1 & M2 & M3); [auto|]. rewrite M1 in IHw. rewrite E, (Z.mul_comm m r).
    apply hc_dit_correct; try lia.
    + apply IHw; auto; lia.
    + apply IHc; [now apply rpos1|repeat constructor; cbn; lia|now apply okip_kind].
  - (* hc dif *) intros nd ip n is os vec v ivs ovs r0 r m w f T Hd H2 Hr Hrn Hm _ IHw _ IHc P N K.
    eapply Correct_tornk1; [exact T|]. pose proof (tornk1_pos _ _ _ _ T N) as Hv.
    pose proof (radix_divides _ _ _ _ H2 Hr ltac:(lia)) as [q E].
    assert (m = q) by (rewrite Hm, E, Z.quot_mul by lia; reflexivity). clear Hm. subst q. assert (0 < m) by nia.
    destruct (mcount_ok m) as (M1 & M2 & M3); [auto|]. rewrite M1 in IHw. rewrite E, (Z.mul_comm m r).
    apply hc_dif_correct; try lia; auto.
    + apply IHw; auto; lia.
    + apply IHc; [now apply rpos1|repeat constructor; cbn; lia|now apply okip_kind].
  - (* thr hc dit *) intros nd ip n is os vec v ivs ovs r0 r m mcount nthr ws ord f Ht T H2 Hr Hrn Hm Hmc _ IHw HP _ IHc P N K.
    eapply Correct_tornk1; [exact T|]. pose proof (tornk1_pos _ _ _ _ T N) as Hv.
    pose proof (radix_divides _ _ _ _ H2 Hr ltac:(lia)) as [q E].
    assert (m = q) by (rewrite Hm, E, Z.quot_mul by lia; reflexivity). clear Hm. subst q. assert (0 < m) by nia.
    destruct (mcount_ok m) as (M1 & M2 & M3); [auto|]. rewrite M1 in Hmc. subst mcount. rewrite E, (Z.mul_comm m r).
    apply hc_dit_correct; try lia.
    + apply hc_cut with (nthr := nthr); auto; try lia. intros j Hj.
      destruct (thr_block ((m + 2) / 2) nthr j ltac:(lia) ltac:(lia) Hj) as (B1 & B2 & B3). apply IHw; auto; lia.
    + apply IHc; [now apply rpos1|repeat constructor; cbn; lia|now apply okip_kind].
  - (* thr hc dif *) intros nd ip n is os vec v ivs ovs r0 r m mcount nthr ws ord f Ht T Hd H2 Hr Hrn Hm Hmc _ IHw HP _ IHc P N K.
    eapply Correct_tornk1; [exact T|]. pose proof (tornk1_pos _ _ _ _ T N) as Hv.
    pose proof (radix_divides _ _ _ _ H2 Hr ltac:(lia)) as [q E].
    assert (m = q) by (rewrite Hm, E, Z.quot_mul by lia; reflexivity). clear Hm. subst q. assert (0 < m) by nia.
    destruct (mcount_ok m) as (M1 & M2 & M3); [auto|]. rewrite M1 in Hmc. subst mcount. rewrite E, (Z.mul_comm m r).
    apply hc_dif_correct; try lia; auto.
    + apply hc_cut with (nthr := nthr); auto; try lia. intros j Hj.
      destruct (thr_block ((m + 2) / 2) nthr j ltac:(lia) ltac:(lia) Hj) as (B1 & B2 & B3). apply IHw; auto; lia.
    + apply IHc; [now apply rpos1|repeat constructor; cbn; lia|now apply okip_kind].
  - (* hc direct *) intros nd kd r m ms v vs mstart mcount f0 fm _ I0 _ Im Hkd Hr Hm Hv H0 H1 H2. destruct (kd_mid_ok kd Hkd) as [K0 Km].
    apply (hc_direct_correct kd r m Hkd Hr Hm mstart mcount H0 H1 H2 nd nd); now apply hc_child0.
  - (* hc direct buf *) intros nd kd r m ms v vs mstart mcount f0 fm _ I0 _ Im Hkd Hr Hm Hv H0 H1 H2. destruct (kd_mid_ok kd Hkd) as [K0 Km].
    apply (hc_direct_buf_correct kd r m Hkd Hr Hm mstart mcount nd nd); auto; now apply hc_child0.
  - (* hc generic *) intros nd kd r m ms v vs mstart mcount mstride f0 f _ Om Or Es _ I0 _ If Hkd Hr Hm Hv H0 H1 H2.
    destruct (kd_mid_ok kd Hkd) as [K0 _]. subst mstride.
    apply (hc_generic_correct kd r m ms v vs mstart mcount nd); auto.
    + destruct (mstart =? 0).
      * apply I0; [now apply rpos1|repeat constructor; cbn; lia|now apply okip_kind].
      * apply I0; [constructor|repeat constructor; cbn; lia|apply okip_nil].
    + apply If; [now apply rpos1| |now apply okip_kind].
      repeat constructor; cbn [dn]; try lia. unfold hg_mcount1. destruct (mstart =? 0); lia.
  - (* empty *) intros nd ip sz vec H1 H2 P1 P2. split.
    + intros E. apply (inplace_locations_sound qs); auto. apply nnegd_app. split; auto. now apply posd_nneg, rpos_ds.
    + intros. eapply rempty_correct; eauto.
  - (* plan *) intros nd ip sz vec vec' f H1 H2 _ IH P1 P2. split.
    + intros E. apply (inplace_locations_sound qs); auto. apply nnegd_app. split; auto. now apply posd_nneg, rpos_ds.
    + intros K. eapply rchild_correct; eauto. apply IH.
      * now apply rcompress_pos.
      * eapply compress_contiguous_no1; eauto.
      * eapply okip_compress; eauto.
Qed.
Print Assumptions rplanned_correct.
