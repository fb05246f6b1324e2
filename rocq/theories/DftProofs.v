(** * Every plan for a complex DFT problem computes the transform *)
From Coq Require Import Reals ZArith Znumtheory List Lia Bool Permutation.
From Verif Require Import NumTheory Cplx Spec Base PrimesModel PrimesProofs TensorModel Offs TensorProofs XForm XKern XSeq
  CopyModel CopyProofs CopyBounds TransProofs Rank0Model Rank0Proofs Rank0Plans DftModel DftTw DftTw2 DftComp DftSplit DftMath DftPrime XPar XParTw.
Import ListNotations.
Open Scope Z_scope.

Lemma sgn_perm a b t u : Permutation t u -> sgn a b t -> sgn a b u.
Proof. unfold sgn. intros P. now rewrite P. Qed.
Lemma sgn1_perm a b t u : Permutation t u -> sgn1 a b t -> sgn1 a b u.
Proof. unfold sgn1. intros P. now rewrite P. Qed.
Lemma sgn_except a b t i : sgn a b t -> sgn a b (tensor_copy_except t i).
Proof.
  unfold sgn, tensor_copy_except. rewrite !Forall_forall. intros H x Hx. apply H. apply in_app_iff in Hx as [Hx|Hx].
  - rewrite <- (firstn_skipn i t). apply in_app_iff. now left.
  - rewrite <- (firstn_skipn (S i) t). apply in_app_iff. now right.
Qed.
Lemma sgn_os a b t : sgn a b t -> sgn b b (tensor_copy_inplace t INPLACE_OS).
Proof. unfold sgn, tensor_copy_inplace. rewrite Forall_map. apply Forall_impl. cbn. tauto. Qed.
Lemma sgn_is a b t : sgn a b t -> sgn a a (tensor_copy_inplace t INPLACE_IS).
Proof. unfold sgn, tensor_copy_inplace. rewrite Forall_map. apply Forall_impl. cbn. tauto. Qed.
Lemma posd_inplace t k : posd t -> posd (tensor_copy_inplace t k).
Proof. unfold posd, tensor_copy_inplace. rewrite Forall_map. apply Forall_impl. intros d H. now destruct k. Qed.
Lemma sgn1_tornk1 a b vec v ivs ovs : tensor_tornk1 vec = Some (v, ivs, ovs) -> sgn a b vec -> sgn1 a b [mkdim v ivs ovs].
Proof.
  intros H S. destruct vec as [|d [|? ?]]; cbn in H; [|injection H as <- <- <-|discriminate].
  - injection H as <- <- <-. repeat constructor; cbn in *; lia.
  - inversion S; subst. repeat constructor; cbn; tauto.
Qed.
Lemma tornk1_pos vec v ivs ovs : tensor_tornk1 vec = Some (v, ivs, ovs) -> no1 vec -> 0 < v.
Proof.
  intros H S. destruct vec as [|d [|? ?]]; cbn in H; [|injection H as <- <- <-|discriminate].
  - injection H as <- <- <-. lia.
  - inversion S; subst. lia.
Qed.
Lemma tornk1_eq vec v ivs ovs d : tensor_tornk1 vec = Some (v, ivs, ovs) -> tensor_inplace_strides2 [d] vec = true -> dis d = dos d /\ ivs = ovs.
Proof.
  intros H S. apply eqst_strides2 in S as [S1 S2]. inversion S1; subst. split; auto.
  destruct vec as [|e [|? ?]]; cbn in H; [|injection H as <- <- <-|discriminate].
  - now injection H as <- <- <-.
  - now inversion S2; subst.
Qed.
Lemma no1_app t u : no1 (t ++ u) <-> no1 t /\ no1 u.
Proof. apply Forall_app. Qed.
Lemma posd_app t u : posd (t ++ u) <-> posd t /\ posd u.
Proof. apply Forall_app. Qed.
Lemma split_eq t k a b : tensor_split t k = (a, b) -> t = a ++ b.
Proof.
  unfold tensor_split, tensor_copy_sub. intros E. injection E as <- <-. cbn [skipn].
  rewrite (firstn_all2 (skipn k t)) by (rewrite skipn_length; lia). symmetry. apply firstn_skipn.
Qed.
Lemma set_nth_Forall (P : iodim -> Prop) t i d : Forall P t -> P d -> Forall P (set_nth t i d).
Proof.
  intros H Hd. unfold set_nth. rewrite Forall_forall in *. intros x Hx. apply in_app_iff in Hx as [Hx|[<-|Hx]]; auto; apply H.
  - rewrite <- (firstn_skipn i t). apply in_app_iff. now left.
  - rewrite <- (firstn_skipn (S i) t). apply in_app_iff. now right.
Qed.

Lemma nbuf_loop_le fuel i lb vl dflt : nbuf_loop fuel i lb vl dflt <= Z.max i dflt.
Proof.
  revert i. induction fuel as [|fu IH]; intros i; cbn [nbuf_loop]; [lia|].
  destruct (lb <=? i); [|lia]. destruct (Z.rem vl i =? 0); [lia|]. specialize (IH (i - 1)). lia.
Qed.
Lemma nbuf_le n vl maxnb : nbuf n vl maxnb <= vl.
Proof.
  unfold nbuf. cbn zeta. set (mx := if maxnb =? 0 then 256 else maxnb). set (q := Z.max 1 (Z.quot MAXBUFSZ n)).
  eapply Z.le_trans; [apply nbuf_loop_le|]. lia.
Qed.

Definition sign_ok (a : Z) : Prop := a = 1 \/ a = -1.
Lemma sign_mul a m s : 0 <= m -> 0 <= a * s -> 0 <= a * (m * s).
Proof. intros. replace (a * (m * s)) with (m * (a * s)) by ring. apply Z.mul_nonneg_nonneg; auto. Qed.

(** the hypothesis on a problem: there are signs a, b that the input and output
    strides agree with; for an in-place problem they are equal *)
Definition Ppl (nd ip : bool) (di do_ : Z) (sz vec : list iodim) (f : rapply) : Prop :=
  no1 sz -> no1 vec -> (ip = true -> di = do_) ->
  forall a b, sign_ok a -> sign_ok b -> (ip = true -> a = b) -> sgn a b sz -> sgn a b vec ->
  Correct nd ip (cx di do_ sz) vec f.
Definition Pwd (dit : bool) (di r irs ors m ms v ivs ovs mb mc : Z) (w : wapply) : Prop :=
  0 < r -> 0 <= mb -> 0 <= mc -> mb + mc <= m -> 0 <= v ->
  forall a, sign_ok a -> sgn1 a a [mkdim r irs ors; mkdim mc ms ms; mkdim v ivs ovs] ->
  CorrectW (xtw dit di r irs ors m mb mc ms) [mkdim v ivs ovs] w.
Definition Pch (nd ip : bool) (di do_ : Z) (sz vec : list iodim) (f : rapply) : Prop :=
  posd sz -> nnegd vec ->
  (ip = true -> di = do_ /\ Permutation (locs (ti (sz ++ vec))) (locs (to_ (sz ++ vec)))) /\
  forall a b, sign_ok a -> sign_ok b -> (ip = true -> a = b) -> sgn1 a b sz -> sgn1 a b vec ->
  Correct nd ip (cx di do_ sz) vec f.

Theorem planned_correct qs : qsort_perm qs ->
  (forall nd ip di do_ sz vec f, planned qs nd ip di do_ sz vec f -> Ppl nd ip di do_ sz vec f) /\
  (forall dit di r irs ors m ms v ivs ovs mb mc w, plannedw qs dit di r irs ors m ms v ivs ovs mb mc w -> Pwd dit di r irs ors m ms v ivs ovs mb mc w) /\
  (forall nd ip di do_ sz vec f, child qs nd ip di do_ sz vec f -> Pch nd ip di do_ sz vec f).
Proof.
  intros Hq. apply planned_ind3.
  - (* nop *) intros nd di do_ vec H N1 N2 D a b Ha Hb Hab S1 S2. rewrite <- D by auto. now apply nop0_correct.
  - (* r2hc0 *) intros nd ip di do_ vec vec' ish osh f H1 H2 N1 N2 D a b Ha Hb Hab S1 S2.
    eapply (r2hc0_correct nd ip a b); eauto.
    apply (rank0_correct qs Hq) in H2.
    + apply H2.
    + assert (G : forall t t' i o, nnegd t -> flip_dims t = (t', i, o) -> nnegd t').
      { clear. induction t as [|d t IH]; cbn; intros t' i o Hn E.
        - injection E as <- <- <-. constructor.
        - inversion Hn; subst. destruct (flip_dims t) as [[t2 i2] o2] eqn:E2. specialize (IH t2 i2 o2 H2 eq_refl).
          destruct (dis d <? 0); injection E as <- <- <-; constructor; auto. }
      eapply G; [|exact H1]. constructor; [cbn; lia|]. apply posd_nneg, no1_pos, N2.
  - (* direct *) intros nd ip di do_ d vec vl ivs ovs H1 H2 N1 N2 D a b Ha Hb Hab S1 S2.
    eapply Correct_tornk1; [exact H1|]. destruct d as [n is os]. cbn [dn dis dos]. apply kdft_correct. intros E.
    destruct H2 as [H2|[H2|H2]]; [congruence|auto|]. destruct (tornk1_eq _ _ _ _ _ H1 H2). right. auto.
  - (* direct extra *) intros nd ip di do_ d vec vl ivs ovs H1 H2 N1 N2 D a b Ha Hb Hab S1 S2.
    eapply Correct_tornk1; [exact H1|]. destruct d as [n is os]. cbn [dn dis dos]. apply direct_extra_correct.
    + inversion N1; subst. cbn in *. lia.
    + eapply tornk1_pos; eauto.
    + intros E. destruct H2 as [H2|[H2|H2]]; [congruence|auto|]. destruct (tornk1_eq _ _ _ _ _ H1 H2). right. auto.
  - (* directbuf *) intros nd ip di do_ d dv H2 N1 N2 D a b Ha Hb Hab S1 S2. destruct d as [n is os], dv as [vl ivs ovs]. cbn [dn dis dos] in *.
    inversion N1; inversion N2; subst. cbn in *. apply direct_apply_buf_correct; try lia.
    intros E. destruct H2 as [H2|[H2|H2]]; [congruence| |auto]. right. destruct (tornk1_eq [mkdim vl ivs ovs] _ _ _ _ eq_refl H2). auto.
  - (* ct dit *) intros nd ip di do_ n is os vec v ivs ovs r0 r m w f H1 H2 Hr Hrn Hm Hw IHw Hc IHc N1 N2 D a b Ha Hb Hab S1 S2.
    eapply Correct_tornk1; [exact H1|]. pose proof (choose_radix_partial _ _ _ _ H2 Hr ltac:(lia)) as [q E].
    assert (m = q) by (rewrite Hm, E, Z.quot_mul by lia; reflexivity). clear Hm. subst q. assert (0 < m) by nia.
    pose proof (sgn1_tornk1 _ _ _ _ _ _ H1 S2) as Sv. pose proof (tornk1_pos _ _ _ _ H1 N2) as Hv.
    inversion S1 as [|? ? [Si So] _]; subst. cbn [dis dos] in Si, So. inversion Sv as [|? ? Sv' _]; subst. cbn [dn dis dos] in Sv'.
    rewrite (Z.mul_comm m r).
    apply ct_dit_correct; try lia.
    + apply (IHw ltac:(lia) ltac:(lia) ltac:(lia) ltac:(lia) ltac:(lia) b Hb).
      repeat constructor; cbn [dn dis dos]; try tauto; try (apply sign_mul; auto; lia).
    + apply IHc with (a := a) (b := b); auto; [repeat constructor; cbn; lia|repeat constructor; cbn; lia| |];
        repeat constructor; cbn [dn dis dos]; try tauto; try (apply sign_mul; auto; lia).
  - (* ct dif *) intros nd ip di do_ n is os vec v ivs ovs r0 r m w f H1 Hd H2 Hr Hrn Hm Hw IHw Hc IHc N1 N2 D a b Ha Hb Hab S1 S2.
    eapply Correct_tornk1; [exact H1|]. pose proof (choose_radix_partial _ _ _ _ H2 Hr ltac:(lia)) as [q E].
    assert (m = q) by (rewrite Hm, E, Z.quot_mul by lia; reflexivity). clear Hm. subst q. assert (0 < m) by nia.
    pose proof (sgn1_tornk1 _ _ _ _ _ _ H1 S2) as Sv. pose proof (tornk1_pos _ _ _ _ H1 N2) as Hv.
    inversion S1 as [|? ? [Si So] _]; subst. cbn [dis dos] in Si, So. inversion Sv as [|? ? Sv' _]; subst. cbn [dn dis dos] in Sv'.
    rewrite (Z.mul_comm m r).
    apply (ct_dif_correct nd ip di do_ r m is os v ivs ovs (m * is) ivs); try lia; auto.
    + apply (IHw ltac:(lia) ltac:(lia) ltac:(lia) ltac:(lia) ltac:(lia) a Ha).
      repeat constructor; cbn [dn dis dos]; try tauto; try (apply sign_mul; auto; lia).
    + apply IHc with (a := a) (b := b); auto; [repeat constructor; cbn; lia|repeat constructor; cbn; lia| |];
        repeat constructor; cbn [dn dis dos]; try tauto; try (apply sign_mul; auto; lia).
  - (* ct difsq *) intros nd di do_ n is os vec v ivs ovs r0 r m w f cors covs H1 H2 Hr Hrn Hm Ec Ev Erv E1 E2 E3 E4 Hw IHw Hc IHc N1 N2 D a b Ha Hb Hab S1 S2.
    eapply Correct_tornk1; [exact H1|]. pose proof (choose_radix_partial _ _ _ _ H2 Hr ltac:(lia)) as [q E].
    assert (m = q) by (rewrite Hm, E, Z.quot_mul by lia; reflexivity). clear Hm. subst q. assert (0 < m) by nia.
    pose proof (sgn1_tornk1 _ _ _ _ _ _ H1 S2) as Sv. pose proof (tornk1_pos _ _ _ _ H1 N2) as Hv.
    inversion S1 as [|? ? [Si So] _]. cbn [dis dos] in Si, So. inversion Sv as [|? ? Sv' _]. cbn [dn dis dos] in Sv'.
    rewrite E, (Z.mul_comm m r).
    apply (ct_dif_correct nd true di do_ r m is os v ivs ovs cors covs); try lia; auto.
    + rewrite Ec, Ev, <- Erv. apply perm_swap.
    + apply (IHw ltac:(lia) ltac:(lia) ltac:(lia) ltac:(lia) ltac:(lia) a Ha).
      rewrite <- Erv in Sv'. repeat constructor; cbn [dn dis dos]; rewrite ?Ec, ?Ev, <- ?Erv; try tauto; try (apply sign_mul; auto; lia);
        try (apply Sv'; lia).
    + rewrite <- Erv in Sv'. apply IHc with (a := a) (b := b); auto; [repeat constructor; cbn; lia|repeat constructor; cbn; lia| |];
        repeat constructor; cbn [dn dis dos]; rewrite ?Ec, ?Ev, <- ?Erv; try tauto; try (apply sign_mul; auto; lia); try (apply Sv'; lia).
  - (* generic *) intros nd ip di do_ n is os H1 H2 N1 N2 D a b Ha Hb Hab S1 S2. inversion N1; subst. cbn in *.
    apply (generic_correct di do_ n is os ((n - 1) / 2)).
    + apply Z.div_pos; lia.
    + rewrite Z.rem_mod_nonneg in H1 by lia. pose proof (Z.div_mod n 2 ltac:(lia)) as E. rewrite H1 in E.
      replace (n - 1) with ((n / 2) * 2) by lia. rewrite Z.div_mul by lia. lia.
    + lia.
  - (* rader *) intros nd ip di do_ n is os g ginv f1 f2 fo nd1 nd2 nd3 m0 HM H1 H2 H3 _ I1 _ I2 _ I3 N1 N2 D a b Ha Hb Hab S1 S2.
    apply is_prime_partial in H1. pose proof (prime_ge_2 _ H1) as Hn2. inversion S1 as [|? ? [Si So] _]; subst. cbn [dis dos] in Si, So.
    destruct (find_generator_spec INTMAX n ltac:(unfold INTMAX; lia) ltac:(unfold INTMAX; lia) H1 HM) as (g' & E & Hg). rewrite E in H2. injection H2 as ->.
    assert (Hgr : 1 <= g < n) by (destruct Hg; lia).
    rewrite power_mod_spec in H3 by (unfold INTMAX in *; lia). injection H3 as <-.
    assert (PD : forall i o, posd [mkdim (n - 1) i o]) by (intros; repeat constructor; cbn; lia).
    assert (NN : nnegd [mkdim 1 0 0]) by (repeat constructor; cbn; lia).
    assert (SS : forall a b, sgn1 a b [mkdim 1 0 0]) by (intros; repeat constructor; cbn in *; lia).
    apply (rader_correct di do_ n is os g _ f1 f2 fo nd1 nd2 nd3 m0); auto.
    + apply (I1 (PD 2 os) NN) with (a := 1) (b := b); auto; [left; reflexivity|discriminate|]. repeat constructor; cbn [dis dos]; lia.
    + apply (I2 (PD os 2) NN) with (a := b) (b := 1); auto; [left; reflexivity|discriminate|]. repeat constructor; cbn [dis dos]; lia.
    + apply (I3 (PD 2 2) NN) with (a := 1) (b := 1); auto; try (left; reflexivity). repeat constructor; cbn [dis dos]; lia.
  - (* bluestein *) intros nd ip di do_ n is os k nb f nd1 m0 H1 H2 H3 _ I N1 N2 D a b Ha Hb Hab S1 S2.
    apply choose_transform_size_partial in H3.
    apply (bluestein_correct di do_ n nb is os f nd1 m0); auto; [lia|].
    apply I with (a := 1) (b := 1); auto; try (left; reflexivity); repeat constructor; cbn [dn dis dos]; try lia; intros; lia.
  - (* vrank *) intros nd ip di do_ sz vec i d f H1 H2 H3 _ IH N1 N2 D a b Ha Hb Hab S1 S2.
    assert (NN : nnegd (tensor_copy_except vec i)) by (apply nnegd_except, posd_nneg, no1_pos, N2).
    destruct (IH (no1_pos _ N1) NN) as [P C]. apply (vrank_correct nd ip di do_ sz vec i); auto.
    apply (C a b); auto; apply sgn_sgn1; auto. now apply sgn_except.
  - (* rank2 *) intros nd ip di do_ sz vec k sz1 sz2 f1 f2 H1 H2 _ I1 _ I2 N1 N2 D a b Ha Hb Hab S1 S2. apply split_eq in H2. subst sz.
    apply no1_app in N1 as [N1 N1']. apply sgn_app in S1 as [S1 S1'].
    pose proof (no1_pos _ N1) as P1. pose proof (no1_pos _ N1') as P1'. pose proof (no1_pos _ N2) as P2.
    apply rank2_correct with (nd2 := nd); try now apply posd_nneg.
    + apply I1 with (a := a) (b := b); auto.
      * apply nnegd_app. split; now apply posd_nneg.
      * now apply sgn_sgn1.
      * apply sgn_sgn1, sgn_app. auto.
    + apply I2 with (a := b) (b := b); auto.
      * now apply posd_inplace.
      * apply nnegd_app. split; now apply posd_nneg, posd_inplace.
      * now apply sgn_sgn1, sgn_os with (a := a).
      * apply sgn_sgn1, sgn_app. split; now apply sgn_os with (a := a).
  - (* before *) intros nd ip di do_ sz vec fc f H1 _ I1 _ I2 N1 N2 D a b Ha Hb Hab S1 S2.
    pose proof (no1_pos _ N1) as P1. pose proof (no1_pos _ N2) as P2.
    rewrite <- (app_nil_r sz). apply rank2_correct with (nd2 := nd).
    + now apply posd_nneg.
    + constructor.
    + apply I1 with (a := a) (b := b); auto; [constructor|apply nnegd_app; split; now apply posd_nneg|constructor|]. apply sgn_sgn1, sgn_app. auto.
    + cbn [tensor_copy_inplace map]. rewrite app_nil_r. apply I2 with (a := b) (b := b); auto.
      * now apply posd_inplace.
      * now apply posd_nneg, posd_inplace.
      * now apply sgn_sgn1, sgn_os with (a := a).
      * now apply sgn_sgn1, sgn_os with (a := a).
  - (* after *) intros nd ip di do_ sz vec fc f H1 Hd _ I1 _ I2 N1 N2 D a b Ha Hb Hab S1 S2.
    pose proof (no1_pos _ N1) as P1. pose proof (no1_pos _ N2) as P2.
    apply after_correct with (nd1 := nd); auto; [now apply posd_nneg| |].
    + apply I1 with (a := a) (b := b); auto; [constructor|apply nnegd_app; split; now apply posd_nneg|constructor|]. apply sgn_sgn1, sgn_app. auto.
    + apply I2 with (a := a) (b := a); auto.
      * now apply posd_inplace.
      * now apply posd_nneg, posd_inplace.
      * now apply sgn_sgn1, sgn_is with (b := b).
      * now apply sgn_sgn1, sgn_is with (b := b).
  - (* itrans *) intros nd ip di do_ sz vec d0 d1 dv ds vl ft f fr H1 H2 H3 H4 Hvl _ I1 _ I2 _ I3 N1 N2 D a b Ha Hb Hab S1 S2.
    pose proof (no1_pos _ N1) as P1. pose proof (no1_pos _ N2) as P2.
    pose proof (eqst_strides2 _ _ H1) as [Ev Es].
    pose proof (nth_error_In _ _ H2) as Iv. pose proof (nth_error_In _ _ H3) as Is.
    pose proof (proj1 (Forall_forall _ _) Ev _ Iv) as Edv. pose proof (proj1 (Forall_forall _ _) Es _ Is) as Eds. cbn beta in Edv, Eds.
    pose proof (proj1 (Forall_forall _ _) P1 _ Is) as Ps. pose proof (proj1 (Forall_forall _ _) P2 _ Iv) as Pv. cbn beta in Ps, Pv.
    pose proof (proj1 (Forall_forall _ _) S1 _ Is) as [Ss1 Ss2]. pose proof (proj1 (Forall_forall _ _) S2 _ Iv) as [Sv1 Sv2].
    assert (SE : forall t, eqst t -> sgn a b t -> sgn a b (tensor_copy_inplace t INPLACE_IS)).
    { intros t Et St. unfold eqst in Et. unfold sgn, tensor_copy_inplace in *. rewrite Forall_map. rewrite Forall_forall in *. intros d Hd. cbn. rewrite (Et d Hd) at 2. now apply St. }
    assert (SB : forall t, eqst t -> sgn a b t -> sgn b b t).
    { intros t Et St. unfold eqst in Et. unfold sgn in *. rewrite Forall_forall in *. intros d Hd. rewrite (Et d Hd). split; apply St; auto. }
    eapply itrans_correct with (nd2 := nd); eauto.
    + apply I1 with (a := a) (b := b); auto.
      * constructor.
      * apply nnegd_app. split; apply posd_nneg; (apply set_nth_Forall; [now apply posd_inplace|cbn; lia]).
      * constructor.
      * apply sgn_sgn1, sgn_app. split; (apply set_nth_Forall; [now apply SE|cbn [dis dos]; rewrite ?Eds, ?Edv; split]); try assumption; rewrite <- ?Eds, <- ?Edv; assumption.
    + apply I2 with (a := b) (b := b); auto.
      * apply set_nth_Forall; auto.
      * apply posd_nneg. apply set_nth_Forall; auto.
      * apply sgn_sgn1. apply set_nth_Forall; [now apply SB|]. cbn [dis dos]. rewrite Edv. auto.
      * apply sgn_sgn1. apply set_nth_Forall; [now apply SB|]. cbn [dis dos]. rewrite Eds. auto.
    + apply I3 with (a := a) (b := b); auto.
      * apply set_nth_Forall; [now apply posd_nneg|]. cbn [dn]. subst vl. pose proof (Z.quot_rem' (dn dv) (dn ds)). pose proof (Z.rem_nonneg (dn dv) (dn ds) ltac:(lia) ltac:(lia)). lia.
      * now apply sgn_sgn1.
      * apply sgn_sgn1. apply set_nth_Forall; auto.
  - (* buffered *) intros nd ip di do_ n is os vec vl ivs ovs maxnb nb bd ro fb fc fr H1 H2 H3 H4 HM H5 H6 _ I1 _ I2 _ I3 N1 N2 D a b Ha Hb Hab S1 S2.
    eapply Correct_tornk1; [exact H1|].
    pose proof (sgn1_tornk1 _ _ _ _ _ _ H1 S2) as Sv. pose proof (tornk1_pos _ _ _ _ H1 N2) as Hv.
    pose proof (Forall_inv S1) as [Si So]. pose proof (Forall_inv Sv) as Sv'. pose proof (Forall_inv N1) as Hn. cbn [dn dis dos] in Si, So, Sv', Hn.
    assert (Hmx : 0 < maxnb) by lia. assert (Hnb : 0 < nb) by (rewrite H3; now apply nbuf_pos).
    assert (Hnbl : nb <= vl).
    { rewrite H3. apply nbuf_le. }
    assert (Hbd : n <= bd) by (rewrite H4; apply bufdist_ge; lia).
    apply buffered_correct with (maxnb := maxnb) (bd := bd); auto.
    + lia.
    + intros E. destruct H5 as [H5|[H5|[H5|H5]]]; [congruence| | |auto].
      * destruct (tornk1_eq _ _ _ _ _ H1 H5). left. auto.
      * subst vec. cbn in H1. injection H1 as <- <- <-. right. lia.
    + apply I1 with (a := a) (b := 1); try discriminate; auto.
      * repeat constructor; cbn; lia.
      * repeat constructor; cbn; lia.
      * left; reflexivity.
      * constructor; [|constructor]. cbn [dn dis dos]. intros _. split; [auto|lia].
      * constructor; [|constructor]. cbn [dn dis dos]. intros H. split; [apply Sv'|]; lia.
    + assert (CC : Correct nd false (cx (1 - 2 * ro) do_ []) [mkdim nb (bd * 2) ovs; mkdim n 2 os] fc); [|destruct nd; [now apply Correct_nd|exact CC]].
      apply I2 with (a := 1) (b := b); try discriminate; auto.
      * constructor.
      * repeat constructor; cbn; lia.
      * left; reflexivity.
      * constructor.
      * constructor; [|constructor; [|constructor]]; cbn [dn dis dos]; intros H; (split; [lia|]); [apply Sv'; lia|auto].
    + apply I3 with (a := a) (b := b); auto.
      * repeat constructor; cbn; lia.
      * repeat constructor. cbn. apply Z.rem_nonneg; lia.
      * intros E. apply andb_true_iff in E as [E _]. auto.
      * constructor; [|constructor]. cbn [dn dis dos]. auto.
      * destruct (Z.eq_dec vl 1) as [E|E].
        -- assert (ivs = 0 /\ ovs = 0) as [-> ->].
           { destruct vec as [|d [|? ?]]; cbn in H1; [|injection H1 as F1 F2 F3|discriminate].
             - injection H1 as _ <- <-. auto.
             - pose proof (Forall_inv N2) as Q. cbn beta in Q. lia. }
           constructor; [|constructor]. cbn [dn dis dos]. lia.
        -- constructor; [|constructor]. cbn [dn dis dos]. auto.
  - (* thr vrank *) intros nd ip di do_ sz vec i d nthr fs ord Ht H2 H3 _ IH HP N1 N2 D a b Ha Hb Hab S1 S2.
    assert (Hd : In d vec) by (eapply nth_error_In; eauto).
    assert (Hdn : 1 < dn d) by (unfold no1 in N2; rewrite Forall_forall in N2; specialize (N2 d Hd); lia).
    assert (Hds : 0 <= a * dis d /\ 0 <= b * dos d) by (unfold sgn in S2; rewrite Forall_forall in S2; exact (S2 d Hd)).
    assert (NN : forall j, 0 <= j < thr_nb (dn d) nthr -> nnegd (set_nth vec i (mkdim (thr_cnt (dn d) nthr j) (dis d) (dos d)))).
    { intros j Hj. apply set_nth_Forall; [apply posd_nneg, no1_pos, N2|]. cbn [dn].
      destruct (thr_block (dn d) nthr j ltac:(lia) ltac:(lia) Hj). lia. }
    eapply Correct_vperm; [apply copy_except_perm; exact H2|].
    replace d with (mkdim (dn d) (dis d) (dos d)) at 1 by now destruct d.
    apply Correct_cut; auto; try lia; try apply cx_wf.
    + intros E. split; [auto|]. intros j Hj. destruct (IH j Hj (no1_pos _ N1) (NN j Hj)) as [P _]. destruct (P E) as [-> P2].
      apply same_set_perm.
      assert (Q : Permutation (set_nth vec i (mkdim (thr_cnt (dn d) nthr j) (dis d) (dos d)))
                   (mkdim (thr_cnt (dn d) nthr j) (dis d) (dos d) :: tensor_copy_except vec i)) by (eapply set_nth_perm; eauto).
      eapply perm_trans; [|eapply perm_trans; [exact P2|]]; apply locs_perm; unfold ti, to_; apply Permutation_map, Permutation_app_head;
        [symmetry|]; exact Q.
    + intros j Hj. destruct (IH j Hj (no1_pos _ N1) (NN j Hj)) as [P C].
      eapply Correct_vperm; [symmetry; eapply set_nth_perm; eauto|].
      apply (C a b); auto; apply sgn_sgn1; auto.
      apply set_nth_Forall; [exact S2|exact Hds].
  - (* thr ct dit *) intros nd ip di do_ n is os vec v ivs ovs r0 r m nthr ws ord f Ht H1 H2 Hr Hrn Hm Hw IHw HP Hc IHc N1 N2 D a b Ha Hb Hab S1 S2.
    eapply Correct_tornk1; [exact H1|]. pose proof (choose_radix_partial _ _ _ _ H2 Hr ltac:(lia)) as [q E].
    assert (m = q) by (rewrite Hm, E, Z.quot_mul by lia; reflexivity). clear Hm. subst q. assert (0 < m) by nia.
    pose proof (sgn1_tornk1 _ _ _ _ _ _ H1 S2) as Sv. pose proof (tornk1_pos _ _ _ _ H1 N2) as Hv.
    inversion S1 as [|? ? [Si So] _]; subst. cbn [dis dos] in Si, So. inversion Sv as [|? ? Sv' _]; subst. cbn [dn dis dos] in Sv'.
    rewrite (Z.mul_comm m r).
    apply ct_dit_correct; try lia.
    + apply CorrectW_cut with (nthr := nthr); auto; try lia. intros j Hj.
      destruct (thr_block m nthr j ltac:(lia) ltac:(lia) Hj) as (B1 & B2 & B3).
      apply (IHw j Hj ltac:(lia) ltac:(lia) ltac:(lia) ltac:(lia) ltac:(lia) b Hb).
      repeat constructor; cbn [dn dis dos]; try tauto; try (apply sign_mul; auto; lia).
    + apply IHc with (a := a) (b := b); auto; [repeat constructor; cbn; lia|repeat constructor; cbn; lia| |];
        repeat constructor; cbn [dn dis dos]; try tauto; try (apply sign_mul; auto; lia).
  - (* thr ct dif *) intros nd ip di do_ n is os vec v ivs ovs r0 r m nthr ws ord f Ht H1 Hd H2 Hr Hrn Hm Hw IHw HP Hc IHc N1 N2 D a b Ha Hb Hab S1 S2.
    eapply Correct_tornk1; [exact H1|]. pose proof (choose_radix_partial _ _ _ _ H2 Hr ltac:(lia)) as [q E].
    assert (m = q) by (rewrite Hm, E, Z.quot_mul by lia; reflexivity). clear Hm. subst q. assert (0 < m) by nia.
    pose proof (sgn1_tornk1 _ _ _ _ _ _ H1 S2) as Sv. pose proof (tornk1_pos _ _ _ _ H1 N2) as Hv.
    inversion S1 as [|? ? [Si So] _]; subst. cbn [dis dos] in Si, So. inversion Sv as [|? ? Sv' _]; subst. cbn [dn dis dos] in Sv'.
    rewrite (Z.mul_comm m r).
    apply (ct_dif_correct nd ip di do_ r m is os v ivs ovs (m * is) ivs); try lia; auto.
    + apply CorrectW_cut with (nthr := nthr); auto; try lia. intros j Hj.
      destruct (thr_block m nthr j ltac:(lia) ltac:(lia) Hj) as (B1 & B2 & B3).
      apply (IHw j Hj ltac:(lia) ltac:(lia) ltac:(lia) ltac:(lia) ltac:(lia) a Ha).
      repeat constructor; cbn [dn dis dos]; try tauto; try (apply sign_mul; auto; lia).
    + apply IHc with (a := a) (b := b); auto; [repeat constructor; cbn; lia|repeat constructor; cbn; lia| |];
        repeat constructor; cbn [dn dis dos]; try tauto; try (apply sign_mul; auto; lia).
  - (* thr ct difsq *) intros nd di do_ n is os vec v ivs ovs r0 r m nthr ws ord f cors covs Ht H1 H2 Hr Hrn Hm Ec Ev Erv E1 E2 E3 E4 Hw IHw HP Hc IHc N1 N2 D a b Ha Hb Hab S1 S2.
    eapply Correct_tornk1; [exact H1|]. pose proof (choose_radix_partial _ _ _ _ H2 Hr ltac:(lia)) as [q E].
    assert (m = q) by (rewrite Hm, E, Z.quot_mul by lia; reflexivity). clear Hm. subst q. assert (0 < m) by nia.
    pose proof (sgn1_tornk1 _ _ _ _ _ _ H1 S2) as Sv. pose proof (tornk1_pos _ _ _ _ H1 N2) as Hv.
    inversion S1 as [|? ? [Si So] _]. cbn [dis dos] in Si, So. inversion Sv as [|? ? Sv' _]. cbn [dn dis dos] in Sv'.
    rewrite E, (Z.mul_comm m r).
    assert (PV : Permutation [(r, m * is); (v, ivs)] [(r, cors); (v, covs)]) by (rewrite Ec, Ev, <- Erv; apply perm_swap).
    apply (ct_dif_correct nd true di do_ r m is os v ivs ovs cors covs); try lia; auto.
    + apply CorrectW_cut with (nthr := nthr); auto; try lia. intros j Hj.
      destruct (thr_block m nthr j ltac:(lia) ltac:(lia) Hj) as (B1 & B2 & B3).
      apply (IHw j Hj ltac:(lia) ltac:(lia) ltac:(lia) ltac:(lia) ltac:(lia) a Ha).
      rewrite <- Erv in Sv'. repeat constructor; cbn [dn dis dos]; rewrite ?Ec, ?Ev, <- ?Erv; try tauto; try (apply sign_mul; auto; lia);
        try (apply Sv'; lia).
    + rewrite <- Erv in Sv'. apply IHc with (a := a) (b := b); auto; [repeat constructor; cbn; lia|repeat constructor; cbn; lia| |];
        repeat constructor; cbn [dn dis dos]; rewrite ?Ec, ?Ev, <- ?Erv; try tauto; try (apply sign_mul; auto; lia); try (apply Sv'; lia).
  - (* w direct *) intros dit di r rs m ms v vs mb mc Hr Hmb Hmc Hm Hv a Ha S. apply dftw_direct_correct.
  - intros dit di r rs m ms v vs mb mc Hr Hmb Hmc Hm Hv a Ha S. apply dftw_direct_buf_correct; lia.
  - intros dit di r irs ivs m ms mb mc Hr Hmb Hmc Hm Hv a Ha S. apply dftw_directsq_correct; lia.
  - (* w generic *) intros dit di r rs m ms v vs mb mc nd f _ I Hr Hmb Hmc Hm Hv a Ha S.
    eapply dftw_generic_correct; eauto. 
    pose proof (Forall_inv S) as Sr. pose proof (Forall_inv_tail S) as S'. cbn [dn dis dos] in Sr.
    apply I with (a := a) (b := a); auto.
    + repeat constructor; cbn; auto.
    + repeat constructor; cbn; auto.
    + constructor; auto.
  - (* w genericbuf *) intros di r rs m ms ivs ovs mb mc bsz nd f B1 B2 B3 B4 B5 _ I Hr Hmb Hmc Hm Hv a Ha S.
    eapply dftw_genericbuf_correct; eauto.
    apply I with (a := 1) (b := 1); auto; try (left; reflexivity); repeat (apply Forall_cons || apply Forall_nil); cbn [dn dis dos]; unfold BATCHDIST; lia.
  - (* empty *) intros nd ip di do_ sz vec H1 H2 P1 P2. split.
    + intros E. destruct (H1 E) as [-> L]. split; auto. apply (inplace_locations_sound qs); auto. apply nnegd_app. split; auto. now apply posd_nneg.
    + intros. eapply empty_correct; eauto.
  - (* plan *) intros nd ip di do_ sz vec vec' f H1 H2 _ IH P1 P2. split.
    + intros E. destruct (H1 E) as [-> L]. split; auto. apply (inplace_locations_sound qs); auto. apply nnegd_app. split; auto. now apply posd_nneg.
    + intros a b Ha Hb Hab S1 S2. eapply child_correct; eauto. apply IH with (a := a) (b := b); auto.
      * pose proof (tensor_compress_pos qs sz Hq P1) as P. unfold no1, posd in *. rewrite Forall_forall in *. intros d Hd.
        specialize (P d Hd). pose proof (tensor_compress_no1 qs sz d Hq Hd). lia.
      * eapply compress_contiguous_no1; eauto.
      * intros E. now apply H1.
      * now apply sgn1_compress.
      * eapply sgn1_compress_contiguous; eauto.
Qed.
Print Assumptions planned_correct.
