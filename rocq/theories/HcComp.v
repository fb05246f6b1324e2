(** * rdft/hc2hc.c and threads/hc2hc.c (proofs) *)
From Coq Require Import Reals ZArith List Lia Lra Bool Permutation.
From Verif Require Import NumTheory Cplx Spec SpecR2R TensorModel Offs TensorProofs XForm XKern XSeq XPar CopyModel CopyProofs DftModel HcModel DftTw DftTw2 DftComp RSum
  RdftX RdftLib HcMath HcLib HcStep HcBuf.
Import ListNotations.
Open Scope Z_scope.

Definition xhc (kd : rkind) (r m ms mb mc : Z) : xform := xp (hrange r m mb mc) (fun p => p * ms) (hstep kd r m).

Lemma il_xhc kd r m ms v vs : 0 < r -> 0 < m ->
  Permutation (locs [(r * m, ms); (v, vs)]) (il (xhc kd r m ms 0 ((m + 2) / 2)) [mkdim v vs vs]).
Proof.
  intros Hr Hm. unfold xhc. rewrite il_xp. change (locs [(r * m, ms); (v, vs)]) with (lplus (dimlocs (r * m, ms)) (locs [(v, vs)])).
  apply lplus_perm_l. unfold dimlocs. cbn [fst snd]. symmetry. apply Permutation_map, hrange_all; auto.
Qed.
Lemma ol_xhc kd r m ms v vs : 0 < r -> 0 < m ->
  Permutation (locs [(r * m, ms); (v, vs)]) (ol (xhc kd r m ms 0 ((m + 2) / 2)) [mkdim v vs vs]).
Proof. intros Hr Hm. rewrite (il_xhc kd) by auto. unfold xhc. now rewrite il_xp, ol_xp. Qed.
Lemma vals_xhc kd r m ms v vs I O mm mm' : 0 < r -> 0 < m ->
  vals (xhc kd r m ms 0 ((m + 2) / 2)) [mkdim v vs vs] I O mm mm' <->
  forall i, 0 <= i < v -> forall p, 0 <= p < r * m -> mm' (sh O (i * vs + p * ms)) = hstep kd r m p (fun q => mm (sh I (i * vs + q * ms))).
Proof.
  intros Hr Hm. unfold xhc. rewrite vals_xp. split.
  - intros H i Hi p Hp. apply (H _ _ (offs1_in v vs vs i Hi)). eapply Permutation_in; [symmetry; apply hrange_all; auto|]. now apply in_zr.
  - intros H a b Hab p Hp. apply offs1_inv in Hab as (i & Hi & -> & ->). apply H; auto. apply in_zr.
    eapply Permutation_in; [apply hrange_all; auto|]. auto.
Qed.

Lemma hc_dit_correct nd ip r m is os v ivs ovs w f : 0 < r -> 0 < m -> 0 <= v ->
  CorrectW (xhc R2HC r m os 0 ((m + 2) / 2)) [mkdim v ovs ovs] w ->
  Correct nd ip (rx (x1 R2HC m (r * is) os)) [mkdim r is (m * os); mkdim v ivs ovs] f ->
  Correct nd ip (rx (x1 R2HC (r * m) is os)) [mkdim v ivs ovs] (fun nx I O mm => w nx O (f nx I O mm)).
Proof.
  intros Hr Hm Hv HW HF.
  refine (Correct_after nd true ip _ _ (rx (x1 R2HC m (r * is) os)) [mkdim r is (m * os); mkdim v ivs ovs]
    (xhc R2HC r m os 0 ((m + 2) / 2)) [mkdim v ovs ovs] f (fun nx I O mm => w nx O mm) _ _ _ _ _ _ _ HF HW).
  - intros _. repeat constructor; cbn; lia.
  - intros _. repeat constructor; cbn; lia.
  - rewrite !il_rx. cbn [x1 ds app ti map snd dn dis]. rewrite (Z.mul_comm r m), (locs_merge m r is) by lia.
    rewrite (Z.mul_comm is r). reflexivity.
  - rewrite !ol_rx. cbn [x1 ds app to_ map snd dn dos]. rewrite (locs_merge r m os) by lia. rewrite (Z.mul_comm os m). apply locs_perm, perm_swap.
  - rewrite ol_rx. apply il_xhc; auto.
  - rewrite ol_rx. apply ol_xhc; auto.
  - intros I O m0 m1 m2. rewrite !vals_rx1, vals_xhc by auto. intros V1 V2 a b Hab k Hk.
    apply offs1_inv in Hab as (iv & Hiv & -> & ->). rewrite V2 by auto. unfold hstep. cbn [isR2HC].
    rewrite (hdit_r2hc r m Hr Hm (fun j => m0 (sh I (iv * ivs + j * is)))); auto.
    intros k' i Hk' Hi. specialize (V1 _ _ (offs2_in r is (m * os) v ivs ovs k' iv Hk' Hiv) i Hi).
    replace (iv * ovs + (k' * m + i) * os) with (k' * (m * os) + iv * ovs + i * os) by ring. rewrite V1.
    apply Rsum_ext. intros l Hl. f_equal. f_equal. f_equal. ring.
Qed.
Lemma hc_dif_correct nd ip r m is os v ivs ovs w f : 0 < r -> 0 < m -> 0 <= v -> ip = true \/ nd = false ->
  CorrectW (xhc HC2R r m is 0 ((m + 2) / 2)) [mkdim v ivs ivs] w ->
  Correct nd ip (rx (x1 HC2R m is (r * os))) [mkdim r (m * is) os; mkdim v ivs ovs] f ->
  Correct nd ip (rx (x1 HC2R (r * m) is os)) [mkdim v ivs ovs] (fun nx I O mm => f nx I O (w nx I mm)).
Proof.
  intros Hr Hm Hv Hd HW HF.
  refine (Correct_before nd true ip _ _ (xhc HC2R r m is 0 ((m + 2) / 2)) [mkdim v ivs ivs]
    (rx (x1 HC2R m is (r * os))) [mkdim r (m * is) os; mkdim v ivs ovs] (fun nx I O mm => w nx O mm) f Hd _ _ _ _ _ _ _ HW HF).
  - intros _. repeat constructor; cbn; lia.
  - intros _. repeat constructor; cbn; lia.
  - rewrite il_rx. apply il_xhc; auto.
  - rewrite il_rx. apply ol_xhc; auto.
  - rewrite !il_rx. cbn [x1 ds app ti map snd dn dis]. rewrite (locs_merge r m is) by lia. rewrite (Z.mul_comm is m). apply locs_perm, perm_swap.
  - rewrite !ol_rx. cbn [x1 ds app to_ map snd dn dos]. rewrite (Z.mul_comm r m), (locs_merge m r os) by lia.
    rewrite (Z.mul_comm os r). reflexivity.
  - intros I O m0 m1 m2. rewrite !vals_rx1, vals_xhc by auto. intros V1 V2 a b Hab k Hk.
    apply offs1_inv in Hab as (iv & Hiv & -> & ->).
    set (k2 := k / r). set (k1 := k mod r).
    assert (Ek : k = k1 + k2 * r) by (unfold k1, k2; rewrite Z.add_comm, Z.mul_comm; apply Z.div_mod; lia).
    assert (Hk1 : 0 <= k1 < r) by (apply Z.mod_pos_bound; lia).
    assert (Hk2 : 0 <= k2 < m) by (unfold k2; split; [apply Z.div_pos; lia|apply Z.div_lt_upper_bound; lia]).
    specialize (V2 _ _ (offs2_in r (m * is) os v ivs ovs k1 iv Hk1 Hiv) k2 Hk2).
    replace (iv * ovs + k * os) with (k1 * os + iv * ovs + k2 * (r * os)) by (rewrite Ek; ring). rewrite V2. clear V2.
    rewrite Ek. rewrite <- (hdif_hc2r r m Hr Hm (fun j => m0 (sh I (iv * ivs + j * is))) (fun p => m1 (sh I (iv * ivs + p * is))) k1 k2); auto.
    + apply Rsum_ext. intros i Hi. f_equal. f_equal. f_equal. ring.
Qed.

(** threads/hc2hc.c: the butterflies in blocks, one thread each, in any order *)
Lemma CW_list vec (ps : Z -> list Z) s G (w : Z -> wapply) ord : ti vec = to_ vec -> (forall j, In j ord -> local (ps j) G) ->
  (forall j, In j ord -> CorrectW (xp (ps j) s G) vec (w j)) ->
  CorrectW (xp (flat_map ps ord) s G) vec (fun nx p m => fold_left (fun m j => w j nx p m) ord m).
Proof.
  intros Hv. induction ord as [|j l IH]; intros HL HW; cbn [flat_map fold_left].
  - apply CW_nil.
  - apply (CW_app vec Hv (ps j) (flat_map ps l) s G (w j) (fun nx p m => fold_left (fun m j => w j nx p m) l m)).
    + intros p Hp x y E. apply in_flat_map in Hp as (i & Hi & Hp). apply (HL i); [now right|auto|].
      intros q Hq. apply E. apply in_flat_map. eauto.
    + apply HW. now left.
    + apply IH; intros; [apply HL|apply HW]; now right.
Qed.
Lemma hrange_blocks r m n nthr : 0 < n -> 0 < nthr ->
  hrange r m 0 n = flat_map (fun j => hrange r m (j * thr_bs n nthr) (thr_cnt n nthr j)) (zr (thr_nb n nthr)).
Proof.
  intros Hn Ht. destruct (thr_facts n nthr Hn Ht) as (H1 & H2 & H3).
  set (bs := thr_bs n nthr) in *. set (nb := thr_nb n nthr) in *.
  assert (E : forall c, 0 <= c -> hrange r m 0 (c * bs) = flat_map (fun j => hrange r m (j * bs) bs) (zr c)).
  { intros c Hc. pattern c. apply natlike_ind; [reflexivity| |auto]. intros j Hj IH. rewrite <- Z.add_1_r, zr_add by lia.
    rewrite flat_map_app_r, <- IH. change (zr 1) with [0]. cbn [map flat_map]. rewrite app_nil_r, Z.add_0_r.
    rewrite Z.mul_add_distr_r, Z.mul_1_l, hrange_add by nia. now rewrite Z.add_0_l. }
  replace nb with ((nb - 1) + 1) at 1 by ring. rewrite zr_add by lia. rewrite flat_map_app_r. change (zr 1) with [0]. cbn [map flat_map].
  rewrite app_nil_r, Z.add_0_r. unfold thr_cnt at 2. fold bs nb. rewrite Z.eqb_refl.
  rewrite (flat_map_eq _ (fun j => hrange r m (j * bs) bs)).
  - rewrite <- E by lia. rewrite <- (Z.add_0_l ((nb - 1) * bs)) at 2. rewrite <- hrange_add by nia. f_equal. ring.
  - intros j Hj. apply in_zr in Hj. unfold thr_cnt. fold bs nb. destruct (Z.eqb_spec j (nb - 1)); [lia|auto].
Qed.
Lemma hc_cut kd r m ms v vs nthr ws ord : kd = R2HC \/ kd = HC2R -> 0 < r -> 0 < m -> 0 < nthr ->
  let n := (m + 2) / 2 in Permutation ord (zr (thr_nb n nthr)) ->
  (forall j, 0 <= j < thr_nb n nthr -> CorrectW (xhc kd r m ms (j * thr_bs n nthr) (thr_cnt n nthr j)) [mkdim v vs vs] (ws j)) ->
  CorrectW (xhc kd r m ms 0 n) [mkdim v vs vs] (thr_ctw ws ord).
Proof.
  intros Hkd Hr Hm Ht n HP HC. pose proof (Z.div_mod (m + 2) 2 ltac:(lia)). pose proof (Z.mod_pos_bound (m + 2) 2 ltac:(lia)).
  fold n in H. assert (Hn : 0 < n) by lia.
  unfold xhc. rewrite (hrange_blocks r m n nthr) by auto.
  apply (CW_sim [mkdim v vs vs] _ (flat_map (fun j => hrange r m (j * thr_bs n nthr) (thr_cnt n nthr j)) ord) _ (hstep kd r m) (hstep kd r m)); auto.
  - apply Permutation_flat_map. now symmetry.
  - assert (Hin : forall j, In j ord -> 0 <= j < thr_nb n nthr).
    { intros j Hj. apply in_zr. eapply Permutation_in; eauto. }
    apply (CW_list [mkdim v vs vs] (fun j => hrange r m (j * thr_bs n nthr) (thr_cnt n nthr j))); auto.
    + intros j Hj. destruct (thr_block n nthr j Hn Ht (Hin j Hj)) as (B1 & B2 & B3). apply hrange_local; auto; lia.
    + intros j Hj. apply HC. auto.
Qed.
