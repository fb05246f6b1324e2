(** * Composite solvers of the complex DFT (proofs): Cooley-Tukey, direct,
    rank-geq2, indirect, vector loops. *)
From Coq Require Import Reals ZArith List Lia Bool Permutation FunctionalExtensionality.
From Verif Require Import NumTheory Cplx Spec Base PrimesModel TensorModel Offs TensorProofs XForm XKern XSeq
  CopyModel CopyProofs CopyBounds TransProofs Rank0Model Rank0Proofs Rank0Plans DftModel DftTw DftTw2.
Import ListNotations.
Open Scope Z_scope.

Lemma Correct_tornk1 nd ip X vec v ivs ovs f : tensor_tornk1 vec = Some (v, ivs, ovs) ->
  Correct nd ip X [mkdim v ivs ovs] f -> Correct nd ip X vec f.
Proof.
  destruct vec as [|d [|? ?]]; cbn [tensor_tornk1]; intros E; [| |discriminate].
  - injection E as <- <- <-. apply Correct_sim; [apply xsim_refl| |].
    + rewrite (offs_1 (mkdim 1 0 0)); reflexivity.
    + intros _. repeat constructor. cbn. lia.
  - injection E as <- <- <-. now destruct d.
Qed.
Lemma tornk1_nneg vec v ivs ovs : tensor_tornk1 vec = Some (v, ivs, ovs) -> nnegd vec -> 0 <= v.
Proof.
  destruct vec as [|d [|? ?]]; cbn [tensor_tornk1]; intros E H; [| |discriminate]; injection E as <- <- <-; [lia|].
  now inversion H.
Qed.

(** ** Cooley-Tukey *)
Lemma locs_merge2 d r m s t : 0 <= r -> 0 <= m -> locs (d :: (r * m, s) :: t) = locs (d :: (r, s * m) :: (m, s) :: t).
Proof.
  intros. change (lplus (dimlocs d) (locs ((r * m, s) :: t)) = lplus (dimlocs d) (locs ((r, s * m) :: (m, s) :: t))).
  f_equal. apply (locs_merge r m s t); lia.
Qed.
Lemma ct_dit_correct nd ip di do_ r m is os v ivs ovs w f : 0 < r -> 0 < m -> 0 <= v ->
  CorrectW (xtw true do_ r (m * os) (m * os) m 0 m os) [mkdim v ovs ovs] w ->
  Correct nd ip (cx di do_ [mkdim m (r * is) os]) [mkdim r is (m * os); mkdim v ivs ovs] f ->
  Correct nd ip (cx di do_ [mkdim (r * m) is os]) [mkdim v ivs ovs] (fun nx I O mm => w nx O (f nx I O mm)).
Proof.
  intros Hr Hm Hv HW HF.
  refine (Correct_after nd true ip _ _ (cx di do_ [mkdim m (r * is) os]) [mkdim r is (m * os); mkdim v ivs ovs]
    (xtw true do_ r (m * os) (m * os) m 0 m os) [mkdim v ovs ovs] f (fun nx I O mm => w nx O mm) _ _ _ _ _ _ _ HF HW).
  - intros _. repeat constructor; cbn; lia.
  - intros _. repeat constructor; cbn; lia.
  - rewrite !il_cx. cbn [app ti map dn dis]. rewrite (Z.mul_comm r m). rewrite locs_merge2 by lia.
    rewrite (Z.mul_comm is r). reflexivity.
  - rewrite !ol_cx. cbn [app to_ map dn dos]. rewrite locs_merge2 by lia. rewrite (Z.mul_comm os m). apply locs_perm, perm_skip, perm_swap.
  - rewrite ol_cx, il_xtw. cbn [app to_ ti map dn dis dos]. rewrite Z.mul_0_l, map_add0. rewrite locs_merge2 by lia. rewrite (Z.mul_comm os m).
    change (Permutation (locs [(2, do_); (r, m * os); (m, os); (v, ovs)]) (locs [(m, os); (2, do_); (r, m * os); (v, ovs)])).
    apply locs_perm. symmetry. apply (perm_rot3 (m, os) (2, do_) (r, m * os)).
  - rewrite ol_cx, ol_xtw. cbn [app to_ ti map dn dis dos]. rewrite Z.mul_0_l, map_add0. rewrite locs_merge2 by lia. rewrite (Z.mul_comm os m).
    change (Permutation (locs [(2, do_); (r, m * os); (m, os); (v, ovs)]) (locs [(m, os); (2, do_); (r, m * os); (v, ovs)])).
    apply locs_perm. symmetry. apply (perm_rot3 (m, os) (2, do_) (r, m * os)).
  - intros I O m0 m1 m2 V1 V2. rewrite vals_cx1. rewrite vals_cx1 in V1. rewrite vals_xtw in V2.
    intros a b Hab k Hk. apply offs1_inv in Hab as (iv & Hiv & -> & ->).
    set (k1 := k / m). set (k2 := k mod m).
    assert (Ek : k = k1 * m + k2) by (unfold k1, k2; rewrite Z.mul_comm; apply Z.div_mod; lia).
    assert (Hk2 : 0 <= k2 < m) by (apply Z.mod_pos_bound; lia).
    assert (Hk1 : 0 <= k1 < r) by (unfold k1; split; [apply Z.div_pos; lia|apply Z.div_lt_upper_bound; lia]).
    specialize (V2 _ _ (offs1_in v ovs ovs iv Hiv) k2 ltac:(lia) k1 Hk1).
    replace (iv * ovs + k * os) with (iv * ovs + k2 * os + k1 * (m * os)) by (rewrite Ek; ring). rewrite V2. clear V2.
    rewrite Ek. pose proof (cooley_tukey r m (fun j => rdc m0 (I, sh I di) (iv * ivs + j * is)) k1 k2 Hr Hm) as CT.
    unfold dft in CT at 1. rewrite CT. cbn [bfly]. unfold dft at 1. apply Csum_ext. intros j Hj. f_equal. f_equal.
    specialize (V1 _ _ (offs2_in r is (m * os) v ivs ovs j iv Hj Hiv) k2 Hk2).
    replace (iv * ovs + k2 * os + j * (m * os)) with (j * (m * os) + iv * ovs + k2 * os) by ring. rewrite V1.
    unfold dft. apply Csum_ext. intros i Hi. f_equal. f_equal. ring.
Qed.

Lemma ct_dif_correct nd ip di do_ r m is os v ivs ovs cors covs w f : 0 < r -> 0 < m -> 0 <= v ->
  ip = true \/ nd = false -> Permutation [(r, m * is); (v, ivs)] [(r, cors); (v, covs)] ->
  CorrectW (xtw false di r (m * is) cors m 0 m is) [mkdim v ivs covs] w ->
  Correct nd ip (cx di do_ [mkdim m is (r * os)]) [mkdim r cors os; mkdim v covs ovs] f ->
  Correct nd ip (cx di do_ [mkdim (r * m) is os]) [mkdim v ivs ovs] (fun nx I O mm => f nx I O (w nx I mm)).
Proof.
  intros Hr Hm Hv Hd PV HW HF.
  assert (P1 : Permutation (locs [(2, di); (r * m, is); (v, ivs)]) (locs [(m, is); (2, di); (r, m * is); (v, ivs)])).
  { rewrite locs_merge2 by lia. rewrite (Z.mul_comm is m). apply locs_perm. symmetry. apply (perm_rot3 (m, is) (2, di) (r, m * is)). }
  assert (P2 : Permutation (locs [(2, di); (r * m, is); (v, ivs)]) (locs [(m, is); (2, di); (r, cors); (v, covs)])).
  { rewrite P1. apply locs_perm. now do 2 apply perm_skip. }
  refine (Correct_before nd true ip _ _ (xtw false di r (m * is) cors m 0 m is) [mkdim v ivs covs]
    (cx di do_ [mkdim m is (r * os)]) [mkdim r cors os; mkdim v covs ovs] (fun nx I O mm => w nx O mm) f Hd _ _ _ _ _ _ _ HW HF).
  - intros _. repeat constructor; cbn; lia.
  - intros _. repeat constructor; cbn; lia.
  - rewrite il_cx, il_xtw. cbn [app ti map dn dis]. rewrite Z.mul_0_l, map_add0. exact P1.
  - rewrite il_cx, ol_xtw. cbn [app ti to_ map dn dis dos]. rewrite Z.mul_0_l, map_add0. exact P2.
  - rewrite !il_cx. cbn [app ti map dn dis]. rewrite P2. apply locs_perm. apply perm_swap.
  - rewrite !ol_cx. cbn [app to_ map dn dos]. rewrite (Z.mul_comm r m).
    rewrite locs_merge2 by lia.
    rewrite (Z.mul_comm os r). reflexivity.
  - intros I O m0 m1 m2 V1 V2. rewrite vals_cx1. rewrite vals_xtw in V1. rewrite vals_cx1 in V2.
    intros a b Hab k Hk. apply offs1_inv in Hab as (iv & Hiv & -> & ->).
    set (k2 := k / r). set (k1 := k mod r).
    assert (Ek : k = k2 * r + k1) by (unfold k1, k2; rewrite Z.mul_comm; apply Z.div_mod; lia).
    assert (Hk1 : 0 <= k1 < r) by (apply Z.mod_pos_bound; lia).
    assert (Hk2 : 0 <= k2 < m) by (unfold k2; split; [apply Z.div_pos; lia|apply Z.div_lt_upper_bound; lia]).
    specialize (V2 _ _ (offs2_in r cors os v covs ovs k1 iv Hk1 Hiv) k2 Hk2).
    replace (iv * ovs + k * os) with (k1 * os + iv * ovs + k2 * (r * os)) by (rewrite Ek; ring). rewrite V2. clear V2.
    rewrite Ek. pose proof (cooley_tukey m r (fun j => rdc m0 (I, sh I di) (iv * ivs + j * is)) k2 k1 Hm Hr) as CT.
    rewrite (Z.mul_comm r m). unfold dft in CT at 1. rewrite CT. unfold dft at 1. apply Csum_ext. intros j Hj. f_equal.
    specialize (V1 _ _ (offs1_in v ivs covs iv Hiv) j ltac:(lia) k1 Hk1).
    replace (k1 * cors + iv * covs + j * is) with (iv * covs + j * is + k1 * cors) by ring. rewrite V1. cbn [bfly].
    rewrite (Z.mul_comm r m), (Z.mul_comm k1 j). f_equal.
    unfold dft. apply Csum_ext. intros i Hi. f_equal. f_equal. ring.
Qed.

(** ** Splitting a vector into batches *)
Lemma Correct_batchv nd ip X vec vl ivs ovs c B rest f g : xwf X -> 0 <= c -> 0 <= B -> 0 <= rest -> vl = c * B + rest ->
  (ip = true -> c = 0 \/ (ivs = ovs /\ same_set X vec)) ->
  Correct nd ip X (mkdim B ivs ovs :: vec) f -> Correct nd ip X (mkdim rest ivs ovs :: vec) g ->
  Correct nd ip X (mkdim vl ivs ovs :: vec) (fun nx I O m =>
    g nx (sh I (c * (B * ivs))) (sh O (c * (B * ovs))) (zfor c (fun i => f nx (sh I (i * (B * ivs))) (sh O (i * (B * ovs)))) m)).
Proof.
  intros HX Hc HB Hr -> Hip Cf Cg.
  destruct (Z.eq_dec c 0) as [->|Hc0].
  { replace (0 * B + rest) with rest by ring. eapply Correct_ext; [|exact Cg]. intros. now rewrite !Z.mul_0_l, !sh_0, zfor_0. }
  assert (Hip' : ip = true -> ivs = ovs /\ same_set X vec) by (intros E; destruct (Hip E); tauto).
  assert (C1 : Correct nd ip X (mkdim (c * B) ivs ovs :: vec) (vloop c (ivs * B) (ovs * B) f)).
  { apply Correct_sim with (X' := X) (vec' := mkdim c (ivs * B) (ovs * B) :: mkdim B ivs ovs :: vec).
    - apply xsim_refl.
    - now rewrite offs_merge.
    - intros H. inversion H; subst. constructor; [cbn; lia|]. constructor; [cbn; lia|auto].
    - apply Correct_loop; auto. intros E. destruct (Hip' E) as [-> S]. split; auto.
      intros o. rewrite in_il_cons, in_ol_cons. cbn [dn dis dos].
      split; intros (i & o' & Hi & Ho & ->); exists i, o'; (split; [auto|]; split; [now apply S|auto]). }
  eapply Correct_ext; [|apply (Correct_seq nd ip X vec (c * B) rest ivs ovs _ g HX ltac:(nia) Hr Hip' C1 Cg)].
  intros nx I O m. unfold seq_at, vloop. cbn beta. rewrite !Z.mul_assoc. f_equal. apply zfor_ext. intros i m' _.
  now rewrite (Z.mul_comm ivs B), (Z.mul_comm ovs B).
Qed.
Lemma Correct_batch nd ip X vl ivs ovs c B rest f g : xwf X -> 0 <= c -> 0 <= B -> 0 <= rest -> vl = c * B + rest ->
  (ip = true -> c = 0 \/ (ivs = ovs /\ same_set X [])) ->
  Correct nd ip X [mkdim B ivs ovs] f -> Correct nd ip X [mkdim rest ivs ovs] g ->
  Correct nd ip X [mkdim vl ivs ovs] (fun nx I O m =>
    g nx (sh I (c * (B * ivs))) (sh O (c * (B * ovs))) (zfor c (fun i => f nx (sh I (i * (B * ivs))) (sh O (i * (B * ovs)))) m)).
Proof. apply Correct_batchv. Qed.

(** ** dft/direct.c *)
Lemma same_set_strides di sz vec : tensor_inplace_strides2 sz vec = true -> same_set (cx di di sz) vec.
Proof.
  intros H o. rewrite il_cx, ol_cx. replace (to_ (sz ++ vec)) with (ti (sz ++ vec)); [reflexivity|].
  unfold ti, to_. apply map_ext_in. intros d Hd. unfold tensor_inplace_strides2, tensor_inplace_strides in H.
  apply andb_true_iff in H as [H1 H2]. rewrite forallb_forall in H1, H2. apply in_app_iff in Hd as [Hd|Hd].
  - specialize (H1 d Hd). f_equal. lia.
  - specialize (H2 d Hd). f_equal. lia.
Qed.
Lemma kdft_correct nd ip di do_ n is os vl ivs ovs :
  (ip = true -> vl = 1 \/ (di = do_ /\ is = os /\ ivs = ovs)) ->
  Correct nd ip (cx di do_ [mkdim n is os]) [mkdim vl ivs ovs] (kdft di do_ n is os vl ivs ovs).
Proof.
  intros H. unfold kdft. destruct (Z.eq_dec vl 1) as [->|Hv].
  - eapply Correct_ext; [|apply Correct_dim1, kern_correct]. intros. unfold vloop. now rewrite zfor_1, !Z.mul_0_l, !sh_0.
  - apply Correct_loop; [apply cx_wf| |apply kern_correct]. intros E. destruct (H E) as [?|(-> & -> & ->)]; [easy|].
    split; auto. apply same_set_strides. unfold tensor_inplace_strides2. cbn. now rewrite Z.eqb_refl.
Qed.

Lemma NoDup_buf2 n mc B : 0 <= n -> 0 <= mc <= B -> NoDup (locs [(2, 1); (n, 2 * B); (mc, 2)]).
Proof.
  intros Hn Hmc. eapply Permutation_NoDup; [apply locs_perm, perm_swap|].
  refine (proj1 (locs_nest n (2 * B) _ (n * (2 * B)) Hn ltac:(lia) ltac:(lia) _ _)).
  - eapply Permutation_NoDup; [apply locs_perm, perm_swap|].
    refine (proj1 (locs_nest mc 2 _ (2 * B) _ _ _ _ _)); try lia.
    * apply (locs_nest 2 1 [] 2); try lia; [constructor; [easy|constructor]|]. cbn. lia.
    * apply (locs_nest 2 1 [] 2); try lia; [constructor; [easy|constructor]|]. cbn. lia.
  - intros x Hx. apply (Permutation_in x (locs_perm _ _ (perm_swap _ _ _))) in Hx. revert x Hx.
    refine (proj2 (locs_nest mc 2 _ (2 * B) _ _ _ _ _)); try lia.
    * apply (locs_nest 2 1 [] 2); try lia; [constructor; [easy|constructor]|]. cbn. lia.
    * apply (locs_nest 2 1 [] 2); try lia; [constructor; [easy|constructor]|]. cbn. lia.
Qed.

Lemma direct_dobatch_correct nd ip di do_ n is os ivs ovs B bsz : 0 <= n -> 0 <= bsz <= B ->
  Correct nd ip (cx di do_ [mkdim n is os]) [mkdim bsz ivs ovs]
    (fun nx I O m => direct_dobatch di do_ n is os ivs ovs B bsz (S nx) (nx, 0) I O m).
Proof.
  intros Hn Hb. unfold direct_dobatch. destruct (_ <? _).
  - refine (Correct_buf2 nd ip _ _ (cx di 1 []) [mkdim n is (2 * B); mkdim bsz ivs 2] (cx 1 do_ [mkdim n (2 * B) os]) [mkdim bsz 2 ovs]
      (fun _ I O m => cpy2d_pair_ci n is (2 * B) bsz ivs 2 I (sh I di) O (sh O 1) m) (kdft 1 do_ n (2 * B) os bsz 2 ovs)
      (fun nx => (nx, 0)) _ _ _ _ _ _ _ _ (cpy2d_pair_ci_correct _ _ _ _ _ _ _ _ _) (kdft_correct _ _ _ _ _ _ _ _ _ _ _)).
    + reflexivity.
    + repeat constructor; cbn; lia.
    + repeat constructor; cbn; lia.
    + now rewrite !il_cx.
    + now rewrite !ol_cx.
    + rewrite ol_cx. now apply NoDup_buf2.
    + now rewrite ol_cx, il_cx.
    + intros nx I O m m1 m2 V1 V2. rewrite vals_copy in V1. rewrite vals_cx1 in *.
      intros a b Hab k Hk. apply offs1_inv in Hab as (iv & Hiv & -> & ->).
      rewrite (V2 _ _ (offs1_in bsz 2 ovs iv Hiv) k Hk). apply Csum_ext. intros j Hj. f_equal.
      rewrite (Z.add_comm (iv * 2)). rewrite (V1 _ _ (offs2_in n is (2 * B) bsz ivs 2 j iv Hj Hiv)). f_equal. ring.
    + discriminate.
  - set (X1 := cx di 1 [mkdim n is (2 * B)]).
    assert (C1 : Correct (nd && negb ip) false X1 [mkdim bsz ivs 2] (fun nx I O m => kdft 1 1 n (2 * B) (2 * B) bsz 2 2 nx O O 
       (cpy2d_pair_ci n is (2 * B) bsz ivs 2 I (sh I di) O (sh O 1) m))).
    { refine (Correct_after _ true false X1 _ (cx di 1 []) [mkdim n is (2 * B); mkdim bsz ivs 2] (cx 1 1 [mkdim n (2 * B) (2 * B)]) [mkdim bsz 2 2]
      (fun _ I O m => cpy2d_pair_ci n is (2 * B) bsz ivs 2 I (sh I di) O (sh O 1) m) (kdft 1 1 n (2 * B) (2 * B) bsz 2 2)
       _ _ _ _ _ _ _ (cpy2d_pair_ci_correct _ _ _ _ _ _ _ _ _) (kdft_correct _ _ _ _ _ _ _ _ _ _ _)).
      + intros _. repeat constructor; cbn; lia.
      + intros _. repeat constructor; cbn; lia.
      + unfold X1. now rewrite !il_cx.
      + unfold X1. now rewrite !ol_cx.
      + unfold X1. now rewrite il_cx, ol_cx.
      + unfold X1. now rewrite !ol_cx.
      + intros I O m m1 m2 V1 V2. unfold X1. rewrite vals_copy in V1. rewrite vals_cx1 in *.
        intros a b Hab k Hk. apply offs1_inv in Hab as (iv & Hiv & -> & ->).
        rewrite (V2 _ _ (offs1_in bsz 2 2 iv Hiv) k Hk). apply Csum_ext. intros j Hj. f_equal.
        rewrite (Z.add_comm (iv * 2)). rewrite (V1 _ _ (offs2_in n is (2 * B) bsz ivs 2 j iv Hj Hiv)). f_equal. ring.
      + auto. }
    refine (Correct_ext _ _ _ _ (fun nx I O m => cpy2d_pair_co n (2 * B) os bsz 2 ovs (nx, 0) (sh (nx, 0) 1) O (sh O do_)
       (kdft 1 1 n (2 * B) (2 * B) bsz 2 2 (S nx) (nx, 0) (nx, 0) (cpy2d_pair_ci n is (2 * B) bsz ivs 2 I (sh I di) (nx, 0) (sh (nx, 0) 1) m))) _ (fun _ _ _ _ => eq_refl) _).
    refine (Correct_buf2 nd ip _ _ X1 [mkdim bsz ivs 2] (cx 1 do_ []) [mkdim n (2 * B) os; mkdim bsz 2 ovs]
      _ (fun _ I O m => cpy2d_pair_co n (2 * B) os bsz 2 ovs I (sh I 1) O (sh O do_) m)
      (fun nx => (nx, 0)) _ _ _ _ _ _ _ _ C1 (cpy2d_pair_co_correct _ _ _ _ _ _ _ _ _)).
    + reflexivity.
    + repeat constructor; cbn; lia.
    + repeat constructor; cbn; lia.
    + unfold X1. now rewrite !il_cx.
    + now rewrite !ol_cx.
    + unfold X1. rewrite ol_cx. now apply NoDup_buf2.
    + unfold X1. now rewrite ol_cx, il_cx.
    + intros nx I O m m1 m2 V1 V2. unfold X1 in *. rewrite vals_copy in V2. rewrite vals_cx1 in *.
      intros a b Hab k Hk. apply offs1_inv in Hab as (iv & Hiv & -> & ->).
      rewrite <- (V1 _ _ (offs1_in bsz ivs 2 iv Hiv) k Hk).
      rewrite (Z.add_comm (iv * ovs)). rewrite (V2 _ _ (offs2_in n (2 * B) os bsz 2 ovs k iv Hk Hiv)). f_equal. ring.
Qed.

Lemma direct_apply_buf_correct nd ip di do_ n is os vl ivs ovs : 0 <= n -> 0 <= vl ->
  (ip = true -> vl <= compute_batchsize n \/ (di = do_ /\ is = os /\ ivs = ovs)) ->
  Correct nd ip (cx di do_ [mkdim n is os]) [mkdim vl ivs ovs] (direct_apply_buf di do_ n is os vl ivs ovs).
Proof.
  intros Hn Hv Hip. unfold direct_apply_buf. cbn zeta. set (B := compute_batchsize n) in *.
  pose proof (batchsize_pos n Hn) as HB. fold B in HB.
  pose proof (nsteps_spec 0 (vl - B) B HB) as (Hc & Hc1 & Hc2). set (c := nsteps 0 (vl - B) B) in *. cbn zeta in *.
  assert (HcB : 0 <= vl - c * B <= B).
  { destruct Hc2 as [->|Hc2]; [lia|]. rewrite Z.mul_sub_distr_r in Hc2. lia. }
  apply (Correct_batch nd ip _ vl ivs ovs c B (vl - c * B)
    (fun nx I O m => direct_dobatch di do_ n is os ivs ovs B B (S nx) (nx, 0) I O m)
    (fun nx I O m => direct_dobatch di do_ n is os ivs ovs B (vl - c * B) (S nx) (nx, 0) I O m)); try lia.
  - apply cx_wf.
  - intros E. destruct (Hip E) as [H|(-> & -> & ->)].
    + left. destruct Hc2 as [?|Hc2]; [lia|]. assert (c <= 0 \/ 1 <= c) as [?|?] by lia; [lia|].
      assert (B <= c * B) by nia. assert (0 <= (c - 1) * B) by nia. lia.
    + right. split; auto. apply same_set_strides. unfold tensor_inplace_strides2. cbn. now rewrite Z.eqb_refl.
  - apply direct_dobatch_correct; lia.
  - apply direct_dobatch_correct; lia.
Qed.

Lemma direct_extra_correct nd ip di do_ n is os vl ivs ovs : 0 <= n -> 0 < vl ->
  (ip = true -> vl = 1 \/ (di = do_ /\ is = os /\ ivs = ovs)) ->
  Correct nd ip (cx di do_ [mkdim n is os]) [mkdim vl ivs ovs] (direct_extra_iter di do_ n is os vl ivs ovs).
Proof.
  intros Hn Hv Hip. unfold direct_extra_iter.
  destruct (Z.eq_dec vl 1) as [->|Hv1].
  - eapply Correct_ext; [|apply (kdft_correct nd ip di do_ n is os 1 ivs ovs); auto].
    intros nx I O m. cbn [Z.sub Z.opp Z.add Z.pos_sub]. unfold kdft, vloop. rewrite zfor_0, !zfor_1, !Z.mul_0_l, !sh_0. reflexivity.
  - assert (Hip' : ip = true -> ivs = ovs /\ same_set (cx di do_ [mkdim n is os]) []).
    { intros E. destruct (Hip E) as [?|(-> & -> & ->)]; [easy|]. split; auto. apply same_set_strides. unfold tensor_inplace_strides2. cbn. now rewrite Z.eqb_refl. }
    pose proof (Correct_seq nd ip (cx di do_ [mkdim n is os]) [] (vl - 1) 1 ivs ovs (kdft di do_ n is os (vl - 1) ivs ovs) (kdft di do_ n is os 1 0 0)) as C.
    replace (vl - 1 + 1) with vl in C by ring. apply C; auto; try lia.
    + apply cx_wf.
    + apply kdft_correct. intros E. right. destruct (Hip E); [easy|auto].
    + apply Correct_dim1. eapply Correct_ext; [|apply kern_correct]. intros. unfold kdft, vloop. now rewrite zfor_1, !Z.mul_0_l, !sh_0.
Qed.
