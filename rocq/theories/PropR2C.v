(** * C40: real-to-complex and complex-to-real transforms, from the API *)
From Coq Require Import Reals ZArith List Lia Lra Bool Permutation FunctionalExtensionality.
From Verif Require Import NumTheory Cplx Spec SpecApi SpecR2R SpecR2C Base PrimesModel TensorModel Offs TensorProofs XForm XKern XSeq CopyProofs
  Rank0Model DftModel RdftModel R2Model DftMath DftTw DftTw2 DftComp DftSplit DftProofs RSum RMath RdftLib RdftCanon IForm R2X R2Lib R2Row R2Rank2 R2Proofs
  FlagsModel PropFlags ApiModel ApiProofs PropDft ApiR2R PropR2R ApiR2C R2Final.
Import ListNotations.
Import SpecR2C.
Open Scope Z_scope.

(** ** Library *)
Definition preserve_r2c (flags : Z) : bool := flagset flags FFTW_PRESERVE_INPUT || negb (flagset flags FFTW_DESTROY_INPUT).
Lemma c2r_preserve flags out ri : word32 flags -> out <> ri -> flagset (PLNR_L (c2r_flags flags out ri)) NO_DESTROY_INPUT = flagset flags FFTW_PRESERVE_INPUT.
Proof.
  intros W NE. unfold c2r_flags. destruct (loc_same out ri) eqn:E; [apply loc_same_eq in E; contradiction|].
  assert (W' : word32 (Z.lor flags FFTW_DESTROY_INPUT)).
  { unfold word32 in *. change FFTW_DESTROY_INPUT with 1. destruct (Z.eq_dec flags 0) as [->|N0']; [cbn; lia|].
    split; [apply Z.lor_nonneg; lia|]. apply Z.log2_lt_pow2; [|rewrite Z.log2_lor by lia; apply Z.max_lub_lt; [apply Z.log2_lt_pow2; lia|cbn; lia]].
    pose proof (Z.lor_nonneg flags 1) as Q. assert (Z.lor flags 1 <> 0); [|lia]. intros Q0. apply Z.lor_eq_0_iff in Q0. lia. }
  rewrite C20_destroy_input by exact W'. unfold FFTW_PRESERVE_INPUT, FFTW_DESTROY_INPUT. rewrite !flagset_bit by lia.
  rewrite !Z.lor_spec. change (Z.testbit (2 ^ 0) 0) with true. rewrite orb_true_r. cbn [negb]. rewrite orb_false_r.
  change (Z.testbit (2 ^ 0) 4) with false. now rewrite orb_false_r.
Qed.
Lemma ci_sh cr ci : fst ci = fst cr -> ci = sh cr (snd ci - snd cr).
Proof. intros E. destruct ci, cr. unfold sh. cbn in *. subst. f_equal. lia. Qed.

(** one planned problem, executed on any arrays laid out as the planning arrays *)
Lemma rc_all qs flags c2r sz vec r cr ci p : qsort_perm qs -> mkapiplan_rdft2 qs flags c2r sz vec r cr ci (Some p) ->
  forall nx r2 cr2 ci2 m, (r = cr <-> r2 = cr2) -> fst ci2 = fst cr2 -> snd ci2 - snd cr2 = snd ci - snd cr ->
  (fst r2 < nx)%nat -> (fst cr2 < nx)%nat -> good_rc c2r sz vec r2 (cr2, ci2) ->
  let nd := flagset (PLNR_L flags) NO_DESTROY_INPUT && negb (loc_same r cr) in
  if c2r then is_c2r sz vec (cr2, ci2) r2 m (r2_apply p nx cr2 r2 m) /\ untouched_c2r nd nx sz vec (cr2, ci2) r2 m (r2_apply p nx cr2 r2 m)
  else is_r2c sz vec r2 (cr2, ci2) m (r2_apply p nx r2 cr2 m) /\ untouched_r2c nd nx sz vec r2 (cr2, ci2) m (r2_apply p nx r2 cr2 m).
Proof.
  intros Hq Hp nx r2 cr2 ci2 m Hip Hb Hd B1 B2 HG nd. inversion Hp as [|f E1 E2 Hc]; subst p. cbn [r2_apply].
  rewrite prob3_eq in Hc. cbn [fst snd] in Hc. rewrite (ci_sh cr2 ci2 Hb), Hd in HG |- *. set (dc := snd ci - snd cr) in *.
  assert (Hip' : loc_same r cr = true <-> r2 = cr2) by (rewrite loc_same_eq; exact Hip).
  destruct (rc_run qs _ _ c2r sz vec cr2 dc r2 f Hq Hc HG Hip' nx m B1 B2) as [V F]. fold nd in F.
  destruct (grc_row _ _ _ _ _ HG) as (P1 & P2 & _). unfold frame in F. rewrite il_xr2, ol_xr2, prow_dn, prow_r, prow_c in F.
  destruct c2r; (split; [now apply c2r_vals || now apply r2c_vals|]); intros l L1 L2 L3; apply F; auto.
  - intros Q. apply L2, real_loc_in. eapply InP_perm; [symmetry; apply RL_perm|exact Q].
  - destruct L3 as [L3|L3]; [now left|right]. intros Q. apply L3, cplx_loc_in. eapply InP_perm; [symmetry; apply CL_perm|exact Q].
  - intros Q. apply L2, cplx_loc_in. eapply InP_perm; [symmetry; apply CL_perm|exact Q].
  - destruct L3 as [L3|L3]; [now left|right]. intros Q. apply L3, real_loc_in. eapply InP_perm; [symmetry; apply RL_perm|exact Q].
Qed.
Lemma mkplan_eq qs flags c2r sz vec r cr ci p : mkapiplan_rdft2 qs flags c2r sz vec r cr ci (Some p) ->
  r2_c2r p = c2r /\ r2_r p = r /\ r2_c p = cr.
Proof. intros H. inversion H; subst. auto. Qed.
Lemma nd_ok c r cr : negb (loc_same r cr) && c = true <-> c = true /\ r <> cr.
Proof.
  rewrite andb_true_iff, negb_true_iff. destruct (loc_same r cr) eqn:E.
  - apply loc_same_eq in E. split; [intros [? _]; discriminate|intros [_ ?]; contradiction].
  - split; [intros [_ H]; split; auto|tauto]. intros Q. apply loc_same_eq in Q. congruence.
Qed.

(** ** C40: every plan computes the documented transform and writes nothing but the
    output array (and, only if the flags allow it, the input array). *)
Theorem C40_split_r2c : forall qs rank dims hrank hdims inp ro io flags p, qsort_perm qs -> word32 flags ->
  plan_guru_split_dft_r2c qs rank dims hrank hdims inp ro io flags (Some p) ->
  let sz := dims_of rank dims in let hm := hm_of hrank hdims in
  (* the planning arrays, or new arrays passed to fftw_execute_split_dft_r2c *)
  forall nx in2 ro2 io2 m, (inp = ro <-> in2 = ro2) -> fst io2 = fst ro2 -> snd io2 - snd ro2 = snd io - snd ro ->
  (fst in2 < nx)%nat -> (fst ro2 < nx)%nat -> good_rc false sz hm in2 (ro2, io2) ->
    is_r2c sz hm in2 (ro2, io2) m (execute_dft_r2c p nx in2 ro2 m) /\
    (forall nd, (nd = true -> preserve_r2c flags = true /\ inp <> ro) ->
       untouched_r2c nd nx sz hm in2 (ro2, io2) m (execute_dft_r2c p nx in2 ro2 m)) /\
    execute_2 p nx m = execute_dft_r2c p nx inp ro m.
Proof.
  intros qs rank dims hrank hdims inp ro io flags p Hq Hw Hp sz hm nx in2 ro2 io2 m Hip E1 E2 B1 B2 HG.
  inversion Hp as [|r KK Hmk]; subst r. destruct (kosher_guru _ _ _ _ KK) as (_ & _ & _ & _ & _ & _ & Q1 & Q2).
  rewrite Q1, Q2 in Hmk. fold sz hm in Hmk.
  destruct (rc_all _ _ _ _ _ _ _ _ _ Hq Hmk nx in2 ro2 io2 m Hip E1 E2 B1 B2 HG) as [V F].
  destruct (mkplan_eq _ _ _ _ _ _ _ _ _ Hmk) as (R1 & R2 & R3).
  split; [exact V|]. split; [|unfold execute_2; now rewrite R1, R2, R3].
  intros nd Hnd l L1 L2 L3. apply F; auto. destruct L3 as [->|L3]; [left|now right].
  rewrite C20_destroy_input, andb_comm by auto. apply nd_ok. now apply Hnd.
Qed.
Theorem C40_split_c2r : forall qs rank dims hrank hdims ri ii out flags p, qsort_perm qs -> word32 flags ->
  plan_guru_split_dft_c2r qs rank dims hrank hdims ri ii out flags (Some p) ->
  let sz := dims_of rank dims in let hm := hm_of hrank hdims in
  forall nx ri2 ii2 out2 m, (out = ri <-> out2 = ri2) -> fst ii2 = fst ri2 -> snd ii2 - snd ri2 = snd ii - snd ri ->
  (fst out2 < nx)%nat -> (fst ri2 < nx)%nat -> good_rc true sz hm out2 (ri2, ii2) ->
    is_c2r sz hm (ri2, ii2) out2 m (execute_dft_c2r p nx ri2 out2 m) /\
    (forall nd, (nd = true -> flagset flags FFTW_PRESERVE_INPUT = true /\ out <> ri) ->
       untouched_c2r nd nx sz hm (ri2, ii2) out2 m (execute_dft_c2r p nx ri2 out2 m)) /\
    execute_2 p nx m = execute_dft_c2r p nx ri out m.
Proof.
  intros qs rank dims hrank hdims ri ii out flags p Hq Hw Hp sz hm nx ri2 ii2 out2 m Hip E1 E2 B1 B2 HG.
  inversion Hp as [|r KK Hmk]; subst r. destruct (kosher_guru _ _ _ _ KK) as (_ & _ & _ & _ & _ & _ & Q1 & Q2).
  rewrite Q1, Q2 in Hmk. fold sz hm in Hmk.
  destruct (rc_all _ _ _ _ _ _ _ _ _ Hq Hmk nx out2 ri2 ii2 m Hip E1 E2 B1 B2 HG) as [V F].
  destruct (mkplan_eq _ _ _ _ _ _ _ _ _ Hmk) as (R1 & R2 & R3).
  split; [exact V|]. split; [|unfold execute_2; now rewrite R1, R2, R3].
  intros nd Hnd l L1 L2 L3. apply F; auto. destruct L3 as [->|L3]; [left|now right].
  destruct (Hnd eq_refl) as [H1 H2]. rewrite andb_comm. apply nd_ok. split; auto. rewrite c2r_preserve; auto.
Qed.

(** *** Interleaved complex arrays *)
Definition sa (c2r : bool) : Z := if c2r then 2 else 1.
Definition sb (c2r : bool) : Z := if c2r then 1 else 2.
Lemma in_reals_scl c2r t : in_reals c2r t = scl (sa c2r) (sb c2r) t.
Proof.
  unfold in_reals, scl. apply map_ext. intros [n i o]. unfold dim_scale. destruct c2r; cbn [dn dis dos sa sb]; f_equal; ring.
Qed.
Lemma half_app o r : half (o ++ [r]) = o ++ [mkdim (dn r / 2 + 1) (dis r) (dos r)].
Proof.
  assert (E1 : outer_of (o ++ [r]) = o) by (unfold outer_of; now rewrite removelast_last).
  assert (E2 : row_of (o ++ [r]) = r) by (unfold row_of; now rewrite last_last).
  unfold half. destruct (o ++ [r]) eqn:E; [now destruct o|]. now rewrite E1, E2.
Qed.
Lemma half_scl a b t : half (scl a b t) = scl a b (half t).
Proof.
  destruct t as [|d t]; [reflexivity|]. rewrite (split_sz d t), scl_app. cbn [scl map]. rewrite !half_app, scl_app. reflexivity.
Qed.
Lemma scl_dn a b t : map dn (scl a b t) = map dn t.
Proof. unfold scl. rewrite map_map. reflexivity. Qed.
Lemma mirror_scl a b t ks : mirror (scl a b t) ks = mirror t ks.
Proof. revert ks. induction t as [|d t IH]; intros [|k ks]; auto. cbn [scl map mirror dn dim_scale]. f_equal. apply IH. Qed.
Lemma rdc_celt m p o : rdc m (p, sh p 1) (2 * o) = celt m p o.
Proof. unfold rdc, celt. cbn [fst snd]. rewrite sh_sh. do 3 f_equal. ring. Qed.
Lemma r2c_il sz hm inp out m m' : is_r2c (in_reals false sz) (in_reals false hm) inp (out, sh out 1) m m' -> is_r2c_il sz hm inp out m m'.
Proof.
  intros H vs ks Hv Hk. rewrite !in_reals_scl in H. cbn [sa sb] in H. specialize (H vs ks). rewrite half_scl, !scl_box in H. specialize (H Hv Hk).
  rewrite !scl_ooff, !scl_ioff, !sdft_fwd, scl_mdft in H. rewrite sdft_fwd. rewrite <- rdc_celt. rewrite Z.mul_add_distr_l, H.
  f_equal. apply functional_extensionality. intros o. do 3 f_equal. ring.
Qed.
Lemma c2r_il sz hm inp out m m' : is_c2r (in_reals true sz) (in_reals true hm) (inp, sh inp 1) out m m' -> is_c2r_il sz hm inp out m m'.
Proof.
  intros H vs h Hv Hh E js Hj. rewrite !in_reals_scl in H. cbn [sa sb] in H. specialize (H vs h). rewrite scl_box in H.
  assert (Hh' : hermitian (scl 2 1 sz) h) by (intros ks Hk; rewrite mirror_scl; apply Hh; now apply scl_box in Hk).
  specialize (H Hv Hh'). rewrite half_scl in H.
  assert (E' : forall ks, in_box (scl 2 1 (half sz)) ks -> h ks = rdc m (inp, sh inp 1) (ioff (scl 2 1 hm) vs + ioff (scl 2 1 sz) ks)).
  { intros ks Hk. apply scl_box in Hk. rewrite (E ks Hk), !scl_ioff, <- Z.mul_add_distr_l. symmetry. apply rdc_celt. }
  specialize (H E' js (proj2 (scl_box 2 1 sz js) Hj)). rewrite !scl_ooff, scl_dn, !Z.mul_1_l in H. exact H.
Qed.
Lemma guru_iodims rank dims hrank hdims c2r : guru_kosherp rank dims hrank hdims = true ->
  mktensor_iodims rank dims (sa c2r) (sb c2r) = in_reals c2r (dims_of rank dims) /\
  mktensor_iodims hrank hdims (sa c2r) (sb c2r) = in_reals c2r (hm_of hrank hdims).
Proof.
  intros K. destruct (kosher_guru _ _ _ _ K) as (K1 & KF & _ & _ & _ & _ & E1 & E2). rewrite !in_reals_scl.
  assert (G : forall r d, mktensor_iodims r d (sa c2r) (sb c2r) = scl (sa c2r) (sb c2r) (mktensor_iodims r d 1 1)).
  { intros r d. unfold mktensor_iodims, scl. destruct (FINITE_RNK r); [|now destruct c2r]. rewrite map_map. apply map_ext.
    intros i. unfold dim_scale. cbn [dn dis dos]. f_equal; ring. }
  now rewrite !G, E1, E2.
Qed.

(** [in_reals] counts the strides of the complex array in reals *)
Theorem C40_guru_r2c : forall qs rank dims hrank hdims inp out flags p, qsort_perm qs -> word32 flags ->
  plan_guru_dft_r2c qs rank dims hrank hdims inp out flags (Some p) ->
  let sz := dims_of rank dims in let hm := hm_of hrank hdims in
  forall nx in2 out2 m, (inp = out <-> in2 = out2) -> (fst in2 < nx)%nat -> (fst out2 < nx)%nat ->
  good_rc false (in_reals false sz) (in_reals false hm) in2 (out2, sh out2 1) ->
    is_r2c_il sz hm in2 out2 m (execute_dft_r2c p nx in2 out2 m) /\
    (forall nd, (nd = true -> preserve_r2c flags = true /\ inp <> out) ->
       untouched_r2c nd nx (in_reals false sz) (in_reals false hm) in2 (out2, sh out2 1) m (execute_dft_r2c p nx in2 out2 m)) /\
    execute_2 p nx m = execute_dft_r2c p nx inp out m.
Proof.
  intros qs rank dims hrank hdims inp out flags p Hq Hw Hp sz hm nx in2 out2 m Hip B1 B2 HG.
  inversion Hp as [|r KK Hmk]; subst r. destruct (guru_iodims _ _ _ _ false KK) as [Q1 Q2]. cbn [sa sb] in Q1, Q2.
  rewrite Q1, Q2 in Hmk. fold sz hm in Hmk. cbn [extract_reim fst snd] in Hmk. change (extract_reim FFT_SIGN out) with (out, sh out 1) in Hmk. cbn [fst snd] in Hmk.
  assert (D : snd (sh out2 1) - snd out2 = snd (sh out 1) - snd out) by (unfold sh; cbn; lia).
  destruct (rc_all _ _ _ _ _ _ _ _ _ Hq Hmk nx in2 out2 (sh out2 1) m Hip eq_refl D B1 B2 HG) as [V F].
  destruct (mkplan_eq _ _ _ _ _ _ _ _ _ Hmk) as (R1 & R2 & R3).
  split; [now apply r2c_il|]. split; [|unfold execute_2; now rewrite R1, R2, R3].
  intros nd Hnd l L1 L2 L3. apply F; auto. destruct L3 as [->|L3]; [left|now right].
  rewrite C20_destroy_input, andb_comm by auto. apply nd_ok. now apply Hnd.
Qed.
Theorem C40_guru_c2r : forall qs rank dims hrank hdims inp out flags p, qsort_perm qs -> word32 flags ->
  plan_guru_dft_c2r qs rank dims hrank hdims inp out flags (Some p) ->
  let sz := dims_of rank dims in let hm := hm_of hrank hdims in
  forall nx in2 out2 m, (inp = out <-> in2 = out2) -> (fst in2 < nx)%nat -> (fst out2 < nx)%nat ->
  good_rc true (in_reals true sz) (in_reals true hm) out2 (in2, sh in2 1) ->
    is_c2r_il sz hm in2 out2 m (execute_dft_c2r p nx in2 out2 m) /\
    (forall nd, (nd = true -> flagset flags FFTW_PRESERVE_INPUT = true /\ inp <> out) ->
       untouched_c2r nd nx (in_reals true sz) (in_reals true hm) (in2, sh in2 1) out2 m (execute_dft_c2r p nx in2 out2 m)) /\
    execute_2 p nx m = execute_dft_c2r p nx inp out m.
Proof.
  intros qs rank dims hrank hdims inp out flags p Hq Hw Hp sz hm nx in2 out2 m Hip B1 B2 HG.
  inversion Hp as [|r KK Hmk]; subst r. destruct (guru_iodims _ _ _ _ true KK) as [Q1 Q2]. cbn [sa sb] in Q1, Q2.
  rewrite Q1, Q2 in Hmk. fold sz hm in Hmk. change (extract_reim FFT_SIGN inp) with (inp, sh inp 1) in Hmk. cbn [fst snd] in Hmk.
  assert (D : snd (sh in2 1) - snd in2 = snd (sh inp 1) - snd inp) by (unfold sh; cbn; lia).
  assert (Hip' : out = inp <-> out2 = in2) by (split; intros; symmetry; apply Hip; auto).
  destruct (rc_all _ _ _ _ _ _ _ _ _ Hq Hmk nx out2 in2 (sh in2 1) m Hip' eq_refl D B2 B1 HG) as [V F].
  destruct (mkplan_eq _ _ _ _ _ _ _ _ _ Hmk) as (R1 & R2 & R3).
  split; [now apply c2r_il|]. split; [|unfold execute_2; now rewrite R1, R2, R3].
  intros nd Hnd l L1 L2 L3. apply F; auto. destruct L3 as [->|L3]; [left|now right].
  destruct (Hnd eq_refl) as [H1 H2]. rewrite andb_comm. apply nd_ok. split; [rewrite c2r_preserve|]; auto.
Qed.

(** *** fftw_plan_many_dft_r2c and _c2r.  [real_dims] and [cplx_dims] are the dimensions of the
    arrays if inembed or onembed is NULL: of the complex array the last one is n/2+1, of the real
    array 2(n/2+1) if the transform is in place *)
Lemma rowmajor_ext rank n e e' f f' is os : (forall i, 0 < i < rank -> e i = e' i) -> (forall i, 0 < i < rank -> f i = f' i) ->
  rowmajor rank n e f is os = rowmajor rank n e' f' is os.
Proof.
  intros H1 H2. unfold rowmajor. apply map_ext_in. intros i Hi. apply in_map_iff in Hi as (k & <- & Hk). apply in_seq in Hk.
  unfold rm_dim.
  assert (G : forall g g', (forall i, 0 < i < rank -> g i = g' i) -> forall c j, 0 < j -> j + Z.of_nat c <= rank -> prodfrom g j c = prodfrom g' j c).
  { intros g g' Hg. induction c as [|c IH]; intros j Hj1 Hj2; [reflexivity|]. cbn [prodfrom]. rewrite Hg by lia. rewrite IH by lia. reflexivity. }
  rewrite (G e e'), (G f f') by (auto; lia). reflexivity.
Qed.
Lemma in_reals_rowmajor c2r rank n e f is os : in_reals c2r (rowmajor rank n e f is os) = rowmajor rank n e f (sa c2r * is) (sb c2r * os).
Proof.
  rewrite in_reals_scl. unfold scl, rowmajor. rewrite !map_map. apply map_ext. intros i. unfold rm_dim, dim_scale. cbn [dn dis dos]. f_equal; ring.
Qed.
Lemma r2c_tensor_spec rank n howmany ie is oe os ip : many_kosherp rank n howmany = true ->
  r2c_tensor rank n ie is oe os ip =
  in_reals false (rowmajor rank n (given ie (real_dims rank n ip)) (given oe (cplx_dims rank n)) is os).
Proof.
  intros K. apply kosher_many in K as (Hr & _ & Hn). unfold r2c_tensor. rewrite rowmajor_spec, in_reals_rowmajor by auto. cbn [sa sb]. rewrite Z.mul_1_l.
  apply rowmajor_ext; intros i Hi; [apply pad_real|apply pad_cplx]; auto; lia.
Qed.
Lemma c2r_tensor_spec rank n howmany ie is oe os ip : many_kosherp rank n howmany = true ->
  c2r_tensor rank n ie is oe os ip =
  in_reals true (rowmajor rank n (given ie (cplx_dims rank n)) (given oe (real_dims rank n ip)) is os).
Proof.
  intros K. apply kosher_many in K as (Hr & _ & Hn). unfold c2r_tensor. rewrite rowmajor_spec, in_reals_rowmajor by auto. cbn [sa sb]. rewrite Z.mul_1_l.
  apply rowmajor_ext; intros i Hi; [apply pad_cplx|apply pad_real]; auto; lia.
Qed.

Theorem C40_many_r2c : forall qs rank n howmany inp inembed istride idist out onembed ostride odist flags p, qsort_perm qs -> word32 flags ->
  plan_many_dft_r2c qs rank n howmany inp inembed istride idist out onembed ostride odist flags (Some p) ->
  forall ip, (ip = true <-> inp = out) ->
  let sz := rowmajor rank n (given inembed (real_dims rank n ip)) (given onembed (cplx_dims rank n)) istride ostride in
  let hm := [mkdim howmany idist odist] in
  forall nx in2 out2 m, (inp = out <-> in2 = out2) -> (fst in2 < nx)%nat -> (fst out2 < nx)%nat ->
  good_rc false (in_reals false sz) (in_reals false hm) in2 (out2, sh out2 1) ->
    is_r2c_il sz hm in2 out2 m (execute_dft_r2c p nx in2 out2 m) /\
    (forall nd, (nd = true -> preserve_r2c flags = true /\ inp <> out) ->
       untouched_r2c nd nx (in_reals false sz) (in_reals false hm) in2 (out2, sh out2 1) m (execute_dft_r2c p nx in2 out2 m)) /\
    execute_2 p nx m = execute_dft_r2c p nx inp out m.
Proof.
  intros qs rank n howmany inp ie is idist out oe os odist flags p Hq Hw Hp ip Eip sz hm nx in2 out2 m Hip B1 B2 HG.
  inversion Hp as [|r KK Hmk]; subst r. change (extract_reim FFT_SIGN out) with (out, sh out 1) in Hmk. cbn [fst snd] in Hmk.
  assert (Ei : loc_same inp out = ip).
  { destruct (loc_same inp out) eqn:E; [apply loc_same_eq in E; symmetry; now apply Eip|]. destruct ip; auto.
    assert (inp = out) by now apply Eip. apply loc_same_eq in H. congruence. }
  rewrite Ei, (r2c_tensor_spec rank n howmany) in Hmk by auto. fold sz in Hmk.
  change (mktensor_1d howmany idist (2 * odist)) with (in_reals false hm) in Hmk.
  assert (D : snd (sh out2 1) - snd out2 = snd (sh out 1) - snd out) by (unfold sh; cbn; lia).
  destruct (rc_all _ _ _ _ _ _ _ _ _ Hq Hmk nx in2 out2 (sh out2 1) m Hip eq_refl D B1 B2 HG) as [V F].
  destruct (mkplan_eq _ _ _ _ _ _ _ _ _ Hmk) as (R1 & R2 & R3).
  split; [now apply r2c_il|]. split; [|unfold execute_2; now rewrite R1, R2, R3].
  intros nd Hnd l L1 L2 L3. apply F; auto. destruct L3 as [->|L3]; [left|now right].
  rewrite C20_destroy_input, andb_comm by auto. apply nd_ok. now apply Hnd.
Qed.
Theorem C40_many_c2r : forall qs rank n howmany inp inembed istride idist out onembed ostride odist flags p, qsort_perm qs -> word32 flags ->
  plan_many_dft_c2r qs rank n howmany inp inembed istride idist out onembed ostride odist flags (Some p) ->
  forall ip, (ip = true <-> inp = out) ->
  let sz := rowmajor rank n (given inembed (cplx_dims rank n)) (given onembed (real_dims rank n ip)) istride ostride in
  let hm := [mkdim howmany idist odist] in
  forall nx in2 out2 m, (inp = out <-> in2 = out2) -> (fst in2 < nx)%nat -> (fst out2 < nx)%nat ->
  good_rc true (in_reals true sz) (in_reals true hm) out2 (in2, sh in2 1) ->
    is_c2r_il sz hm in2 out2 m (execute_dft_c2r p nx in2 out2 m) /\
    (forall nd, (nd = true -> flagset flags FFTW_PRESERVE_INPUT = true /\ inp <> out) ->
       untouched_c2r nd nx (in_reals true sz) (in_reals true hm) (in2, sh in2 1) out2 m (execute_dft_c2r p nx in2 out2 m)) /\
    execute_2 p nx m = execute_dft_c2r p nx inp out m.
Proof.
  intros qs rank n howmany inp ie is idist out oe os odist flags p Hq Hw Hp ip Eip sz hm nx in2 out2 m Hip B1 B2 HG.
  inversion Hp as [|r KK Hmk]; subst r. change (extract_reim FFT_SIGN inp) with (inp, sh inp 1) in Hmk. cbn [fst snd] in Hmk.
  assert (Ei : loc_same out inp = ip).
  { destruct (loc_same out inp) eqn:E; [apply loc_same_eq in E; symmetry; now apply Eip|]. destruct ip; auto.
    assert (inp = out) by now apply Eip. symmetry in H. apply loc_same_eq in H. congruence. }
  rewrite Ei, (c2r_tensor_spec rank n howmany) in Hmk by auto. fold sz in Hmk.
  change (mktensor_1d howmany (2 * idist) odist) with (in_reals true hm) in Hmk.
  assert (D : snd (sh in2 1) - snd in2 = snd (sh inp 1) - snd inp) by (unfold sh; cbn; lia).
  assert (Hip' : out = inp <-> out2 = in2) by (split; intros; symmetry; apply Hip; auto).
  destruct (rc_all _ _ _ _ _ _ _ _ _ Hq Hmk nx out2 in2 (sh in2 1) m Hip' eq_refl D B2 B1 HG) as [V F].
  destruct (mkplan_eq _ _ _ _ _ _ _ _ _ Hmk) as (R1 & R2 & R3).
  split; [now apply c2r_il|]. split; [|unfold execute_2; now rewrite R1, R2, R3].
  intros nd Hnd l L1 L2 L3. apply F; auto. destruct L3 as [->|L3]; [left|now right].
  destruct (Hnd eq_refl) as [H1 H2]. rewrite andb_comm. apply nd_ok. split; [rewrite c2r_preserve|]; auto.
Qed.

(** *** The basic interface: all conditions on the layout hold automatically; the arrays only
    have to be the same or not to overlap. *)
Definition bsz (c2r ip : bool) (rank : Z) (n : Z -> Z) : list iodim :=
  rowmajor rank n (if c2r then cplx_dims rank n else real_dims rank n ip) (if c2r then real_dims rank n ip else cplx_dims rank n) 1 1.
Lemma horner_snoc e i a ks k : horner e i a (ks ++ [k]) = horner e i a ks * e (i + Z.of_nat (length ks)) + k.
Proof.
  revert i a. induction ks as [|q ks IH]; intros i a; cbn [app horner length]; [now rewrite Z.add_0_r|]. rewrite IH.
  do 2 f_equal. f_equal. lia.
Qed.
Lemma rowmajor_dn rank n e f is os : map dn (rowmajor rank n e f is os) = map n (zr rank).
Proof. unfold rowmajor. rewrite map_map. reflexivity. Qed.
Lemma rowmajor_len rank n e f is os : length (rowmajor rank n e f is os) = Z.to_nat rank.
Proof. unfold rowmajor. now rewrite !map_length, seq_length. Qed.

Section Basic.
  Context (c2r ip : bool) (rank : Z) (n : Z -> Z) (Hr : 0 <= rank) (Hn : forall i, 0 <= i < rank -> 0 < n i).
  Let t := in_reals c2r (bsz c2r ip rank n).
  Let Rd := real_dims rank n ip.
  Let Cd := cplx_dims rank n.
  Lemma b_eq : t = rowmajor rank n (if c2r then Cd else Rd) (if c2r then Rd else Cd) (sa c2r) (sb c2r).
  Proof. unfold t, bsz. rewrite in_reals_rowmajor, !Z.mul_1_r. reflexivity. Qed.
  Lemma b_off ks : Z.of_nat (length ks) = rank -> roff c2r t ks = horner Rd 0 0 ks /\ coff c2r t ks = 2 * horner Cd 0 0 ks.
  Proof.
    intros L. rewrite b_eq. destruct (rowmajor_offsets rank n (if c2r then Cd else Rd) (if c2r then Rd else Cd) (sa c2r) (sb c2r) ks Hr L) as [E1 E2].
    destruct c2r; cbn [roff coff sa sb] in *; rewrite E1, E2; lia.
  Qed.
  Lemma b_box ks : in_box t ks <-> inrange rank n ks.
  Proof. rewrite b_eq. now apply rowmajor_box. Qed.
  Lemma b_half ks : in_box (half t) ks <-> inrange rank Cd ks.
  Proof.
    unfold inrange. rewrite <- (rowmajor_box rank Cd Cd Cd 1 1) by auto. rewrite !in_box_inb. cut (map dn (half t) = map dn (rowmajor rank Cd Cd Cd 1 1)).
    { intros ->. reflexivity. }
    rewrite rowmajor_dn. pose proof (rowmajor_dn rank n (if c2r then Cd else Rd) (if c2r then Rd else Cd) (sa c2r) (sb c2r)) as E. rewrite <- b_eq in E.
    destruct (Z.eq_dec rank 0) as [R0|R0].
    - rewrite R0 in E |- *. destruct t; [reflexivity|discriminate].
    - assert (Z : zr rank = zr (rank - 1) ++ [rank - 1]).
      { replace rank with (rank - 1 + 1) at 1 by lia. now rewrite zr_succ by lia. }
      rewrite Z, map_app in E |- *. cbn [map] in E |- *. destruct t as [|d t'] eqn:Et.
      + symmetry in E. now apply app_eq_nil in E as [_ E].
      + rewrite (split_sz d t') in E |- *. rewrite half_app. rewrite map_app in E |- *. cbn [map dn] in *. apply app_inj_tail in E as [-> E].
        rewrite E. f_equal.
        * apply map_ext_in. intros i Hi. apply in_zr in Hi. unfold Cd, cplx_dims, last_to. destruct (Z.eqb_spec i (rank - 1)); [lia|reflexivity].
        * unfold Cd, cplx_dims, last_to. now rewrite Z.eqb_refl.
  Qed.
  Lemma Rd_ge i : 0 <= i < rank -> n i <= Rd i.
  Proof.
    intros Hi. unfold Rd, real_dims, last_to. destruct ip; [|lia]. destruct (Z.eqb_spec i (rank - 1)) as [->|]; [|lia].
    pose proof (Z.div_mod (n (rank - 1)) 2 ltac:(lia)). pose proof (Z.mod_pos_bound (n (rank - 1)) 2 ltac:(lia)). lia.
  Qed.
  Lemma Rd_pos i : 0 <= i < rank -> 0 < Rd i.
  Proof. intros Hi. pose proof (Hn i Hi). pose proof (Rd_ge i Hi). lia. Qed.
  Lemma Cd_pos i : 0 <= i < rank -> 0 < Cd i.
  Proof.
    intros Hi. unfold Cd, cplx_dims, last_to. pose proof (Hn i Hi). destruct (Z.eqb_spec i (rank - 1)) as [->|]; [|lia].
    assert (0 <= n (rank - 1) / 2) by (apply Z.div_pos; lia). lia.
  Qed.
  Lemma h_inj e ks js : (forall q, (q < length ks)%nat -> 0 <= nth q ks 0 < e (Z.of_nat q)) -> (forall q, (q < length js)%nat -> 0 <= nth q js 0 < e (Z.of_nat q)) ->
    length ks = length js -> horner e 0 0 ks = horner e 0 0 js -> ks = js.
  Proof. intros H1 H2 L E. apply (horner_inj e 0); auto. Qed.
  Lemma r_range ks : inrange rank n ks -> inrange rank Rd ks.
  Proof. intros [L H]. split; auto. intros i Hi. specialize (H i Hi). pose proof (Rd_ge (Z.of_nat i) ltac:(lia)). lia. Qed.
  Lemma snoc0 u ks d : dn d = 1 -> in_box (u ++ [d]) ks -> exists a, ks = a ++ [0] /\ in_box u a.
  Proof.
    intros Hd H. apply in_box_app in H as (a & b & -> & Ha & Hb). destruct b as [|k [|? ?]]; try easy; [|cbn in Hb; easy].
    exists a. cbn in Hb. assert (k = 0) by lia. subst. auto.
  Qed.
  Lemma off0 u a d : in_box u a -> roff c2r (u ++ [d]) (a ++ [0]) = roff c2r u a /\ coff c2r (u ++ [d]) (a ++ [0]) = coff c2r u a.
  Proof.
    intros H. apply in_box_len in H. destruct c2r; cbn [roff coff]; rewrite ioff_app, ooff_app by auto; cbn [ioff ooff]; lia.
  Qed.
  Lemma off_snoc a k : t <> [] -> in_box (outer_of t) a ->
    roff c2r t (a ++ [k]) = roff c2r (outer_of t) a + k * rstride c2r (row_of t) /\
    coff c2r t (a ++ [k]) = coff c2r (outer_of t) a + k * cstride c2r (row_of t).
  Proof.
    intros H1 H2. destruct c2r; cbn [roff coff rstride cstride]; rewrite ioff_sz, ooff_sz by auto; auto.
  Qed.
  Definition bhm : iodim := if c2r then mkdim 1 2 1 else mkdim 1 1 2.
  Lemma bhm_1 : dn bhm = 1. Proof. unfold bhm. now destruct c2r. Qed.
  Lemma coff_half u ks : coff c2r (half u) ks = coff c2r u ks.
  Proof.
    destruct u as [|d u]; [reflexivity|]. rewrite (split_sz d u). rewrite half_app. generalize (outer_of (d :: u)) (row_of (d :: u)). intros o r.
    revert ks. induction o as [|e o IH]; intros [|k ks]; try reflexivity; destruct c2r; cbn [coff app ioff ooff] in *; try reflexivity.
    - now rewrite IH.
    - now rewrite IH.
  Qed.
  Lemma b_len : length t = Z.to_nat rank.
  Proof. rewrite b_eq. apply rowmajor_len. Qed.
  Lemma outer_box a : t <> [] -> in_box (outer_of t) a -> Z.of_nat (length a) = rank - 1 /\ (forall i, (i < length a)%nat -> 0 <= nth i a 0 < n (Z.of_nat i)).
  Proof.
    intros NE Ha. pose proof b_box as BB. pose proof b_len as BL. pose proof (in_box_len _ _ Ha) as LL.
    destruct t as [|d t'] eqn:Et; [easy|].
    assert (L1 : length (outer_of (d :: t')) = (length (d :: t') - 1)%nat).
    { rewrite (split_sz d t') at 2. rewrite app_length. cbn [length]. lia. }
    assert (P : 0 < dn (row_of (d :: t'))).
    { pose proof (rowmajor_pos rank n (if c2r then Cd else Rd) (if c2r then Rd else Cd) (sa c2r) (sb c2r) Hr Hn) as Q. rewrite <- b_eq, Et in Q.
      rewrite (split_sz d t'), Forall_app in Q. destruct Q as [_ Q]. now inversion Q. }
    assert (B : in_box (d :: t') (a ++ [0])).
    { rewrite (split_sz d t'). apply in_box_app. exists a, [0]. split; auto. split; auto. cbn [in_box]. lia. }
    apply BB in B as [BL1 BR]. rewrite app_length in BL1. cbn [length] in *. split; [lia|].
    intros i Hi. specialize (BR i). rewrite app_nth1 in BR by auto. apply BR. rewrite app_length. lia.
  Qed.
  Lemma b_strides : ip = true -> same_strides (outer_of t).
  Proof.
    intros E. apply Forall_forall. intros d Hd. right. unfold outer_of in Hd. rewrite b_eq in Hd.
    destruct (Z.eq_dec rank 0) as [->|R0]; [destruct Hd|].
    assert (Q : removelast (rowmajor rank n (if c2r then Cd else Rd) (if c2r then Rd else Cd) (sa c2r) (sb c2r)) =
                map (rm_dim n (if c2r then Cd else Rd) (if c2r then Rd else Cd) (sa c2r) (sb c2r) (rank - 1)) (zr (rank - 1))).
    { change (rowmajor rank n (if c2r then Cd else Rd) (if c2r then Rd else Cd) (sa c2r) (sb c2r)) with
        (map (rm_dim n (if c2r then Cd else Rd) (if c2r then Rd else Cd) (sa c2r) (sb c2r) (rank - 1)) (zr rank)).
      assert (Z : zr rank = zr (rank - 1) ++ [rank - 1]).
      { replace rank with (rank - 1 + 1) at 1 by lia. now rewrite zr_succ by lia. }
      rewrite Z, map_app. cbn [map]. now rewrite removelast_last. }
    rewrite Q in Hd. apply in_map_iff in Hd as (i & <- & Hi). apply in_zr in Hi. cbn [rm_dim dis dos].
    assert (G : forall c j, (0 < c)%nat -> j + Z.of_nat c = rank -> prodfrom Rd j c = 2 * prodfrom Cd j c).
    { unfold Rd, Cd, real_dims, cplx_dims. rewrite E. induction c as [|c IH]; intros j H1 H2; [lia|]. cbn [prodfrom]. unfold last_to at 1 3.
      destruct (Z.eqb_spec j (rank - 1)) as [->|NE].
      - assert (c = 0%nat) by lia. subst c. cbn [prodfrom]. ring.
      - rewrite IH by lia. ring. }
    specialize (G (Z.to_nat (rank - 1 - i)) (i + 1) ltac:(lia) ltac:(lia)). destruct c2r; cbn [sa sb]; rewrite G; ring.
  Qed.

  Lemma basic_rc r c : (ip = true <-> r = c) ->
    (r = c \/ forall i j, 0 <= i < total rank n -> 0 <= j < 2 * total rank Cd -> sh r i <> sh c j) ->
    good_rc c2r t [bhm] r (c, sh c 1).
  Proof.
    intros Hip Hov. constructor.
    - rewrite b_eq. now apply rowmajor_pos.
    - constructor; [|constructor]. rewrite bhm_1. lia.
    - intros ks js H1 H2 E. apply snoc0 in H1 as (a & -> & Ha), H2 as (b & -> & Hb); try apply bhm_1. f_equal.
      rewrite (proj1 (off0 t a bhm Ha)), (proj1 (off0 t b bhm Hb)) in E. apply b_box, r_range in Ha as [La Ha], Hb as [Lb Hb].
      rewrite (proj1 (b_off a La)), (proj1 (b_off b Lb)) in E. apply (h_inj Rd); auto. lia.
    - intros ks js H1 H2. apply snoc0 in H1 as (a & -> & Ha), H2 as (b & -> & Hb); try apply bhm_1.
      rewrite (proj2 (off0 _ a bhm Ha)), (proj2 (off0 _ b bhm Hb)), !coff_half. apply b_half in Ha as [La Ha], Hb as [Lb Hb].
      rewrite (proj2 (b_off a La)), (proj2 (b_off b Lb)). split.
      + intros E. f_equal. apply (h_inj Cd); auto; lia.
      + cbn [fst snd]. rewrite sh_sh. intros E. apply (f_equal snd) in E. unfold sh in E. cbn [snd] in E. lia.
    - destruct (bool_dec ip true) as [Eip|Eip]; [right|left; apply not_true_is_false in Eip].
      + assert (Erc : r = c) by now apply Hip. split; [exact Erc|]. split.
        { apply Forall_app. split; [now apply b_strides|]. constructor; [|constructor]. left. apply bhm_1. }
        assert (TN : t = [] \/ t <> []) by (generalize t; clear; intros [|? ?]; [now left|now right]).
        destruct TN as [Et|NE].
        { rewrite Et. intros ps qs l Hp Hq _ _. cbn [outer_of removelast app] in Hp, Hq. apply (snoc0 [] ps) in Hp as (a & -> & Ha); [|apply bhm_1].
          apply (snoc0 [] qs) in Hq as (b & -> & Hb); [|apply bhm_1]. destruct a, b; try easy. }
        assert (Rk : 0 < rank) by (pose proof b_len as BL; revert BL NE; generalize t; clear - Hr; intros [|? ?] BL NE; [easy|cbn [length] in BL; lia]).
        set (N := n (rank - 1) / 2 + 1).
        assert (RN : Rd (rank - 1) = 2 * N) by (unfold Rd, real_dims, last_to; rewrite Eip, Z.eqb_refl; reflexivity).
        assert (CN : Cd (rank - 1) = N) by (unfold Cd, cplx_dims, last_to; rewrite Z.eqb_refl; reflexivity).
        assert (Dn : dn (row_of t) = n (rank - 1)).
        { pose proof (rowmajor_dn rank n (if c2r then Cd else Rd) (if c2r then Rd else Cd) (sa c2r) (sb c2r)) as E. rewrite <- b_eq in E.
          assert (Z : zr rank = zr (rank - 1) ++ [rank - 1]).
          { replace rank with (rank - 1 + 1) at 1 by lia. now rewrite zr_succ by lia. }
          rewrite Z, map_app in E. revert E NE. generalize t. clear. intros [|d t'] E NE; [easy|]. rewrite (split_sz d t') in E at 1. rewrite map_app in E. cbn [map] in E.
          apply app_inj_tail in E as [_ E]. exact E. }
        pose proof (Hn (rank - 1) ltac:(lia)) as Pn.
        assert (NN : n (rank - 1) <= 2 * N /\ 0 < N).
        { pose proof (Z.div_mod (n (rank - 1)) 2 ltac:(lia)). pose proof (Z.mod_pos_bound (n (rank - 1)) 2 ltac:(lia)). unfold N. lia. }
        assert (Key : forall ps l, in_box (outer_of t ++ [bhm]) ps -> row_loc c2r t [bhm] r (c, sh c 1) ps l ->
           exists a e, ps = a ++ [0] /\ in_box (outer_of t) a /\ 0 <= e < 2 * N /\ l = sh r (horner Rd 0 0 (a ++ [e]))).
        { intros ps l Hp Hl. apply snoc0 in Hp as (a & -> & Ha); [|apply bhm_1]. exists a. unfold row_loc in Hl. cbn zeta in Hl.
          destruct (off0 (outer_of t) a bhm Ha) as [O1 O2]. rewrite O1, O2 in Hl. cbn [fst snd] in Hl. destruct (outer_box a NE Ha) as [La Hra].
          assert (EC : forall k, coff c2r (outer_of t) a + k * cstride c2r (row_of t) = horner Rd 0 0 (a ++ [2 * k])).
          { intros k. rewrite <- (proj2 (off_snoc a k NE Ha)). rewrite (proj2 (b_off (a ++ [k]) ltac:(rewrite app_length; cbn [length]; lia))).
            rewrite !horner_snoc. rewrite (horner_ext Rd Cd); [replace (0 + Z.of_nat (length a)) with (rank - 1) by lia; rewrite RN, CN; ring|].
            intros q Hq'. unfold Rd, Cd, real_dims, cplx_dims, last_to. rewrite Eip. destruct (Z.eqb_spec (0 + Z.of_nat q) (rank - 1)); [lia|reflexivity]. }
          rewrite Dn in Hl. fold N in Hl. destruct Hl as [(j & Hj & ->)|(k & Hk & [-> | ->])].
          - exists j. split; auto. split; auto. split; [lia|]. f_equal. rewrite <- (proj1 (off_snoc a j NE Ha)).
            now rewrite (proj1 (b_off (a ++ [j]) ltac:(rewrite app_length; cbn [length]; lia))).
          - exists (2 * k). split; auto. split; auto. split; [lia|]. rewrite EC. now rewrite Erc.
          - exists (2 * k + 1). split; auto. split; auto. split; [lia|]. rewrite EC, sh_sh, Erc. f_equal. rewrite !horner_snoc. lia. }
        intros ps qs l Hp Hq L1 L2. destruct (Key ps l Hp L1) as (a & e & -> & Ha & He & ->). destruct (Key qs _ Hq L2) as (b & e' & -> & Hb & He' & E).
        destruct (outer_box a NE Ha) as [La Hra], (outer_box b NE Hb) as [Lb Hrb].
        assert (E2 : horner Rd 0 0 (a ++ [e]) = horner Rd 0 0 (b ++ [e'])) by (apply (f_equal snd) in E; unfold sh in E; cbn [snd] in E; lia).
        assert (RG : forall u v, Z.of_nat (length u) = rank - 1 -> (forall i, (i < length u)%nat -> 0 <= nth i u 0 < n (Z.of_nat i)) -> 0 <= v < 2 * N ->
           forall q, (q < length (u ++ [v]))%nat -> 0 <= nth q (u ++ [v]) 0 < Rd (Z.of_nat q)).
        { intros u v Lu Hu Hv q Hq'. rewrite app_length in Hq'. cbn [length] in Hq'. destruct (Nat.lt_ge_cases q (length u)) as [Q|Q].
          - rewrite app_nth1 by auto. specialize (Hu q Q). pose proof (Rd_ge (Z.of_nat q) ltac:(lia)). lia.
          - assert (q = length u) by lia. subst q. rewrite nth_middle. rewrite Lu, RN. exact Hv. }
        apply h_inj in E2; [| now apply RG | now apply RG | rewrite !app_length; cbn [length]; lia].
        apply app_inj_tail in E2 as [-> _]. reflexivity.
      + assert (NE : r <> c) by (intros E; apply Hip in E; congruence). split; [exact NE|]. destruct Hov as [Hov|Hov]; [contradiction|].
        cbn [fst]. intros l (ks & Hk & ->) (js & Hj & E). apply snoc0 in Hk as (a & -> & Ha), Hj as (b & -> & Hb); try apply bhm_1.
        rewrite (proj1 (off0 t a bhm Ha)) in E. rewrite (proj2 (off0 _ b bhm Hb)), coff_half in E.
        apply b_box in Ha as [La Ha]. apply b_half in Hb as [Lb Hb]. rewrite (proj1 (b_off a La)), (proj2 (b_off b Lb)) in E.
        assert (RR : Rd = n) by (unfold Rd, real_dims; now rewrite Eip). rewrite RR in E.
        pose proof (horner_range n 0 a Ha) as RA. pose proof (horner_range Cd 0 b Hb) as RB.
        assert (TA : prodfrom n 0 (length a) = total rank n) by (unfold total; f_equal; lia).
        assert (TB : prodfrom Cd 0 (length b) = total rank Cd) by (unfold total; f_equal; lia).
        rewrite TA in RA. rewrite TB in RB. cbn [fst snd] in E. rewrite sh_sh in E. destruct E as [E|E]; apply Hov in E; auto; lia.
    - exists 1. split; [now left|]. apply Forall_app. split.
      + rewrite b_eq. change (rowmajor rank n (if c2r then Cd else Rd) (if c2r then Rd else Cd) (sa c2r) (sb c2r)) with
          (map (rm_dim n (if c2r then Cd else Rd) (if c2r then Rd else Cd) (sa c2r) (sb c2r) (rank - 1)) (zr rank)).
        rewrite Forall_map, Forall_forall. intros i Hi _. apply in_zr in Hi.
        assert (P : forall k j, (0 <= j) -> j + Z.of_nat k <= rank -> 0 < prodfrom Cd j k).
        { induction k as [|k IHk]; intros j H1 H2; cbn [prodfrom]; [lia|]. apply Z.mul_pos_pos; [apply Cd_pos; lia|apply IHk; lia]. }
        pose proof (P (Z.to_nat (rank - 1 - i)) (i + 1) ltac:(lia) ltac:(lia)). destruct c2r; cbn [cstride rm_dim dis dos sa sb]; lia.
      + constructor; [|constructor]. intros Q. now rewrite bhm_1 in Q.
  Qed.
End Basic.

Lemma mirror_neg t ks : mirror t ks = negidx (map dn t) ks.
Proof. revert ks. induction t as [|d t IH]; intros [|k ks]; auto. cbn [mirror map negidx]. now rewrite IH. Qed.
Lemma herm_n t H : hermitian_n (map dn t) H <-> hermitian t H.
Proof.
  split.
  - intros E ks Hk. rewrite mirror_neg. apply E. now apply in_box_inb.
  - intros E ks Hk. rewrite <- mirror_neg. apply E. now apply in_box_inb.
Qed.
Lemma real_loc_box c2r ip rank n r i : 0 <= rank -> (forall i, 0 <= i < rank -> 0 < n i) ->
  real_loc c2r r (in_reals c2r (bsz c2r ip rank n) ++ [bhm c2r]) i ->
  exists o, 0 <= o < total rank (real_dims rank n ip) /\ i = sh r o.
Proof.
  intros Hr Hn (ks & Hk & ->). apply snoc0 in Hk as (a & -> & Ha); [|apply (bhm_1 c2r ip rank n)]. rewrite (proj1 (off0 c2r ip rank n _ a (bhm c2r) Ha)).
  apply b_box, (r_range c2r ip) in Ha as [La Ha]; auto. rewrite (proj1 (b_off c2r ip rank n Hr a La)).
  exists (horner (real_dims rank n ip) 0 0 a). split; auto. pose proof (horner_range (real_dims rank n ip) 0 a Ha) as Q.
  replace (total rank (real_dims rank n ip)) with (prodfrom (real_dims rank n ip) 0 (length a)) by (unfold total; f_equal; lia). exact Q.
Qed.
Lemma cplx_loc_box c2r ip rank n c i : 0 <= rank -> (forall i, 0 <= i < rank -> 0 < n i) ->
  cplx_loc c2r (c, sh c 1) (half (in_reals c2r (bsz c2r ip rank n)) ++ [bhm c2r]) i ->
  exists o, 0 <= o < 2 * total rank (cplx_dims rank n) /\ i = sh c o.
Proof.
  intros Hr Hn (ks & Hk & E). apply snoc0 in Hk as (a & -> & Ha); [|apply (bhm_1 c2r ip rank n)].
  rewrite (proj2 (off0 c2r ip rank n _ a (bhm c2r) Ha)), (coff_half c2r ip rank n) in E.
  apply b_half in Ha as [La Ha]; auto. rewrite (proj2 (b_off c2r ip rank n Hr a La)) in E.
  pose proof (horner_range (cplx_dims rank n) 0 a Ha) as Q.
  replace (prodfrom (cplx_dims rank n) 0 (length a)) with (total rank (cplx_dims rank n)) in Q by (unfold total; f_equal; lia).
  cbn [fst snd] in E. rewrite sh_sh in E. destruct E as [-> | ->]; eexists; (split; [|reflexivity]); lia.
Qed.

(** fftw_plan_dft_r2c(rank, n, in, out, flags), executed on the planning arrays or, with
    fftw_execute_dft_r2c, on others: coefficient (k_1..k_d), k_d <= n_d/2, is element
    number ((k_1 n_2 + k_2) n_3 + ..)(n_d/2+1) + k_d of out. *)
Theorem C40_plan_dft_r2c : forall qs rank n inp out flags p, qsort_perm qs -> word32 flags ->
  plan_dft_r2c qs rank n inp out flags (Some p) ->
  forall ip, (ip = true <-> inp = out) ->
  forall nx in2 out2 m, (inp = out <-> in2 = out2) ->
  (in2 = out2 \/ forall i j, 0 <= i < total rank n -> 0 <= j < 2 * total rank (cplx_dims rank n) -> sh in2 i <> sh out2 j) ->
  (fst in2 < nx)%nat -> (fst out2 < nx)%nat ->
  let m' := execute_dft_r2c p nx in2 out2 m in
  (forall ks, inrange rank (cplx_dims rank n) ks ->
     celt m' out2 (horner (cplx_dims rank n) 0 0 ks) =
     idft (-1) (map n (zr rank)) (fun js => RtoC (m (sh in2 (horner (real_dims rank n ip) 0 0 js)))) ks) /\
  (forall l, (fst l < nx)%nat -> (forall j, 0 <= j < 2 * total rank (cplx_dims rank n) -> l <> sh out2 j) ->
     (preserve_r2c flags = true /\ inp <> out \/ forall i, 0 <= i < total rank (real_dims rank n ip) -> l <> sh in2 i) -> m' l = m l) /\
  execute_2 p nx m = execute_dft_r2c p nx inp out m.
Proof.
  intros qs rank n inp out flags p Hq Hw Hp ip Hip nx in2 out2 m Hio Hov Hi Ho m'. unfold plan_dft_r2c in Hp.
  assert (Kb : 0 <= rank /\ (forall i, 0 <= i < rank -> 0 < n i)).
  { inversion Hp as [|r K Hmk]; subst r. apply kosher_many in K. tauto. }
  destruct Kb as [Hr Hn].
  assert (Hip2 : ip = true <-> in2 = out2) by (rewrite Hip; exact Hio).
  pose proof (basic_rc false ip rank n Hr Hn in2 out2 Hip2 Hov) as HG.
  destruct (C40_many_r2c qs rank n 1 inp None 1 1 out None 1 1 flags p Hq Hw Hp ip Hip nx in2 out2 m Hio Hi Ho HG) as (V & F & E).
  fold m' in V, F. split; [|split; [|exact E]].
  - intros ks Hk. assert (B : in_box (half (bsz false ip rank n)) ks).
    { apply (b_half false ip rank n Hr) in Hk. rewrite in_reals_scl, half_scl in Hk. now apply scl_box in Hk. }
    specialize (V [0] ks). cbn [given] in V. change (rowmajor rank n (real_dims rank n ip) (cplx_dims rank n) 1 1) with (bsz false ip rank n) in V.
    cbn [ooff ioff dos dis] in V. rewrite !Z.mul_0_l, !Z.add_0_l in V.
    assert (B0 : in_box [mkdim 1 1 1] [0]) by (cbn; lia). specialize (V B0 B).
    destruct (rowmajor_offsets rank n (real_dims rank n ip) (cplx_dims rank n) 1 1 ks Hr (proj1 Hk)) as [_ O2].
    change (rowmajor rank n (real_dims rank n ip) (cplx_dims rank n) 1 1) with (bsz false ip rank n) in O2. rewrite O2, Z.mul_1_l in V. rewrite V.
    assert (Bx : in_box (bsz false ip rank n) ks).
    { apply (rowmajor_box rank n); auto. destruct Hk as [L Q]. split; auto. intros i Hi'. specialize (Q i Hi'). unfold cplx_dims, last_to in Q.
      destruct (Z.eqb_spec (Z.of_nat i) (rank - 1)) as [E1|]; [|lia]. rewrite E1. pose proof (Hn (rank - 1) ltac:(lia)).
      pose proof (Z.div_mod (n (rank - 1)) 2 ltac:(lia)). pose proof (Z.mod_pos_bound (n (rank - 1)) 2 ltac:(lia)). lia. }
    rewrite sdft_idft by auto. unfold bsz at 1. rewrite rowmajor_dn. apply idft_ext.
    + rewrite <- (rowmajor_dn rank n (real_dims rank n ip) (cplx_dims rank n) 1 1). now apply in_box_inb.
    + intros js Hj. rewrite <- (rowmajor_dn rank n (real_dims rank n ip) (cplx_dims rank n) 1 1) in Hj. apply in_box_inb, rowmajor_box in Hj as [Lj _]; auto.
      destruct (rowmajor_offsets rank n (real_dims rank n ip) (cplx_dims rank n) 1 1 js Hr Lj) as [O1 _]. unfold bsz. now rewrite O1, Z.mul_1_l.
  - intros l L1 L2 L3. destruct L3 as [L3|L3].
    + apply (F true (fun _ => L3)); auto. intros Q. apply (cplx_loc_box false ip) in Q as (o & Ho' & ->); auto. now apply (L2 o).
    + apply (F false ltac:(discriminate)); auto.
      * intros Q. apply (cplx_loc_box false ip) in Q as (o & Ho' & ->); auto. now apply (L2 o).
      * right. intros Q. apply (real_loc_box false ip) in Q as (o & Ho' & ->); auto. now apply (L3 o).
Qed.
Theorem C40_plan_dft_c2r : forall qs rank n inp out flags p, qsort_perm qs -> word32 flags ->
  plan_dft_c2r qs rank n inp out flags (Some p) ->
  forall ip, (ip = true <-> inp = out) ->
  forall nx in2 out2 m, (inp = out <-> in2 = out2) ->
  (out2 = in2 \/ forall i j, 0 <= i < total rank n -> 0 <= j < 2 * total rank (cplx_dims rank n) -> sh out2 i <> sh in2 j) ->
  (fst in2 < nx)%nat -> (fst out2 < nx)%nat ->
  let m' := execute_dft_c2r p nx in2 out2 m in
  (forall H, hermitian_n (map n (zr rank)) H ->
     (forall ks, inrange rank (cplx_dims rank n) ks -> H ks = celt m in2 (horner (cplx_dims rank n) 0 0 ks)) ->
     forall js, inrange rank n js -> RtoC (m' (sh out2 (horner (real_dims rank n ip) 0 0 js))) = idft 1 (map n (zr rank)) H js) /\
  (forall l, (fst l < nx)%nat -> (forall i, 0 <= i < total rank (real_dims rank n ip) -> l <> sh out2 i) ->
     (flagset flags FFTW_PRESERVE_INPUT = true /\ inp <> out \/ forall j, 0 <= j < 2 * total rank (cplx_dims rank n) -> l <> sh in2 j) -> m' l = m l) /\
  execute_2 p nx m = execute_dft_c2r p nx inp out m.
Proof.
  intros qs rank n inp out flags p Hq Hw Hp ip Hip nx in2 out2 m Hio Hov Hi Ho m'. unfold plan_dft_c2r in Hp.
  assert (Kb : 0 <= rank /\ (forall i, 0 <= i < rank -> 0 < n i)).
  { inversion Hp as [|r K Hmk]; subst r. apply kosher_many in K. tauto. }
  destruct Kb as [Hr Hn].
  assert (Hip2 : ip = true <-> out2 = in2) by (split; intros Q; [symmetry; apply Hio, Hip; exact Q|apply Hip, Hio; now symmetry]).
  pose proof (basic_rc true ip rank n Hr Hn out2 in2 Hip2 Hov) as HG.
  destruct (C40_many_c2r qs rank n 1 inp None 1 1 out None 1 1 flags p Hq Hw Hp ip Hip nx in2 out2 m Hio Hi Ho HG) as (V & F & E).
  fold m' in V, F. split; [|split; [|exact E]].
  - intros H HH EH js Hj. specialize (V [0] H). cbn [given] in V. change (rowmajor rank n (cplx_dims rank n) (real_dims rank n ip) 1 1) with (bsz true ip rank n) in V.
    cbn [ooff ioff dos dis] in V. rewrite !Z.mul_0_l in V.
    assert (B0 : in_box [mkdim 1 1 1] [0]) by (cbn; lia).
    assert (HH' : hermitian (bsz true ip rank n) H) by (apply herm_n; unfold bsz; now rewrite rowmajor_dn).
    specialize (V B0 HH').
    assert (EH' : forall ks, in_box (half (bsz true ip rank n)) ks -> H ks = celt m in2 (0 + 0 + ioff (bsz true ip rank n) ks)).
    { intros ks Hk. assert (Hk' : inrange rank (cplx_dims rank n) ks) by (apply (b_half true ip rank n Hr); rewrite in_reals_scl, half_scl; now apply scl_box).
      rewrite (EH ks Hk'). f_equal.
      destruct (rowmajor_offsets rank n (cplx_dims rank n) (real_dims rank n ip) 1 1 ks Hr (proj1 Hk')) as [O1 _]. unfold bsz. rewrite O1. ring. }
    specialize (V EH' js). assert (Bj : in_box (bsz true ip rank n) js) by (apply (rowmajor_box rank n); auto). specialize (V Bj).
    destruct (rowmajor_offsets rank n (cplx_dims rank n) (real_dims rank n ip) 1 1 js Hr (proj1 Hj)) as [_ O2].
    unfold bsz in V. rewrite O2, rowmajor_dn in V. rewrite <- V. f_equal. f_equal. f_equal. ring.
  - intros l L1 L2 L3. destruct L3 as [L3|L3].
    + apply (F true (fun _ => L3)); auto. intros Q. apply (real_loc_box true ip) in Q as (o & Ho' & ->); auto. now apply (L2 o).
    + apply (F false ltac:(discriminate)); auto.
      * intros Q. apply (real_loc_box true ip) in Q as (o & Ho' & ->); auto. now apply (L2 o).
      * right. intros Q. apply (cplx_loc_box true ip) in Q as (o & Ho' & ->); auto. now apply (L3 o).
Qed.

(** ** One dimension *)
Lemma total_1 e : total 1 e = e 0.
Proof. unfold total. change (Z.to_nat 1) with 1%nat. cbn [prodfrom]. apply Z.mul_1_r. Qed.
Lemma inrange_1 n k : 0 <= k < n 0 -> inrange 1 n [k].
Proof. intros H. split; [reflexivity|]. intros [|i] Hi; [exact H|]. cbn [length] in Hi. lia. Qed.
Lemma horner_1 e k : horner e 0 0 [k] = k.
Proof. cbn [horner]. rewrite Z.mul_0_l. reflexivity. Qed.
Lemma cplx_1 n : cplx_dims 1 n 0 = n 0 / 2 + 1.
Proof. reflexivity. Qed.

(** fftw_plan_dft_r2c_1d(n, in, out): out[k] = sum_j in[j] e^{-2 pi i jk/n} for k = 0..n/2 *)
Theorem C40_r2c_1d : forall qs n inp out flags p, qsort_perm qs -> word32 flags ->
  plan_dft_r2c_1d qs n inp out flags (Some p) ->
  (inp = out \/ forall i j, 0 <= i < n -> 0 <= j < 2 * (n / 2 + 1) -> sh inp i <> sh out j) ->
  forall nx m, (fst inp < nx)%nat -> (fst out < nx)%nat ->
  forall k, 0 <= k <= n / 2 ->
  celt (execute_2 p nx m) out k = Csum n (fun j => RtoC (m (sh inp j)) * root (-1) n (j * k))%C.
Proof.
  intros qs n inp out flags p Hq Hw Hp Hov nx m Hi Ho k Hk.
  destruct (C40_plan_dft_r2c qs 1 (fun _ => n) inp out flags p Hq Hw Hp (loc_same inp out) (loc_same_eq inp out) nx inp out m) as (V & _ & E); auto.
  - reflexivity.
  - rewrite !total_1, cplx_1. exact Hov.
  - rewrite E. specialize (V [k]). rewrite !horner_1 in V. rewrite V by (apply inrange_1; rewrite cplx_1; lia).
    change (map (fun _ => n) (zr 1)) with [n]. cbn [idft]. apply Csum_ext. intros j Hj. now rewrite horner_1.
Qed.
(** fftw_plan_dft_c2r_1d(n, in, out): out[j] = sum_k H[k] e^{+2 pi i jk/n}, where H is the
    array with H[k] = in[k] for k <= n/2 and H[n-k] = conj H[k] *)
Theorem C40_c2r_1d : forall qs n inp out flags p, qsort_perm qs -> word32 flags ->
  plan_dft_c2r_1d qs n inp out flags (Some p) ->
  (inp = out \/ forall i j, 0 <= i < n -> 0 <= j < 2 * (n / 2 + 1) -> sh out i <> sh inp j) ->
  forall nx m, (fst inp < nx)%nat -> (fst out < nx)%nat ->
  forall H, (forall k, 0 <= k <= n / 2 -> H k = celt m inp k) -> (forall k, 0 <= k < n -> H ((- k) mod n) = Cplx.conj (H k)) ->
  forall j, 0 <= j < n -> RtoC (execute_2 p nx m (sh out j)) = Csum n (fun k => H k * root 1 n (k * j))%C.
Proof.
  intros qs n inp out flags p Hq Hw Hp Hov nx m Hi Ho H EH HH j Hj.
  destruct (C40_plan_dft_c2r qs 1 (fun _ => n) inp out flags p Hq Hw Hp (loc_same inp out) (loc_same_eq inp out) nx inp out m) as (V & _ & E); auto.
  - reflexivity.
  - rewrite !total_1, cplx_1. destruct Hov as [Hov|Hov]; [left; now symmetry|now right].
  - rewrite E. specialize (V (fun ks => H (nth 0 ks 0))). change (map (fun _ => n) (zr 1)) with [n] in V.
    assert (A1 : hermitian_n [n] (fun ks => H (nth 0 ks 0))).
    { intros ks Hk. inversion Hk as [|? k ? ks' Hk1 Hk2]; subst. inversion Hk2; subst. cbn [negidx nth]. now apply HH. }
    specialize (V A1).
    assert (A2 : forall ks, inrange 1 (cplx_dims 1 (fun _ => n)) ks -> H (nth 0 ks 0) = celt m inp (horner (cplx_dims 1 (fun _ => n)) 0 0 ks)).
    { intros ks [L R]. destruct ks as [|k [|? ?]]; cbn [length] in L; try lia. rewrite horner_1. cbn [nth]. apply EH. specialize (R 0%nat ltac:(cbn; lia)).
      cbn [nth] in R. change (Z.of_nat 0) with 0 in R. rewrite cplx_1 in R. lia. }
    specialize (V A2 [j] (inrange_1 (fun _ => n) j Hj)). rewrite horner_1 in V. rewrite V. reflexivity.
Qed.

(** ** The r2c output is Hermitian, and c2r inverts r2c up to the number of points *)
Lemma root_m_neg n k j : 0 < n -> root (-1) n (j * ((- k) mod n)) = Cplx.conj (root (-1) n (j * k)).
Proof.
  intros Hn. rewrite !root_fwd, !W_cs. unfold Cplx.conj. cbn [fst snd]. rewrite Z.mod_eq by lia.
  rewrite (cs_congr n (j * (- k - n * (- k / n))) (- (j * k))), (sn_congr n (j * (- k - n * (- k / n))) (- (j * k))); try lia.
  - now rewrite cs_neg, sn_neg.
  - exists (- (- k / n) * j). ring.
  - exists (- (- k / n) * j). ring.
Qed.
Lemma idft_neg ns x ks : inb ns ks -> idft (-1) ns x (negidx ns ks) = Cplx.conj (idft (-1) ns (fun js => Cplx.conj (x js)) ks).
Proof.
  revert x ks. induction ns as [|n ns IH]; intros x ks Hk; inversion Hk as [|? k ? ks' Hk1 Hk2]; subst; cbn [negidx idft].
  - apply C_eq; cbn; ring.
  - rewrite Csum_conj. apply Csum_ext. intros j Hj. rewrite IH by auto. rewrite root_m_neg by lia. apply C_eq; cbn; ring.
Qed.
Theorem C40_spectrum_hermitian : forall ns (x : list Z -> R), hermitian_n ns (idft (-1) ns (fun js => RtoC (x js))).
Proof.
  intros ns x ks Hk. rewrite idft_neg by exact Hk. f_equal. apply idft_ext; [exact Hk|]. intros js _. apply C_eq; cbn; ring.
Qed.
Lemma inrange_inb rank n ks : 0 <= rank -> inrange rank n ks <-> inb (map n (zr rank)) ks.
Proof.
  intros Hr. rewrite <- (rowmajor_dn rank n n n 1 1). rewrite <- in_box_inb. symmetry. now apply rowmajor_box.
Qed.
Theorem C40_roundtrip : forall qs qs' rank n inp mid out flags flags' p q, qsort_perm qs -> qsort_perm qs' -> word32 flags -> word32 flags' ->
  plan_dft_r2c qs rank n inp mid flags (Some p) -> plan_dft_c2r qs' rank n mid out flags' (Some q) ->
  forall ip ip', (ip = true <-> inp = mid) -> (ip' = true <-> mid = out) ->
  (inp = mid \/ forall i j, 0 <= i < total rank n -> 0 <= j < 2 * total rank (cplx_dims rank n) -> sh inp i <> sh mid j) ->
  (out = mid \/ forall i j, 0 <= i < total rank n -> 0 <= j < 2 * total rank (cplx_dims rank n) -> sh out i <> sh mid j) ->
  forall nx m, (fst inp < nx)%nat -> (fst mid < nx)%nat -> (fst out < nx)%nat ->
  forall js, inrange rank n js ->
    execute_2 q nx (execute_2 p nx m) (sh out (horner (real_dims rank n ip') 0 0 js)) =
    (IZR (npoints (map n (zr rank))) * m (sh inp (horner (real_dims rank n ip) 0 0 js)))%R.
Proof.
  intros qs qs' rank n inp mid out flags flags' p q Hq Hq' Hw Hw' Hp Hp' ip ip' Hip Hip' Hov Hov' nx m Hi Hm Ho js Hj.
  destruct (C40_plan_dft_r2c qs rank n inp mid flags p Hq Hw Hp ip Hip nx inp mid m (iff_refl _) Hov Hi Hm) as (V & _ & E).
  rewrite E. set (m1 := execute_dft_r2c p nx inp mid m) in *.
  destruct (C40_plan_dft_c2r qs' rank n mid out flags' q Hq' Hw' Hp' ip' Hip' nx mid out m1 (iff_refl _) Hov' Hm Ho) as (V' & _ & E').
  rewrite E'. assert (Hr : 0 <= rank) by (destruct Hj as [L _]; lia).
  specialize (V' _ (C40_spectrum_hermitian (map n (zr rank)) (fun js => m (sh inp (horner (real_dims rank n ip) 0 0 js))))).
  specialize (V' ltac:(intros ks Hk; symmetry; now apply V) js Hj).
  pose proof (idft_inv (-1) (map n (zr rank)) (fun js => RtoC (m (sh inp (horner (real_dims rank n ip) 0 0 js)))) js ltac:(auto)) as I.
  change (- (-1)) with 1 in I. specialize (I (proj1 (inrange_inb rank n js Hr) Hj)). pose proof (eq_trans V' I) as V2. clear V'. rename V2 into V'. apply (f_equal fst) in V'. cbn [RtoC fst] in V'. rewrite V'. cbn. ring.
Qed.

(** ** The halfcomplex format *)
(** fftw_plan_r2r_1d(n, in, out, FFTW_R2HC): r0, r1, .., r_{n/2}, i_{(n+1)/2-1}, .., i1,
    the real and imaginary parts of exactly the coefficients that r2c computes *)
Theorem C40_halfcomplex : forall qs n inp out flags p, qsort_perm qs -> word32 flags ->
  plan_r2r_1d qs n inp out 0 flags (Some p) ->
  (inp = out \/ forall i j, 0 <= i < n -> 0 <= j < n -> sh inp i <> sh out j) ->
  forall nx m, (fst inp < nx)%nat -> (fst out < nx)%nat ->
  let X k := Csum n (fun j => RtoC (m (sh inp j)) * root (-1) n (j * k))%C in
  let m' := execute_r p nx m in
  (forall k, 0 <= k <= n / 2 -> m' (sh out k) = fst (X k)) /\
  (forall k, 0 < k < (n + 1) / 2 -> m' (sh out (n - k)) = snd (X k)) /\
  snd (X 0) = 0%R /\ (n mod 2 = 0 -> snd (X (n / 2)) = 0%R).
Proof.
  intros qs n inp out flags p Hq Hw Hp Hov nx m Hi Ho X m'.
  pose proof (C39_plan_r2r_1d qs n inp out 0 R2HC flags p Hq Hw Hp eq_refl Hov nx m Hi Ho) as G. fold m' in G.
  assert (Hn : 0 < n).
  { unfold plan_r2r_1d, plan_r2r in Hp. inversion Hp as [|r K Hmk]; subst r. apply kosher_many in K as (_ & _ & K). apply (K 0). lia. }
  pose proof (Z.div_mod n 2 ltac:(lia)). pose proof (Z.mod_pos_bound n 2 ltac:(lia)). pose proof (Z.div_mod (n + 1) 2 ltac:(lia)). pose proof (Z.mod_pos_bound (n + 1) 2 ltac:(lia)).
  assert (XE : forall k, X k = dft n (fun j => RtoC (m (sh inp j))) k).
  { intros k. unfold X, dft. apply Csum_ext. intros j _. now rewrite root_fwd. }
  split; [|split; [|split]].
  - intros k Hk. rewrite XE, dft_real by lia. cbn [fst]. rewrite G by lia. reflexivity.
  - intros k Hk. rewrite XE, dft_real by lia. cbn [snd]. destruct (Z.eqb_spec k 0); [lia|]. destruct (Z.eqb_spec (2 * k) n); [lia|]. cbn [orb]. now rewrite G by lia.
  - rewrite XE, dft_real by lia. reflexivity.
  - intros E. rewrite XE, dft_real by lia. cbn [snd]. destruct (Z.eqb_spec (2 * (n / 2)) n); [|lia]. now rewrite orb_true_r.
Qed.
(** FFTW_HC2R: the backward transform of the Hermitian array so packed *)
Theorem C40_halfcomplex_inverse : forall qs n inp out flags p, qsort_perm qs -> word32 flags ->
  plan_r2r_1d qs n inp out 1 flags (Some p) ->
  (inp = out \/ forall i j, 0 <= i < n -> 0 <= j < n -> sh inp i <> sh out j) ->
  forall nx m, (fst inp < nx)%nat -> (fst out < nx)%nat ->
  forall H, (forall k, 0 <= k < n -> H ((- k) mod n) = Cplx.conj (H k)) ->
  (forall k, 0 <= k <= n / 2 -> m (sh inp k) = fst (H k)) -> (forall k, 0 < k < (n + 1) / 2 -> m (sh inp (n - k)) = snd (H k)) ->
  forall j, 0 <= j < n -> RtoC (execute_r p nx m (sh out j)) = Csum n (fun k => H k * root 1 n (k * j))%C.
Proof.
  intros qs n inp out flags p Hq Hw Hp Hov nx m Hi Ho H HH E1 E2 j Hj.
  rewrite (C39_plan_r2r_1d qs n inp out 1 HC2R flags p Hq Hw Hp eq_refl Hov nx m Hi Ho) by exact Hj.
  pose proof (Z.div_mod n 2 ltac:(lia)). pose proof (Z.mod_pos_bound n 2 ltac:(lia)). pose proof (Z.div_mod (n + 1) 2 ltac:(lia)). pose proof (Z.mod_pos_bound (n + 1) 2 ltac:(lia)).
  rewrite <- hval_herm by (auto; lia). f_equal. unfold hval. apply Rsum_ext. intros i Hi'. f_equal.
  destruct (Z.leb_spec (2 * i) n); [apply E1; lia|]. rewrite <- E2 by lia. f_equal. f_equal. lia.
Qed.
(** HC2R inverts R2HC up to the factor n *)
Theorem C40_halfcomplex_roundtrip : forall qs qs' n inp mid out flags flags' p q, qsort_perm qs -> qsort_perm qs' -> word32 flags -> word32 flags' ->
  plan_r2r_1d qs n inp mid 0 flags (Some p) -> plan_r2r_1d qs' n mid out 1 flags' (Some q) ->
  (inp = mid \/ forall i j, 0 <= i < n -> 0 <= j < n -> sh inp i <> sh mid j) ->
  (mid = out \/ forall i j, 0 <= i < n -> 0 <= j < n -> sh mid i <> sh out j) ->
  forall nx m, (fst inp < nx)%nat -> (fst mid < nx)%nat -> (fst out < nx)%nat ->
  forall j, 0 <= j < n -> execute_r q nx (execute_r p nx m) (sh out j) = (IZR n * m (sh inp j))%R.
Proof.
  intros qs qs' n inp mid out flags flags' p q Hq Hq' Hw Hw' Hp Hp' Hov Hov' nx m Hi Hm Ho j Hj.
  destruct (C40_halfcomplex qs n inp mid flags p Hq Hw Hp Hov nx m Hi Hm) as (V1 & V2 & _ & _).
  set (X := fun k => Csum n (fun j => RtoC (m (sh inp j)) * root (-1) n (j * k))%C) in *.
  pose proof (C40_halfcomplex_inverse qs' n mid out flags' q Hq' Hw' Hp' Hov' nx (execute_r p nx m) Hm Ho X) as I.
  assert (HX : forall k, 0 <= k < n -> X ((- k) mod n) = Cplx.conj (X k)).
  { intros k Hk. pose proof (C40_spectrum_hermitian [n] (fun js => m (sh inp (nth 0 js 0))) [k]) as Q. cbn [negidx idft nth] in Q.
    apply Q. constructor; auto. }
  specialize (I HX V1 V2 j Hj).
  pose proof (idft_inv (-1) [n] (fun js => RtoC (m (sh inp (nth 0 js 0)))) [j] ltac:(auto) ltac:(constructor; auto)) as R. cbn [idft nth] in R.
  change (- (-1)) with 1 in R. unfold X in I. rewrite R in I. apply (f_equal fst) in I. cbn [RtoC fst] in I. rewrite I.
  unfold npoints. cbn [fold_right]. rewrite Z.mul_1_r. cbn. ring.
Qed.

(** invalid arguments give NULL *)
Theorem C40_null : forall qs rank n howmany inp ie is id out oe os od flags r, many_kosherp rank n howmany = false ->
  plan_many_dft_r2c qs rank n howmany inp ie is id out oe os od flags r \/ plan_many_dft_c2r qs rank n howmany inp ie is id out oe os od flags r -> r = None.
Proof. intros qs rank n howmany inp ie is id out oe os od flags r H [Hp|Hp]; inversion Hp; auto; congruence. Qed.

(** ** Why rows at the same stride in both arrays are asked for in place
    rdft2-rdft (rdft/rdft2-rdft.c) accepts in-place problems whose vector strides differ:
    min_nbuf (157-183) means to make the buffer large enough.  But the batches
    run from the first row to the last, so if the complex rows are further apart than
    the real ones, the output of a batch overwrites input of the next one.
    fftw_plan_many_dft_r2c(1, {4}, 1000, a, NULL, 1, 10, a, NULL, 1, 6): the rows
    of both arrays are disjoint, the buffer holds 250 of them, and row 250 comes out wrong. *)
Definition bug2_f : rapply := r2c_apply R2HC 4 1 1 250 10 6.
Definition bug2_batch : rapply := fun nx I O m => vloop 250 6 12 (hc2c 4 1 2) (S nx) (nx, 0) O (bug2_f (S nx) I (nx, 0) m).
Definition bug2_apply : rapply := r2r_apply_r2hc 4 1 2 1000 250 6 10 12 bug2_f (fun _ _ _ m => m).
Lemma bug2_planned : r2child isort true true false 1 1 [] (mkdim 4 2 2) [mkdim 1000 10 12] bug2_apply.
Proof.
  eapply R2C_plan; [reflexivity|].
  eapply (R2_rdft_r2hc isort true true 1 1 (mkdim 4 2 2) [mkdim 1000 10 12] 1000 10 12 250 6 bug2_f); try reflexivity.
  - discriminate.
  - cbn [dn]. vm_compute. discriminate.
  - eapply RC_plan; [discriminate|reflexivity|].
    change (rcompress _) with [(R2HC, mkdim 4 1 1)].
    eapply (R_direct_r2c isort _ false R2HC (mkdim 4 1 1) [mkdim 250 10 6] 250 10 6); [now left|reflexivity|tauto].
  - apply R2C_empty. reflexivity.
Qed.
Lemma bug2_batch_ok : CorrectU true (x2c 1 1 [] 4 2 2) [mkdim 250 10 12] bug2_batch.
Proof.
  apply r2r_r2hc_batch; try lia. unfold bug2_f. rewrite r2c_eq. apply (kr2r_correct true false R2HC 4 1 1 250 10 6). discriminate.
Qed.

Fixpoint nodupb (l : list Z) : bool := match l with [] => true | x :: r => negb (existsb (Z.eqb x) r) && nodupb r end.
Lemma nodupb_ok l : nodupb l = true -> NoDup l.
Proof.
  induction l as [|x r IH]; intros H; constructor; cbn [nodupb] in H; apply andb_true_iff in H as [H1 H2]; auto.
  intros Hx. apply negb_true_iff in H1. rewrite <- not_true_iff_false in H1. apply H1, existsb_exists. exists x. split; [exact Hx|apply Z.eqb_refl].
Qed.
Lemma bug2_step nx I O m : (fst I < nx)%nat -> (fst O < nx)%nat ->
  (forall j k, 0 <= j < 250 -> 0 <= k < 3 -> rdc (bug2_batch nx I O m) (O, sh O 1) (j * 12 + k * 2) = dft 4 (fun q => RtoC (m (sh I (j * 10 + q)))) k) /\
  (forall l, (fst l < nx)%nat -> (forall j o, 0 <= j < 250 -> 0 <= o < 6 -> l <> sh O (j * 12 + o)) -> bug2_batch nx I O m l = m l).
Proof.
  intros HI HO. destruct (bug2_batch_ok nx I O m HI HO) as [V F].
  - repeat constructor. cbn. lia.
  - rewrite il_x2c, rcells_lin by reflexivity. apply nodupb_ok. vm_compute. reflexivity.
  - rewrite ol_x2c. apply nodupb_ok. vm_compute. reflexivity.
  - split.
    + intros j k Hj Hk. rewrite vals_row_c in V. etransitivity; [exact (V _ _ (offs1_in 250 10 12 j Hj) k Hk)|]. unfold dft. apply Csum_ext. intros q _.
      now rewrite rpos_lin, Z.mul_1_r by reflexivity.
    + intros l L1 L2. apply F; auto. intros (o & H & ->).       rewrite ol_x2c in H. cbn [app to_ map dn dos locs] in H. rewrite lplus_0_r in H.
      apply in_lplus_dim in H as (c & o1 & Hc & H & ->). apply in_lplus_dim in H as (k & o2 & Hk & H & ->). apply in_dimlocs in H as (j & Hj & ->).
      change (nc 4) with 3 in Hk. apply (L2 j (c * 1 + k * 2)); try lia. f_equal. lia.
Qed.
Lemma bug2_run nx I m : (fst I < nx)%nat -> bug2_apply nx I I m (sh I 3000) =
  (bug2_batch nx I I m (sh I 2500) + bug2_batch nx I I m (sh I 2501) + bug2_batch nx I I m (sh I 2502) + bug2_batch nx I I m (sh I 2503))%R.
Proof.
  intros HI. unfold bug2_apply, r2r_apply_r2hc, rbuffered_apply. change (DftModel.nsteps 250 (1000 + 1) 250) with (3 + 1).
  cbn zeta. rewrite (zfor_succ 3) by lia. change 3 with (2 + 1). rewrite (zfor_succ 2) by lia. change (zfor 2) with (zfor (1 + 1)).
  rewrite (zfor_succ 1) by lia. change (zfor 1) with (zfor (0 + 1)). rewrite (zfor_succ 0), zfor_0 by lia.
  change (10 * 250) with 2500. change (12 * 250) with 3000. change ((2 + 1) * 3000) with 9000. change ((2 + 1) * 2500) with 7500.
  rewrite !Z.mul_1_l, !Z.mul_0_l, !sh_0. change (2 * 2500) with 5000. change (2 * 3000) with 6000.
  set (m1 := vloop 250 6 12 (hc2c 4 1 2) (S nx) (nx, 0) I (bug2_f (S nx) I (nx, 0) m)).
  set (m2 := vloop 250 6 12 (hc2c 4 1 2) (S nx) (nx, 0) (sh I 3000) _).
  set (m3 := vloop 250 6 12 (hc2c 4 1 2) (S nx) (nx, 0) (sh I 6000) _).
  destruct (bug2_step nx (sh I 7500) (sh I 9000) m3 HI HI) as [_ F3]. unfold bug2_batch in F3. rewrite F3.
  2: exact HI. 2: intros j o Hj Ho E; rewrite sh_sh in E; apply sh_inj in E; lia.
  destruct (bug2_step nx (sh I 5000) (sh I 6000) m2 HI HI) as [_ F2]. unfold bug2_batch in F2. unfold m3. rewrite F2.
  2: exact HI. 2: intros j o Hj Ho E; rewrite sh_sh in E; apply sh_inj in E; lia.
  destruct (bug2_step nx (sh I 2500) (sh I 3000) m1 HI HI) as [V1 _]. unfold bug2_batch in V1. fold m2 in V1.
  specialize (V1 0 0 ltac:(lia) ltac:(lia)). apply (f_equal fst) in V1. unfold rdc in V1. cbn [fst snd Z.mul Z.add] in V1. rewrite sh_0 in V1.
  rewrite V1. unfold dft. rewrite Csum_fst. unfold Rsum. change (Z.to_nat 4) with 4%nat. cbn [nrsum]. rewrite !W_cs, !Z.mul_0_r, cs_0.
  cbn [fst snd RtoC cmul]. rewrite !sh_sh. change (Z.of_nat 0) with 0. change (Z.of_nat 1) with 1. change (Z.of_nat 2) with 2. change (Z.of_nat 3) with 3.
  fold (bug2_batch nx I I m) in m1. cbn [Z.add Z.mul]. unfold m1, bug2_batch. cbn. ring.
Qed.
Definition bug2_mem : mem := fun l => if snd l =? 2080 then 1%R else 0%R.
Lemma bug2_core (g : mem) : let a := (0%nat, 0) in
  (forall j k, 0 <= j < 250 -> 0 <= k < 3 -> rdc g (a, sh a 1) (j * 12 + k * 2) = dft 4 (fun q => RtoC (bug2_mem (sh a (j * 10 + q)))) k) ->
  (forall l, (fst l < 1)%nat -> (forall j o, 0 <= j < 250 -> 0 <= o < 6 -> l <> sh a (j * 12 + o)) -> g l = bug2_mem l) ->
  (g (sh a 2500) + g (sh a 2501) + g (sh a 2502) + g (sh a 2503))%R <> fst (Csum 4 (fun j => RtoC (bug2_mem (sh a (250 * 10 + j))) * root (-1) 4 (j * 0))%C).
Proof.
  intros a V F E. change (250 * 10) with 2500 in E. rewrite Csum_fst in E. set (m := bug2_mem) in *.
    pose proof (V 208 2 ltac:(lia) ltac:(lia)) as V1. clear V. unfold rdc in V1. cbn [fst snd] in V1. change (208 * 12 + 2 * 2) with 2500 in V1. change (208 * 10) with 2080 in V1.
    pose proof (f_equal fst V1) as V1r. pose proof (f_equal snd V1) as V1i. clear V1.
    cbn [fst snd] in V1r, V1i. change (sh (sh a 1) 2500) with (sh a 2501) in V1i.
    assert (G : forall o, 2502 <= o < 2504 -> g (sh a o) = m (sh a o)).
    { intros o Ho. apply F; [cbn; lia|]. intros j q Hj Hq H. apply sh_inj in H. lia. }
    rewrite (G 2502), (G 2503), V1r, V1i in E by lia. clear F G V1r V1i. unfold dft in E.
    rewrite Csum_fst, Csum_snd in E. unfold Rsum in E. change (Z.to_nat 4) with 4%nat in E. cbn [nrsum] in E.
    assert (M : forall o, o <> 2080 -> m (sh a o) = 0%R).
    { intros o Ho. unfold m, bug2_mem, sh, a. cbn [snd]. destruct (Z.eqb_spec (0 + o) 2080); [lia|reflexivity]. }
    unfold cmul, RtoC in E. cbn [fst snd] in E. rewrite (M (2080 + Z.of_nat 1)), (M (2080 + Z.of_nat 2)), (M (2080 + Z.of_nat 3)), (M (2500 + Z.of_nat 0)), (M (2500 + Z.of_nat 1)), (M (2500 + Z.of_nat 2)), (M (2500 + Z.of_nat 3)), (M 2502), (M 2503) in E by lia.
    assert (M0 : m (sh a (2080 + Z.of_nat 0)) = 1%R).
    { unfold m, bug2_mem, sh, a. cbn [snd]. destruct (Z.eqb_spec (0 + (2080 + Z.of_nat 0)) 2080); [reflexivity|lia]. }
    assert (C0 : W 4 (Z.of_nat 0 * 2) = (1%R, 0%R)).
    { replace (Z.of_nat 0 * 2) with 0 by lia. rewrite W_cs, cs_0, sn_0. now rewrite Ropp_0. }
    rewrite M0, C0 in E. cbn [fst snd] in E. rewrite ?Rmult_0_l in E. clear -E. lra.
Qed.
Theorem C40_inplace_dist_refuted : let a := (0%nat, 0) in
  exists p, plan_many_dft_r2c isort 1 (fun _ => 4) 1000 a None 1 10 a None 1 6 FFTW_ESTIMATE (Some p) /\
  (forall v w j k, 0 <= v < 1000 -> 0 <= w < 1000 -> 0 <= j < 4 -> 0 <= k < 4 -> v * 10 + j = w * 10 + k -> v = w /\ j = k) /\
  (forall v w j k, 0 <= v < 1000 -> 0 <= w < 1000 -> 0 <= j < 3 -> 0 <= k < 3 -> v * 6 + j = w * 6 + k -> v = w /\ j = k) /\
  exists m, celt (execute_2 p 1 m) a (250 * 6) <> Csum 4 (fun j => RtoC (m (sh a (250 * 10 + j))) * root (-1) 4 (j * 0))%C.
Proof.
  intros a. exists (mkr2p false bug2_apply a a). split; [|split; [|split]].
  - apply M2_plan; [reflexivity|]. change (fst (extract_reim FFT_SIGN a)) with a. change (snd (extract_reim FFT_SIGN a)) with (0%nat, 1).
    apply MK2_plan; [reflexivity|discriminate|]. apply bug2_planned.
  - lia.
  - lia.
  - exists bug2_mem. intros E. apply (f_equal fst) in E. unfold celt, execute_2 in E. cbn [fst r2_c2r r2_apply r2_r r2_c] in E.
    replace (2 * (250 * 6)) with 3000 in E by lia. rewrite bug2_run in E by (cbn; lia).
    destruct (bug2_step 1 a a bug2_mem ltac:(cbn; lia) ltac:(cbn; lia)) as [V F]. exact (bug2_core _ V F E).
Qed.

(** ** Concrete plans meet the hypotheses *)
(** fftw_plan_dft_r2c_1d(6, in, out, FFTW_ESTIMATE): a codelet *)
Example C40_case_r2c : exists p, plan_dft_r2c_1d isort 6 (0%nat, 0) (1%nat, 0) FFTW_ESTIMATE (Some p).
Proof.
  eexists. apply M2_plan; [reflexivity|]. apply MK2_plan; [reflexivity|discriminate|].
  eapply R2C_plan; [reflexivity|]. change (tensor_compress isort _) with (@nil iodim).
  eapply (R2_direct isort _ false false 1 1 (mkdim 6 2 2) [] 1 0 0); [discriminate|reflexivity|tauto].
Qed.
(** in place, 4 x 6: rows first, then columns by complex transforms *)
Example C40_case_2d : exists p, plan_dft_r2c_2d isort 4 6 (0%nat, 0) (0%nat, 0) FFTW_ESTIMATE (Some p).
Proof.
  eexists. apply M2_plan; [reflexivity|]. apply MK2_plan; [reflexivity|discriminate|].
  eapply R2C_plan; [reflexivity|]. change (tensor_compress isort _) with [mkdim 4 8 8].
  eapply (R2_rank2_r2hc isort _ true 1 1 [mkdim 4 8 8] (mkdim 6 2 2) [] 1); [cbn; lia| |].
  - cbn [skipn firstn app]. eapply R2C_plan; [reflexivity|]. change (tensor_compress isort _) with (@nil iodim).
    eapply (R2_direct isort _ true false 1 1 (mkdim 6 2 2) [mkdim 4 8 8] 4 8 8); [discriminate|reflexivity|right; right; reflexivity].
  - eapply C_plan; [intros _; split; reflexivity|reflexivity|].
    eapply (P_direct isort _ true 1 1 (mkdim 4 8 8) [mkdim 4 2 2]); [reflexivity|]. right; right; reflexivity.
Qed.
(** fftw_plan_many_dft_c2r(1, {6}, 3, in, NULL, 1, 4, out, NULL, 1, 6, FFTW_PRESERVE_INPUT): through the halfcomplex format *)
Example C40_case_c2r : exists p, plan_many_dft_c2r isort 1 (fun _ => 6) 3 (0%nat, 0) None 1 4 (1%nat, 0) None 1 6 FFTW_PRESERVE_INPUT (Some p).
Proof.
  eexists. apply M3_plan; [reflexivity|]. apply MK2_plan; [reflexivity|discriminate|].
  eapply R2C_plan; [reflexivity|]. change (tensor_compress isort _) with (@nil iodim).
  eapply (R2_rdft_hc2r isort _ false 1 1 (mkdim 6 2 2) [mkdim 3 8 6] 3 8 6 3 6); try reflexivity.
  - discriminate.
  - vm_compute. discriminate.
  - eapply RC_plan; [discriminate|reflexivity|]. change (rcompress _) with [(HC2R, mkdim 6 1 1)].
    eapply (R_direct_r2c isort _ false HC2R (mkdim 6 1 1) [mkdim 3 6 6] 3 6 6); [now right|reflexivity|tauto].
  - apply R2C_empty. reflexivity.
Qed.
(** 1-d arrays: the hypotheses on overlap hold for arrays in different blocks *)
Example C40_case_args : forall i j, 0 <= i < 6 -> 0 <= j < 2 * (6 / 2 + 1) -> sh (0%nat, 0) i <> sh (1%nat, 0) j.
Proof. intros i j _ _ E. apply (f_equal fst) in E. discriminate. Qed.
Print Assumptions C40_split_r2c.
Print Assumptions C40_split_c2r.
Print Assumptions C40_guru_r2c.
Print Assumptions C40_guru_c2r.
Print Assumptions C40_many_r2c.
Print Assumptions C40_many_c2r.
Print Assumptions C40_plan_dft_r2c.
Print Assumptions C40_plan_dft_c2r.
Print Assumptions C40_r2c_1d.
Print Assumptions C40_c2r_1d.
Print Assumptions C40_spectrum_hermitian.
Print Assumptions C40_roundtrip.
Print Assumptions C40_halfcomplex.
Print Assumptions C40_halfcomplex_inverse.
Print Assumptions C40_halfcomplex_roundtrip.
Print Assumptions C40_null.
Print Assumptions C40_inplace_dist_refuted.
