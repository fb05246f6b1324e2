(** * C01-C06, C27, C28: what the user gets from a complex DFT plan.

    The theorems quantify over every plan the planner entry points can return
    (relation [plan_guru_dft] etc. of ApiModel, built from the solver model
    [planned]/[child] of DftModel), every memory content and every choice of
    fresh blocks for temporary buffers ([nx]: all blocks numbered from nx on are
    unallocated before the call; the user's arrays lie in blocks below nx). *)
From Coq Require Import Reals ZArith List Lia Lra Bool Permutation.
From Verif Require Import NumTheory Base PrimesModel Cplx Spec SpecApi TensorModel Offs TensorProofs XForm XKern XSeq
  Rank0Model DftModel DftTw2 DftComp DftSplit DftProofs FlagsModel PropFlags ApiModel ApiProofs.
Import ListNotations.
Open Scope Z_scope.

(** ** The user's arguments as lists of dimensions.  A howmany rank of
    FFTW_RNK_MINFTY (INT_MAX) means "no transform at all". *)
Definition dims_of (rank : Z) (dims : Z -> iodim) : list iodim := map dims (zr rank).
Definition hm_of (hrank : Z) (hdims : Z -> iodim) : list iodim :=
  if hrank =? RNK_MINFTY then [mkdim 0 0 0] else map hdims (zr hrank).

Lemma kosher_guru rank dims hrank hdims : guru_kosherp rank dims hrank hdims = true ->
  0 <= rank /\ FINITE_RNK rank = true /\
  Forall (fun d => 0 < dn d) (dims_of rank dims) /\ Forall (fun d => 0 <= dn d) (hm_of hrank hdims) /\
  mktensor_iodims rank dims 2 2 = scl 2 2 (dims_of rank dims) /\
  mktensor_iodims hrank hdims 2 2 = scl 2 2 (hm_of hrank hdims) /\
  mktensor_iodims rank dims 1 1 = dims_of rank dims /\ mktensor_iodims hrank hdims 1 1 = hm_of hrank hdims.
Proof.
  unfold guru_kosherp. intros H. apply andb_true_iff in H as [H1 H2].
  unfold iodims_kosherp in H1, H2. destruct (Z.ltb_spec rank 0) as [|L]; [discriminate|].
  destruct (FINITE_RNK rank) eqn:Fr; cbn [negb] in H1; [|discriminate].
  destruct (Z.ltb_spec hrank 0) as [|L2]; [discriminate|].
  assert (SC : forall k r d, mktensor_iodims r d k k = scl k k (if FINITE_RNK r then map d (zr r) else empty_loop)).
  { intros k r d. unfold mktensor_iodims, scl. destruct (FINITE_RNK r); [now rewrite map_map|]. reflexivity. }
  rewrite !SC, !scl_1, Fr. unfold hm_of. unfold FINITE_RNK in *. destruct (hrank =? RNK_MINFTY) eqn:Eh; cbn [negb] in *.
  - repeat split; auto.
    + unfold dims_of. rewrite Forall_map, Forall_forall. rewrite forallb_forall in H1. intros i Hi. specialize (H1 i Hi).
      apply negb_true_iff, Z.leb_gt in H1. exact H1.
    + repeat constructor. cbn. lia.
  - repeat split; auto.
    + unfold dims_of. rewrite Forall_map, Forall_forall. rewrite forallb_forall in H1. intros i Hi. specialize (H1 i Hi).
      apply negb_true_iff, Z.leb_gt in H1. exact H1.
    + rewrite Forall_map, Forall_forall. rewrite forallb_forall in H2. intros i Hi. specialize (H2 i Hi).
      apply negb_true_iff, Z.ltb_ge in H2. exact H2.
Qed.
Lemma kosher_many rank n howmany : many_kosherp rank n howmany = true ->
  0 <= rank /\ 0 <= howmany /\ (forall i, 0 <= i < rank -> 0 < n i).
Proof.
  unfold many_kosherp, rowmajor_kosherp. intros H. apply andb_true_iff in H as [H1 H2]. apply Z.leb_le in H1.
  destruct (FINITE_RNK rank); [|discriminate]. cbn [negb] in H2. destruct (Z.ltb_spec rank 0); [discriminate|].
  repeat split; auto. intros i Hi. rewrite forallb_forall in H2. specialize (H2 i). apply in_zr in Hi. specialize (H2 Hi).
  apply negb_true_iff, Z.leb_gt in H2. exact H2.
Qed.
Lemma rowmajor_pos rank n ei eo is os : 0 <= rank -> (forall i, 0 <= i < rank -> 0 < n i) ->
  Forall (fun d => 0 < dn d) (rowmajor rank n ei eo is os).
Proof.
  intros H Hn. change (rowmajor rank n ei eo is os) with (map (rm_dim n ei eo is os (rank - 1)) (zr rank)). rewrite Forall_map, Forall_forall. intros i Hi. apply in_zr in Hi. cbn. auto.
Qed.

(** everything about one guru plan *)
Lemma guru_all qs rank dims hrank hdims inp out s flags p : qsort_perm qs -> s = -1 \/ s = 1 ->
  plan_guru_dft qs rank dims hrank hdims inp out s flags (Some p) ->
  let sz := dims_of rank dims in let hm := hm_of hrank hdims in
  distinct_indices (sz ++ hm) -> sign_consistent (inp = out) (sz ++ hm) ->
  forall nx in2 out2 m, (inp = out <-> in2 = out2) ->
    (fst in2 < nx)%nat -> (fst out2 < nx)%nat -> same_or_disjoint (sz ++ hm) in2 out2 ->
    transforms s sz hm in2 out2 m (execute_dft p nx in2 out2 m) /\
    (forall l, (fst l < nx)%nat -> ~ out_array out2 (sz ++ hm) l ->
       (flagset (PLNR_L flags) NO_DESTROY_INPUT = true \/ ~ in_array in2 (sz ++ hm) l) ->
       execute_dft p nx in2 out2 m l = m l) /\
    execute p nx m = execute_dft p nx inp out m.
Proof.
  intros Hq Hs Hp sz hm H1 H2 nx in2 out2 m Hio Hi Ho Hov. inversion Hp as [|r K Hmk]; subst r.
  destruct (kosher_guru _ _ _ _ K) as (K1 & _ & K2 & K3 & E1 & E2 & _). rewrite E1, E2 in Hmk. fold sz in K2, Hmk. fold hm in K3, Hmk.
  destruct (interleaved_exec qs s flags sz hm inp out p Hq Hs Hmk K2 K3 H1 H2 nx in2 out2 m Hio Hi Ho Hov) as [T F].
  split; [exact T|split; [exact F|]]. eapply execute_eq; eauto.
Qed.
Lemma many_all qs rank n howmany inp inembed istride idist out onembed ostride odist s flags p : qsort_perm qs -> s = -1 \/ s = 1 ->
  plan_many_dft qs rank n howmany inp inembed istride idist out onembed ostride odist s flags (Some p) ->
  let sz := rowmajor rank n (N0 inembed n) (N0 onembed n) istride ostride in
  let hm := [mkdim howmany idist odist] in
  distinct_indices (sz ++ hm) -> sign_consistent (inp = out) (sz ++ hm) ->
  forall nx in2 out2 m, (inp = out <-> in2 = out2) ->
    (fst in2 < nx)%nat -> (fst out2 < nx)%nat -> same_or_disjoint (sz ++ hm) in2 out2 ->
    transforms s sz hm in2 out2 m (execute_dft p nx in2 out2 m) /\
    (forall l, (fst l < nx)%nat -> ~ out_array out2 (sz ++ hm) l ->
       (flagset (PLNR_L flags) NO_DESTROY_INPUT = true \/ ~ in_array in2 (sz ++ hm) l) ->
       execute_dft p nx in2 out2 m l = m l) /\
    execute p nx m = execute_dft p nx inp out m.
Proof.
  intros Hq Hs Hp sz hm H1 H2 nx in2 out2 m Hio Hi Ho Hov. inversion Hp as [|r K Hmk]; subst r.
  destruct (kosher_many _ _ _ K) as (K1 & K2 & K3).
  rewrite rowmajor_scale in Hmk by auto.
  replace (mktensor_1d howmany (2 * idist) (2 * odist)) with (scl 2 2 hm) in Hmk
    by (unfold hm, scl, mktensor_1d, dim_scale; cbn [map dn dis dos]; do 2 f_equal; ring).
  fold sz in Hmk.
  assert (P1 : Forall (fun d => 0 < dn d) sz) by (apply rowmajor_pos; auto).
  assert (P2 : Forall (fun d => 0 <= dn d) hm) by (repeat constructor; cbn; lia).
  destruct (interleaved_exec qs s flags sz hm inp out p Hq Hs Hmk P1 P2 H1 H2 nx in2 out2 m Hio Hi Ho Hov) as [T F].
  split; [exact T|split; [exact F|]]. eapply execute_eq; eauto.
Qed.

Definition inb (ns ks : list Z) : Prop := Forall2 (fun n k => 0 <= k < n) ns ks.
Lemma in_box_inb t ks : in_box t ks <-> inb (map dn t) ks.
Proof.
  revert ks. induction t as [|d t IH]; intros [|k ks]; cbn [in_box map].
  - split; constructor.
  - split; [easy|intros H; inversion H].
  - split; [easy|intros H; inversion H].
  - rewrite IH. split; [intros [H1 H2]; now constructor|intros H; inversion H; auto].
Qed.
Lemma sdft_idft s t x ks : in_box t ks -> sdft s t x ks = idft s (map dn t) (fun js => x (ioff t js)) ks.
Proof.
  revert x ks. induction t as [|d t IH]; intros x [|k ks] H; try easy. cbn [sdft map idft]. destruct H as [_ H].
  apply Csum_ext. intros j _. f_equal. now rewrite IH.
Qed.
Lemma idft_ext s ns x y ks : inb ns ks -> (forall js, inb ns js -> x js = y js) -> idft s ns x ks = idft s ns y ks.
Proof.
  revert x y ks. induction ns as [|n ns IH]; intros x y ks Hk H; inversion Hk; subst; cbn [idft]; [apply H; constructor|].
  apply Csum_ext. intros j Hj. f_equal. apply IH; auto. intros js Hjs. apply H. now constructor.
Qed.
(** ** C01: every plan computes the documented transform (forward sign) *)

(** fftw_plan_guru_dft *)
Theorem C01_guru_dft : forall qs rank dims hrank hdims inp out flags p, qsort_perm qs ->
  plan_guru_dft qs rank dims hrank hdims inp out (-1) flags (Some p) ->
  let sz := dims_of rank dims in let hm := hm_of hrank hdims in
  distinct_indices (sz ++ hm) -> same_or_disjoint (sz ++ hm) inp out -> sign_consistent (inp = out) (sz ++ hm) ->
  forall nx m, (fst inp < nx)%nat -> (fst out < nx)%nat ->
    transforms (-1) sz hm inp out m (execute p nx m).
Proof.
  intros qs rank dims hrank hdims inp out flags p Hq Hp sz hm H1 H2 H3 nx m Hi Ho.
  destruct (guru_all qs rank dims hrank hdims inp out (-1) flags p Hq (or_introl eq_refl) Hp H1 H3 nx inp out m) as (T & _ & ->); auto. tauto.
Qed.

(** fftw_plan_guru_split_dft: separate real and imaginary arrays *)
Theorem C01_guru_split_dft : forall qs rank dims hrank hdims ri ii ro io flags p, qsort_perm qs ->
  plan_guru_split_dft qs rank dims hrank hdims ri ii ro io flags (Some p) ->
  let sz := dims_of rank dims in let hm := hm_of hrank hdims in
  good_arrays sz hm (ri, ii) (ro, io) -> sign_consistent (ri = ro) (sz ++ hm) ->
  forall nx m, (fst ri < nx)%nat -> (fst ro < nx)%nat ->
    is_transform sz hm (ri, ii) (ro, io) m (execute p nx m).
Proof.
  intros qs rank dims hrank hdims ri ii ro io flags p Hq Hp sz hm G S nx m Hi Ho.
  inversion Hp as [|r K Hmk]; subst r. destruct (kosher_guru _ _ _ _ K) as (_ & _ & _ & _ & _ & _ & E1 & E2).
  rewrite E1, E2 in Hmk. fold sz hm in Hmk. inversion Hmk as [|f ip B1 B2 Eip Hip Hc]; subst p.
  unfold execute. cbn [ap_apply ap_ri ap_ro].
  assert (Ei : ii = sh ri (snd ii - snd ri)) by (destruct ri, ii; unfold sh; cbn in *; subst; f_equal; lia).
  assert (Eo : io = sh ro (snd io - snd ro)) by (destruct ro, io; unfold sh; cbn in *; subst; f_equal; lia).
  set (di := snd ii - snd ri) in *. set (do_ := snd io - snd ro) in *. clearbody di do_.
  assert (Gx : good_arrays sz hm (ri, sh ri di) (ro, sh ro do_)) by (rewrite <- Ei, <- Eo; exact G).
  rewrite Ei, Eo.
  eapply (split_exec qs _ ip di do_ sz hm f Hq Hc); eauto.
  - destruct S as (a & b & Ha & Hb & Hab & HF). exists a, b. repeat split; auto. intros E. apply Hab. now apply Hip.
  - intros E. now apply Hip.
  - intros E Q. rewrite E in Eip. injection Q as Q _. symmetry in Eip. apply orb_false_iff in Eip as [Eip _].
    unfold loc_same in Eip. rewrite Q, Nat.eqb_refl, Z.eqb_refl in Eip. discriminate.
Qed.

(** fftw_plan_many_dft *)
Theorem C01_many_dft : forall qs rank n howmany inp inembed istride idist out onembed ostride odist flags p, qsort_perm qs ->
  plan_many_dft qs rank n howmany inp inembed istride idist out onembed ostride odist (-1) flags (Some p) ->
  let sz := rowmajor rank n (N0 inembed n) (N0 onembed n) istride ostride in
  let hm := [mkdim howmany idist odist] in
  distinct_indices (sz ++ hm) -> same_or_disjoint (sz ++ hm) inp out -> sign_consistent (inp = out) (sz ++ hm) ->
  forall nx m, (fst inp < nx)%nat -> (fst out < nx)%nat ->
    transforms (-1) sz hm inp out m (execute p nx m).
Proof.
  intros qs rank n howmany inp inembed istride idist out onembed ostride odist flags p Hq Hp sz hm H1 H2 H3 nx m Hi Ho.
  destruct (many_all _ _ _ _ _ _ _ _ _ _ _ _ (-1) _ p Hq (or_introl eq_refl) Hp H1 H3 nx inp out m) as (T & _ & ->); auto. tauto.
Qed.

(** *** The basic interface.  All conditions on layout hold automatically; the
    arrays only have to be the same or not to overlap. *)
Lemma horner_range n i ks : (forall q, (q < length ks)%nat -> 0 <= nth q ks 0 < n (i + Z.of_nat q)) ->
  0 <= horner n i 0 ks < prodfrom n i (length ks).
Proof.
  revert i. induction ks as [|k ks IH]; intros i H; [cbn; lia|]. cbn [horner length prodfrom].
  pose proof (H 0%nat ltac:(cbn; lia)) as H0. cbn [nth] in H0. rewrite Z.add_0_r in H0.
  assert (HI : 0 <= horner n (i + 1) 0 ks < prodfrom n (i + 1) (length ks)).
  { apply IH. intros q Hq. replace (i + 1 + Z.of_nat q) with (i + Z.of_nat (S q)) by lia. apply (H (S q)). cbn; lia. }
  rewrite horner_acc. rewrite Z.mul_0_l, Z.add_0_l. set (P := prodfrom n (i + 1) (length ks)) in *.
  assert ((k + 1) * P <= n i * P) by (apply Z.mul_le_mono_nonneg_r; lia). assert (0 <= k * P) by (apply Z.mul_nonneg_nonneg; lia). lia.
Qed.
Lemma horner_inj n i ks js : length ks = length js ->
  (forall q, (q < length ks)%nat -> 0 <= nth q ks 0 < n (i + Z.of_nat q)) ->
  (forall q, (q < length js)%nat -> 0 <= nth q js 0 < n (i + Z.of_nat q)) ->
  horner n i 0 ks = horner n i 0 js -> ks = js.
Proof.
  revert i js. induction ks as [|k ks IH]; intros i [|j js] HL H1 H2 E; try discriminate; auto.
  cbn [horner] in E. rewrite (horner_acc n (i + 1) (0 * n i + k)), (horner_acc n (i + 1) (0 * n i + j)) in E.
  rewrite !Z.mul_0_l, !Z.add_0_l in E. injection HL as HL. rewrite <- HL in E.
  assert (T1 : forall q, (q < length ks)%nat -> 0 <= nth q ks 0 < n (i + 1 + Z.of_nat q)).
  { intros q Hq. replace (i + 1 + Z.of_nat q) with (i + Z.of_nat (S q)) by lia. apply (H1 (S q)). cbn; lia. }
  assert (T2 : forall q, (q < length js)%nat -> 0 <= nth q js 0 < n (i + 1 + Z.of_nat q)).
  { intros q Hq. replace (i + 1 + Z.of_nat q) with (i + Z.of_nat (S q)) by lia. apply (H2 (S q)). cbn; lia. }
  pose proof (horner_range _ _ _ T1) as R1. pose proof (horner_range _ _ _ T2) as R2. rewrite <- HL in R2.
  set (P := prodfrom n (i + 1) (length ks)) in *.
  assert (k = j /\ horner n (i + 1) 0 ks = horner n (i + 1) 0 js) as [-> E2].
  { assert (k = j).
    { destruct (Z_lt_ge_dec k j) as [Q|Q]; [|destruct (Z_lt_ge_dec j k) as [Q'|Q']; [|lia]].
      - assert ((k + 1) * P <= j * P) by (apply Z.mul_le_mono_nonneg_r; lia). lia.
      - assert ((j + 1) * P <= k * P) by (apply Z.mul_le_mono_nonneg_r; lia). lia. }
    subst. split; auto. lia. }
  f_equal. eapply IH; eauto.
Qed.

Lemma basic_layout rank n : 0 <= rank -> (forall i, 0 <= i < rank -> 0 < n i) ->
  let t := rowmajor rank n n n 1 1 ++ [mkdim 1 1 1] in
  (forall ks, in_box t ks -> ioff t ks = ooff t ks /\ 0 <= ioff t ks < total rank n) /\
  distinct_indices t /\ (forall ip, sign_consistent ip t).
Proof.
  intros Hr Hn t. set (sz := rowmajor rank n n n 1 1) in *.
  assert (SP : forall (hm : list iodim) ks, in_box (sz ++ [mkdim 1 1 1]) ks -> exists ks', ks = ks' ++ [0] /\ in_box sz ks' /\
     ioff (sz ++ [mkdim 1 1 1]) ks = ioff sz ks' /\ ooff (sz ++ [mkdim 1 1 1]) ks = ooff sz ks').
  { intros _. clear. induction sz as [|d s IH]; intros ks H.
    - destruct ks as [|k [|]]; cbn in H; try tauto. exists []. replace k with 0 by lia. cbn. auto.
    - destruct ks as [|k ks]; [easy|]. cbn [app in_box] in H. destruct H as [H1 H2].
      destruct (IH ks H2) as (ks' & -> & B & E1 & E2). exists (k :: ks'). cbn [app in_box ioff ooff]. rewrite E1, E2. auto. }
  assert (OFF : forall ks', in_box sz ks' -> ioff sz ks' = horner n 0 0 ks' /\ ooff sz ks' = horner n 0 0 ks' /\
     Z.of_nat (length ks') = rank /\ (forall q, (q < length ks')%nat -> 0 <= nth q ks' 0 < n (0 + Z.of_nat q))).
  { intros ks' B. pose proof B as B'. apply rowmajor_box in B' as [L Q]; auto.
    destruct (rowmajor_offsets rank n n n 1 1 ks' Hr L) as [O1 O2]. unfold sz. rewrite O1, O2, !Z.mul_1_l. auto. }
  split; [|split].
  - intros ks B. destruct (SP [] ks B) as (ks' & -> & B' & E1 & E2). fold t in E1, E2. rewrite E1, E2.
    destruct (OFF ks' B') as (O1 & O2 & L & Q). rewrite O1, O2. split; auto. unfold total. rewrite <- L, Nat2Z.id. now apply horner_range.
  - split; intros ks js B1 B2 E; destruct (SP [] ks B1) as (ks' & -> & B1' & E1 & E1'), (SP [] js B2) as (js' & -> & B2' & E2 & E2');
      fold t in E1, E2, E1', E2'; f_equal; destruct (OFF ks' B1') as (O1 & O1' & L1 & Q1), (OFF js' B2') as (O2 & O2' & L2 & Q2);
      (apply (horner_inj n 0); [lia|auto|auto|lia]).
  - intros ip. exists 1, 1. repeat split; auto. apply Forall_app. split; [|repeat constructor; cbn; lia].
    unfold sz. change (rowmajor rank n n n 1 1) with (map (rm_dim n n n 1 1 (rank - 1)) (zr rank)). rewrite Forall_map, Forall_forall. intros i Hi. apply in_zr in Hi. cbn [rm_dim dn dis dos]. rewrite !Z.mul_1_l. intros _.
    assert (P : forall k j, (0 <= j) -> j + Z.of_nat k <= rank -> 0 < prodfrom n j k).
    { induction k as [|k IHk]; intros j H1 H2; cbn [prodfrom]; [lia|]. apply Z.mul_pos_pos; [apply Hn; lia|apply IHk; lia]. }
    pose proof (P (Z.to_nat (rank - 1 - i)) (i + 1) ltac:(lia) ltac:(lia)). lia.
Qed.

(** fftw_plan_dft: element (k1..kd) is number ((k1*n2+k2)*n3+..)+kd of a
    contiguous array *)
Theorem C01_plan_dft : forall qs rank n inp out flags p, qsort_perm qs ->
  plan_dft qs rank n inp out (-1) flags (Some p) ->
  (inp = out \/ forall i j, 0 <= i < 2 * total rank n -> 0 <= j < 2 * total rank n -> sh inp i <> sh out j) ->
  forall nx m, (fst inp < nx)%nat -> (fst out < nx)%nat ->
  forall ks, Z.of_nat (length ks) = rank -> (forall i, (i < length ks)%nat -> 0 <= nth i ks 0 < n (Z.of_nat i)) ->
    celt (execute p nx m) out (horner n 0 0 ks) =
    idft (-1) (map n (zr rank)) (fun js => celt m inp (horner n 0 0 js)) ks.
Proof.
  intros qs rank n inp out flags p Hq Hp Hov nx m Hi Ho ks Lk Bk. unfold plan_dft in Hp.
  assert (Kb : 0 <= rank /\ (forall i, 0 <= i < rank -> 0 < n i)).
  { inversion Hp as [|r K Hmk]; subst r. apply kosher_many in K. tauto. }
  destruct Kb as [Hr Hn]. destruct (basic_layout rank n Hr Hn) as (LO & DI & SC).
  assert (T : transforms (-1) (rowmajor rank n n n 1 1) [mkdim 1 1 1] inp out m (execute p nx m)).
  { apply (C01_many_dft qs rank n 1 inp None 1 1 out None 1 1 flags p Hq Hp); auto.
    destruct Hov as [Hov|Hov]; [now left|right].
    intros l (k1 & B1 & E1) (k2 & B2 & E2). destruct (LO k1 B1) as [_ R1], (LO k2 B2) as [Q2 R2]. cbn [N0] in *.
    rewrite <- Q2 in E2.
    destruct E1 as [E1|E1], E2 as [E2|E2]; rewrite E1 in E2; (apply Hov in E2; [exact E2|lia|lia]). }
  assert (Bx : in_box (rowmajor rank n n n 1 1) ks) by (apply rowmajor_box; auto).
  specialize (T [0] ks). cbn [ooff ioff dos dis] in T. rewrite !Z.mul_0_l, !Z.add_0_l in T.
  destruct (rowmajor_offsets rank n n n 1 1 ks Hr Lk) as [_ O2]. rewrite O2, Z.mul_1_l in T.
  rewrite T; [|cbn; lia|auto]. rewrite sdft_idft by auto.
  assert (EN : map dn (rowmajor rank n n n 1 1) = map n (zr rank))
    by (change (map dn (map (rm_dim n n n 1 1 (rank - 1)) (zr rank)) = map n (zr rank)); rewrite map_map; reflexivity).
  rewrite EN. apply idft_ext; [rewrite <- EN; now apply in_box_inb|]. intros js Hj. rewrite <- EN in Hj. apply in_box_inb in Hj. pose proof Hj as Bj.
  apply rowmajor_box in Bj as [Lj Qj]; auto.
  destruct (rowmajor_offsets rank n n n 1 1 js Hr Lj) as [O1 _]. now rewrite O1, Z.mul_1_l.
Qed.

(** ** C02: nothing but the output array is written; the input array is kept
    unless the user allows its destruction (FFTW_DESTROY_INPUT without
    FFTW_PRESERVE_INPUT).  [l] ranges over every location that existed before. *)
Theorem C02_frame : forall qs rank dims hrank hdims inp out s flags p, qsort_perm qs -> s = -1 \/ s = 1 -> word32 flags ->
  plan_guru_dft qs rank dims hrank hdims inp out s flags (Some p) ->
  let sz := dims_of rank dims in let hm := hm_of hrank hdims in
  distinct_indices (sz ++ hm) -> same_or_disjoint (sz ++ hm) inp out -> sign_consistent (inp = out) (sz ++ hm) ->
  forall nx m, (fst inp < nx)%nat -> (fst out < nx)%nat ->
  forall l, (fst l < nx)%nat -> ~ out_array out (sz ++ hm) l ->
    (flagset flags FFTW_PRESERVE_INPUT || negb (flagset flags FFTW_DESTROY_INPUT) = true \/ ~ in_array inp (sz ++ hm) l) ->
    execute p nx m l = m l.
Proof.
  intros qs rank dims hrank hdims inp out s flags p Hq Hs Hw Hp sz hm H1 H2 H3 nx m Hi Ho l Hl Q1 Q2.
  destruct (guru_all qs rank dims hrank hdims inp out s flags p Hq Hs Hp H1 H3 nx inp out m) as (_ & F & ->); auto; [tauto|].
  apply F; auto. now rewrite C20_destroy_input.
Qed.
Theorem C02_frame_many : forall qs rank n howmany inp inembed istride idist out onembed ostride odist s flags p, qsort_perm qs -> s = -1 \/ s = 1 -> word32 flags ->
  plan_many_dft qs rank n howmany inp inembed istride idist out onembed ostride odist s flags (Some p) ->
  let sz := rowmajor rank n (N0 inembed n) (N0 onembed n) istride ostride in
  let hm := [mkdim howmany idist odist] in
  distinct_indices (sz ++ hm) -> same_or_disjoint (sz ++ hm) inp out -> sign_consistent (inp = out) (sz ++ hm) ->
  forall nx m, (fst inp < nx)%nat -> (fst out < nx)%nat ->
  forall l, (fst l < nx)%nat -> ~ out_array out (sz ++ hm) l ->
    (flagset flags FFTW_PRESERVE_INPUT || negb (flagset flags FFTW_DESTROY_INPUT) = true \/ ~ in_array inp (sz ++ hm) l) ->
    execute p nx m l = m l.
Proof.
  intros qs rank n howmany inp inembed istride idist out onembed ostride odist s flags p Hq Hs Hw Hp sz hm H1 H2 H3 nx m Hi Ho l Hl Q1 Q2.
  destruct (many_all _ _ _ _ _ _ _ _ _ _ _ _ s _ p Hq Hs Hp H1 H3 nx inp out m) as (_ & F & ->); auto; [tauto|].
  apply F; auto. now rewrite C20_destroy_input.
Qed.

(** ** C03: the new-array execute function; the planning arrays do not matter *)
Theorem C03_new_array : forall qs rank dims hrank hdims inp out s flags p, qsort_perm qs -> s = -1 \/ s = 1 -> word32 flags ->
  plan_guru_dft qs rank dims hrank hdims inp out s flags (Some p) ->
  let sz := dims_of rank dims in let hm := hm_of hrank hdims in
  distinct_indices (sz ++ hm) -> sign_consistent (inp = out) (sz ++ hm) ->
  forall nx in2 out2 m, (inp = out <-> in2 = out2) -> same_or_disjoint (sz ++ hm) in2 out2 ->
    (fst in2 < nx)%nat -> (fst out2 < nx)%nat ->
    transforms s sz hm in2 out2 m (execute_dft p nx in2 out2 m) /\
    (forall l, (fst l < nx)%nat -> ~ out_array out2 (sz ++ hm) l ->
       (flagset flags FFTW_PRESERVE_INPUT || negb (flagset flags FFTW_DESTROY_INPUT) = true \/ ~ in_array in2 (sz ++ hm) l) ->
       execute_dft p nx in2 out2 m l = m l).
Proof.
  intros qs rank dims hrank hdims inp out s flags p Hq Hs Hw Hp sz hm H1 H3 nx in2 out2 m Hio Hov Hi Ho.
  destruct (guru_all qs rank dims hrank hdims inp out s flags p Hq Hs Hp H1 H3 nx in2 out2 m) as (T & F & _); auto.
  split; auto. rewrite <- C20_destroy_input by auto. exact F.
Qed.
Theorem C03_new_array_split : forall qs rank dims hrank hdims ri ii ro io flags p, qsort_perm qs ->
  plan_guru_split_dft qs rank dims hrank hdims ri ii ro io flags (Some p) ->
  let sz := dims_of rank dims in let hm := hm_of hrank hdims in
  sign_consistent (ri = ro) (sz ++ hm) ->
  forall nx ri2 ro2 m, (ri = ro <-> ri2 = ro2) ->
  (* the distance between real and imaginary parts is that of the planning arrays *)
  let ii2 := sh ri2 (snd ii - snd ri) in let io2 := sh ro2 (snd io - snd ro) in
  good_arrays sz hm (ri2, ii2) (ro2, io2) ->
  (fst ri2 < nx)%nat -> (fst ro2 < nx)%nat ->
    is_transform sz hm (ri2, ii2) (ro2, io2) m (execute_split_dft p nx ri2 ro2 m).
Proof.
  intros qs rank dims hrank hdims ri ii ro io flags p Hq Hp sz hm S nx ri2 ro2 m Hio ii2 io2 G Hi Ho.
  inversion Hp as [|r K Hmk]; subst r. destruct (kosher_guru _ _ _ _ K) as (_ & _ & _ & _ & _ & _ & E1 & E2).
  rewrite E1, E2 in Hmk. fold sz hm in Hmk. inversion Hmk as [|f ip B1 B2 Eip Hip Hc]; subst p.
  unfold execute_split_dft. cbn [ap_apply].
  eapply (split_exec qs _ ip _ _ sz hm f Hq Hc); eauto.
  - destruct S as (a & b & Ha & Hb & Hab & HF). exists a, b. repeat split; auto. intros E. apply Hab. now apply Hip.
  - intros E. apply Hio. now apply Hip.
  - intros E Q. rewrite E in Eip. injection Q as Q _. apply Hio in Q. symmetry in Eip. apply orb_false_iff in Eip as [Eip _].
    unfold loc_same in Eip. rewrite Q, Nat.eqb_refl, Z.eqb_refl in Eip. discriminate.
Qed.

(** ** C04: forward followed by backward multiplies by the number of points *)
Lemma idft_lin s ns n f c ks : 0 <= n -> inb ns ks ->
  idft s ns (fun js => Csum n (fun j => f j js * c j)%C) ks = Csum n (fun j => idft s ns (f j) ks * c j)%C.
Proof.
  intros Hn. revert f ks. induction ns as [|n' ns IH]; intros f ks Hk; inversion Hk; subst; cbn [idft]; auto.
  transitivity (Csum n' (fun i => Csum n (fun j => (idft s ns (fun js => f j (i :: js)) l' * root s n' (i * y)) * c j)%C)).
  - apply Csum_ext. intros i Hi. rewrite (IH (fun j js => f j (i :: js))) by auto. rewrite <- Csum_mul_r. apply Csum_ext. intros j _. ring.
  - rewrite Csum_swap. apply Csum_ext. intros j _. now rewrite Csum_mul_r.
Qed.
Definition npoints (ns : list Z) : Z := fold_right Z.mul 1 ns.
Lemma root_mul_orth s n a b : s = 1 \/ s = -1 -> 0 < n -> 0 <= a < n -> 0 <= b < n ->
  Csum n (fun k => (root s n (a * k) * root (- s) n (k * b)))%C = if a =? b then RtoC (IZR n) else C0.
Proof.
  intros Hs Hn Ha Hb.
  assert (E : forall k, (root s n (a * k) * root (- s) n (k * b))%C = W n (k * (- s * (a - b)))).
  { intros k. destruct Hs as [->| ->]; [change (- (1)) with (-1)|change (- -1) with 1]; rewrite root_fwd, root_bwd, <- W_add; f_equal; ring. }
  rewrite (Csum_ext _ _ _ (fun k _ => E k)). destruct (Z.eqb_spec a b) as [->|N].
  - rewrite W_orth_n; auto. exists 0. ring.
  - apply W_orth_zero; auto. intros (q & Hq). assert (Hq' : exists q', a - b = q' * n) by (destruct Hs as [->| ->]; [exists (- q)|exists q]; lia).
    destruct Hq' as (q' & Q). clear Hq. assert (q' = 0 \/ q' >= 1 \/ q' <= -1) as [Z0|[Z0|Z0]] by lia; [subst; lia|nia|nia].
Qed.
Lemma idft_inv s ns x js : s = 1 \/ s = -1 -> inb ns js ->
  idft (- s) ns (fun ks => idft s ns x ks) js = (RtoC (IZR (npoints ns)) * x js)%C.
Proof.
  intros Hs. revert x js. induction ns as [|n ns IH]; intros x js Hj; inversion Hj as [|? a ? js' Ha Hj']; subst; cbn [idft npoints fold_right].
  - apply C_eq; cbn; ring.
  - assert (Hn : 0 < n) by lia.
    transitivity (Csum n (fun k => Csum n (fun j => (RtoC (IZR (npoints ns)) * x (j :: js')) * (root s n (j * k) * root (- s) n (k * a)))%C)).
    + apply Csum_ext. intros k Hk. rewrite idft_lin by (auto; lia). rewrite <- Csum_mul_r. apply Csum_ext. intros j Hjj.
      rewrite (IH (fun l => x (j :: l))) by auto. ring.
    + rewrite Csum_swap. rewrite (Csum_ext _ _ (fun j => (RtoC (IZR (npoints ns)) * x (j :: js')) * (if j =? a then RtoC (IZR n) else C0))%C).
      * rewrite (Csum_delta n a); auto.
        -- rewrite Z.eqb_refl. fold (npoints ns). rewrite mult_IZR. apply C_eq; cbn; ring.
        -- intros i Hi Ne. rewrite (proj2 (Z.eqb_neq i a)) by auto. apply C_eq; cbn; ring.
      * intros j Hjj. rewrite Csum_mul_l. f_equal. now apply root_mul_orth.
Qed.

(** Plan p transforms inp to mid, plan q transforms mid to out with the
    opposite sign and the same sizes, reading where p wrote. *)
Theorem C04_round_trip : forall qs qs' rank dims hrank hdims dims' hdims' inp mid out s flags flags' p q,
  qsort_perm qs -> qsort_perm qs' -> s = -1 \/ s = 1 ->
  plan_guru_dft qs rank dims hrank hdims inp mid s flags (Some p) ->
  plan_guru_dft qs' rank dims' hrank hdims' mid out (- s) flags' (Some q) ->
  let sz := dims_of rank dims in let hm := hm_of hrank hdims in
  let sz' := dims_of rank dims' in let hm' := hm_of hrank hdims' in
  map dn sz' = map dn sz -> map dn hm' = map dn hm -> map dis sz' = map dos sz -> map dis hm' = map dos hm ->
  distinct_indices (sz ++ hm) -> same_or_disjoint (sz ++ hm) inp mid -> sign_consistent (inp = mid) (sz ++ hm) ->
  distinct_indices (sz' ++ hm') -> same_or_disjoint (sz' ++ hm') mid out -> sign_consistent (mid = out) (sz' ++ hm') ->
  forall nx nx' m, (fst inp < nx)%nat -> (fst mid < nx)%nat -> (fst mid < nx')%nat -> (fst out < nx')%nat ->
  forall vs ks, in_box hm vs -> in_box sz ks ->
    celt (execute q nx' (execute p nx m)) out (ooff hm' vs + ooff sz' ks) =
    (RtoC (IZR (npoints (map dn sz))) * celt m inp (ioff hm vs + ioff sz ks))%C.
Proof.
  intros qs qs' rank dims hrank hdims dims' hdims' inp mid out s flags flags' p q Hq Hq' Hs Hp Hpq sz hm sz' hm' N1 N2 N3 N4 A1 A2 A3 B1 B2 B3
    nx nx' m Hi Hm Hm' Ho vs ks Hv Hk.
  destruct (guru_all qs rank dims hrank hdims inp mid s flags p Hq Hs Hp A1 A3 nx inp mid m) as (T1 & _ & E1); auto; [tauto|].
  rewrite <- E1 in T1. set (m1 := execute p nx m) in *. clearbody m1.
  assert (Hs' : - s = -1 \/ - s = 1) by lia.
  destruct (guru_all qs' rank dims' hrank hdims' mid out (- s) flags' q Hq' Hs' Hpq B1 B3 nx' mid out m1) as (T2 & _ & E2); auto; [tauto|].
  rewrite <- E2 in T2. fold sz hm in T1. fold sz' hm' in T2.
  assert (Hv' : in_box hm' vs) by (apply in_box_inb; rewrite N2; now apply in_box_inb).
  assert (Hk' : in_box sz' ks) by (apply in_box_inb; rewrite N1; now apply in_box_inb).
  assert (OF : forall t t', map dis t' = map dos t -> forall l, ioff t' l = ooff t l).
  { induction t as [|d t IH]; intros [|d' t'] H l; try discriminate; destruct l; auto. cbn in *. injection H as H0 H. rewrite H0, (IH t' H). reflexivity. }
  rewrite (T2 vs ks Hv' Hk'). rewrite sdft_idft by auto. rewrite N1.
  rewrite (idft_ext _ _ _ (fun js => idft s (map dn sz) (fun js => celt m inp (ioff hm vs + ioff sz js)) js)).
  - rewrite idft_inv; auto; [lia|]. now apply in_box_inb.
  - now apply in_box_inb.
  - intros js Hj. apply in_box_inb in Hj. cbn beta. rewrite (OF sz sz'), (OF hm hm') by auto. rewrite T1 by auto. now rewrite sdft_idft.
Qed.

(** ** C05: sign +1 *)
Theorem C05_backward : forall qs rank dims hrank hdims inp out flags p, qsort_perm qs ->
  plan_guru_dft qs rank dims hrank hdims inp out 1 flags (Some p) ->
  let sz := dims_of rank dims in let hm := hm_of hrank hdims in
  distinct_indices (sz ++ hm) -> same_or_disjoint (sz ++ hm) inp out -> sign_consistent (inp = out) (sz ++ hm) ->
  forall nx m, (fst inp < nx)%nat -> (fst out < nx)%nat ->
    transforms 1 sz hm inp out m (execute p nx m).
Proof.
  intros qs rank dims hrank hdims inp out flags p Hq Hp sz hm H1 H2 H3 nx m Hi Ho.
  destruct (guru_all qs rank dims hrank hdims inp out 1 flags p Hq (or_intror eq_refl) Hp H1 H3 nx inp out m) as (T & _ & ->); auto. tauto.
Qed.
Theorem C05_backward_many : forall qs rank n howmany inp inembed istride idist out onembed ostride odist flags p, qsort_perm qs ->
  plan_many_dft qs rank n howmany inp inembed istride idist out onembed ostride odist 1 flags (Some p) ->
  let sz := rowmajor rank n (N0 inembed n) (N0 onembed n) istride ostride in
  let hm := [mkdim howmany idist odist] in
  distinct_indices (sz ++ hm) -> same_or_disjoint (sz ++ hm) inp out -> sign_consistent (inp = out) (sz ++ hm) ->
  forall nx m, (fst inp < nx)%nat -> (fst out < nx)%nat ->
    transforms 1 sz hm inp out m (execute p nx m).
Proof.
  intros qs rank n howmany inp inembed istride idist out onembed ostride odist flags p Hq Hp sz hm H1 H2 H3 nx m Hi Ho.
  destruct (many_all _ _ _ _ _ _ _ _ _ _ _ _ 1 _ p Hq (or_intror eq_refl) Hp H1 H3 nx inp out m) as (T & _ & ->); auto. tauto.
Qed.

(** ** C06: the result is a function of the input array alone: two executions
    from memories that agree on the input array give equal output arrays,
    whatever the buffers, the old output and everything else contained. *)
Theorem C06_pure : forall qs rank dims hrank hdims inp out s flags p, qsort_perm qs -> s = -1 \/ s = 1 ->
  plan_guru_dft qs rank dims hrank hdims inp out s flags (Some p) ->
  let sz := dims_of rank dims in let hm := hm_of hrank hdims in
  distinct_indices (sz ++ hm) -> same_or_disjoint (sz ++ hm) inp out -> sign_consistent (inp = out) (sz ++ hm) ->
  forall nx1 nx2 m1 m2, (fst inp < nx1)%nat -> (fst out < nx1)%nat -> (fst inp < nx2)%nat -> (fst out < nx2)%nat ->
    (forall l, in_array inp (sz ++ hm) l -> m1 l = m2 l) ->
    forall l, out_array out (sz ++ hm) l -> execute p nx1 m1 l = execute p nx2 m2 l.
Proof.
  intros qs rank dims hrank hdims inp out s flags p Hq Hs Hp sz hm H1 H2 H3 nx1 nx2 m1 m2 Hi1 Ho1 Hi2 Ho2 Hm l Hl.
  destruct (guru_all qs rank dims hrank hdims inp out s flags p Hq Hs Hp H1 H3 nx1 inp out m1) as (T1 & _ & E1); auto; [tauto|].
  destruct (guru_all qs rank dims hrank hdims inp out s flags p Hq Hs Hp H1 H3 nx2 inp out m2) as (T2 & _ & E2); auto; [tauto|].
  rewrite <- E1 in T1. rewrite <- E2 in T2. fold sz hm in T1, T2.
  assert (SPL : forall ks, in_box (sz ++ hm) ks -> exists k v, in_box sz k /\ in_box hm v /\
     ooff (sz ++ hm) ks = ooff hm v + ooff sz k).
  { clear. induction sz as [|d t IH]; intros ks H.
    - exists [], ks. cbn. repeat split; auto. lia.
    - destruct ks as [|k ks]; [easy|]. cbn [app in_box] in H. destruct H as [Hk H]. destruct (IH ks H) as (k' & v & A & B & E).
      exists (k :: k'), v. cbn [in_box app ooff]. repeat split; auto; try lia. }
  assert (JO : forall k v, in_box sz k -> in_box hm v -> exists ks, in_box (sz ++ hm) ks /\ ioff (sz ++ hm) ks = ioff hm v + ioff sz k).
  { clear. intros k v. revert k. induction sz as [|d t IH]; intros [|k ks] Hk Hv; try easy.
    - exists v. cbn. split; auto. lia.
    - destruct Hk as [Hk Hks]. destruct (IH ks Hks Hv) as (ks' & B & E). exists (k :: ks'). cbn [app in_box ioff]. rewrite E. split; [auto|lia]. }
  destruct Hl as (ks & Hks & Hl). destruct (SPL ks Hks) as (k & v & Hk & Hv & EE). rewrite EE in Hl.
  assert (EQ : celt (execute p nx1 m1) out (ooff hm v + ooff sz k) = celt (execute p nx2 m2) out (ooff hm v + ooff sz k)).
  { rewrite T1, T2 by auto. rewrite !sdft_idft by auto. apply idft_ext; [now apply in_box_inb|].
    intros js Hj. apply in_box_inb in Hj. destruct (JO js v Hj Hv) as (ks' & B & E). unfold celt. rewrite <- E.
    f_equal; apply Hm; exists ks'; auto. }
  unfold celt in EQ. injection EQ as Ea Eb. destruct Hl as [->| ->]; assumption.
Qed.

(** ** C27: the layout of the advanced interface *)
Theorem C27_layout : forall qs rank n howmany inp inembed istride idist out onembed ostride odist s flags p, qsort_perm qs -> s = -1 \/ s = 1 ->
  plan_many_dft qs rank n howmany inp inembed istride idist out onembed ostride odist s flags (Some p) ->
  let sz := rowmajor rank n (N0 inembed n) (N0 onembed n) istride ostride in
  let hm := [mkdim howmany idist odist] in
  distinct_indices (sz ++ hm) -> same_or_disjoint (sz ++ hm) inp out -> sign_consistent (inp = out) (sz ++ hm) ->
  forall nx m, (fst inp < nx)%nat -> (fst out < nx)%nat ->
  forall v ks, 0 <= v < howmany ->
    Z.of_nat (length ks) = rank -> (forall i, (i < length ks)%nat -> 0 <= nth i ks 0 < n (Z.of_nat i)) ->
    celt (execute p nx m) out (v * odist + ostride * horner (N0 onembed n) 0 0 ks) =
    idft s (map n (zr rank)) (fun js => celt m inp (v * idist + istride * horner (N0 inembed n) 0 0 js)) ks.
Proof.
  intros qs rank n howmany inp inembed istride idist out onembed ostride odist s flags p Hq Hs Hp sz hm H1 H2 H3 nx m Hi Ho v ks Hv Lk Bk.
  destruct (many_all _ _ _ _ _ _ _ _ _ _ _ _ s _ p Hq Hs Hp H1 H3 nx inp out m) as (T & _ & E); auto; [tauto|].
  rewrite <- E in T. clear E. fold sz hm in T.
  assert (Kb : 0 <= rank).
  { inversion Hp as [|r K Hmk]; subst r. apply kosher_many in K. tauto. }
  assert (Bx : in_box sz ks) by (apply rowmajor_box; auto).
  specialize (T [v] ks). cbn [ooff ioff dos dis hm] in T. rewrite !Z.add_0_r in T.
  destruct (rowmajor_offsets rank n (N0 inembed n) (N0 onembed n) istride ostride ks Kb Lk) as [_ O2].
  fold sz in O2. rewrite O2 in T.
  rewrite T; [|cbn; auto|auto]. rewrite sdft_idft by auto.
  assert (EN : map dn sz = map n (zr rank)) by (change (map dn (map (rm_dim n (N0 inembed n) (N0 onembed n) istride ostride (rank - 1)) (zr rank)) = map n (zr rank)); rewrite map_map; reflexivity).
  rewrite <- EN. apply idft_ext; [now apply in_box_inb|]. intros js Hj. apply in_box_inb in Hj. pose proof Hj as Bj.
  apply rowmajor_box in Bj as [Lj Qj]; auto.
  destruct (rowmajor_offsets rank n (N0 inembed n) (N0 onembed n) istride ostride js Kb Lj) as [O1 _].
  fold sz in O1. now rewrite O1.
Qed.

(** *** Real data.  [real_dims] and [cplx_dims]: the documented physical sizes
    of the real and the complex array when no embedding is given: the complex
    array has n/2+1 elements in its last dimension; in place the real array is
    padded to 2(n/2+1), out of place it is not padded. *)
Definition last_to (rank : Z) (n : Z -> Z) (v : Z) : Z -> Z := fun i => if i =? rank - 1 then v else n i.
Definition cplx_dims (rank : Z) (n : Z -> Z) := last_to rank n (n (rank - 1) / 2 + 1).
Definition real_dims (rank : Z) (n : Z -> Z) (inplace : bool) :=
  if inplace then last_to rank n (2 * (n (rank - 1) / 2 + 1)) else n.
Definition given (e : option (Z -> Z)) (dflt : Z -> Z) : Z -> Z := match e with Some f => f | None => dflt end.

Lemma horner_ext e e' i a ks : (forall q, (q < length ks)%nat -> e (i + Z.of_nat q) = e' (i + Z.of_nat q)) -> horner e i a ks = horner e' i a ks.
Proof.
  revert i a. induction ks as [|k ks IH]; intros i a H; cbn [horner]; auto.
  pose proof (H 0%nat ltac:(cbn; lia)) as H0. rewrite Z.add_0_r in H0. rewrite H0. apply IH. intros q Hq.
  replace (i + 1 + Z.of_nat q) with (i + Z.of_nat (S q)) by lia. apply H. cbn. lia.
Qed.
Lemma pad_real rank n e ip i : 0 < rank -> (forall i, 0 <= i < rank -> 0 < n i) -> 0 <= i < rank ->
  emb (rdft2_pad rank n e ip false) i = given e (real_dims rank n ip) i.
Proof.
  intros Hr Hn Hi. unfold rdft2_pad, given. destruct e as [e|]; [reflexivity|]. destruct (Z.ltb_spec 0 rank); [|lia].
  unfold real_dims, last_to. destruct ip; cbn [orb emb negb Z.b2z]; auto. pose proof (Hn (rank - 1) ltac:(lia)).
  rewrite Z.quot_div_nonneg by lia. destruct (i =? rank - 1); ring.
Qed.
Lemma pad_cplx rank n e ip i : 0 < rank -> (forall i, 0 <= i < rank -> 0 < n i) -> 0 <= i < rank ->
  emb (rdft2_pad rank n e ip true) i = given e (cplx_dims rank n) i.
Proof.
  intros Hr Hn Hi. unfold rdft2_pad, given. destruct e as [e|]; [reflexivity|]. destruct (Z.ltb_spec 0 rank); [|lia].
  unfold cplx_dims, last_to. rewrite orb_true_r. cbn [emb negb Z.b2z]. pose proof (Hn (rank - 1) ltac:(lia)).
  rewrite Z.quot_div_nonneg by lia. destruct (i =? rank - 1); ring.
Qed.
(** For every multi-index, the real element and the complex element lie where
    the manual says (offsets in units of real numbers). *)
Theorem C27_r2c_layout : forall rank n howmany inembed istride onembed ostride ip ks,
  many_kosherp rank n howmany = true -> Z.of_nat (length ks) = rank ->
  let t := r2c_tensor rank n inembed istride onembed ostride ip in
  map dn t = map n (zr rank) /\
  ioff t ks = istride * horner (given inembed (real_dims rank n ip)) 0 0 ks /\
  ooff t ks = 2 * (ostride * horner (given onembed (cplx_dims rank n)) 0 0 ks).
Proof.
  intros rank n howmany ie is oe os ip ks K L t. apply kosher_many in K as (Hr & _ & Hn). unfold t, r2c_tensor.
  rewrite rowmajor_spec by auto. split; [unfold rowmajor; rewrite map_map; reflexivity|].
  destruct (rowmajor_offsets rank n (emb (rdft2_pad rank n ie ip false)) (emb (rdft2_pad rank n oe ip true)) is (2 * os) ks Hr L) as [E1 E2].
  rewrite E1, E2. destruct ks as [|k ks]; [cbn [horner]; split; ring|]. cbn [length] in L.
  rewrite (horner_ext _ (given ie (real_dims rank n ip))), (horner_ext (emb (rdft2_pad rank n oe ip true)) (given oe (cplx_dims rank n))).
  - split; ring.
  - cbn [length]. intros q Hq. apply pad_cplx; auto; lia.
  - cbn [length]. intros q Hq. apply pad_real; auto; lia.
Qed.
Theorem C27_c2r_layout : forall rank n howmany inembed istride onembed ostride ip ks,
  many_kosherp rank n howmany = true -> Z.of_nat (length ks) = rank ->
  let t := c2r_tensor rank n inembed istride onembed ostride ip in
  map dn t = map n (zr rank) /\
  ioff t ks = 2 * (istride * horner (given inembed (cplx_dims rank n)) 0 0 ks) /\
  ooff t ks = ostride * horner (given onembed (real_dims rank n ip)) 0 0 ks.
Proof.
  intros rank n howmany ie is oe os ip ks K L t. apply kosher_many in K as (Hr & _ & Hn). unfold t, c2r_tensor.
  rewrite rowmajor_spec by auto. split; [unfold rowmajor; rewrite map_map; reflexivity|].
  destruct (rowmajor_offsets rank n (emb (rdft2_pad rank n ie ip true)) (emb (rdft2_pad rank n oe ip false)) (2 * is) os ks Hr L) as [E1 E2].
  rewrite E1, E2. destruct ks as [|k ks]; [cbn [horner]; split; ring|]. cbn [length] in L.
  rewrite (horner_ext _ (given ie (cplx_dims rank n))), (horner_ext (emb (rdft2_pad rank n oe ip false)) (given oe (real_dims rank n ip))).
  - split; ring.
  - cbn [length]. intros q Hq. apply pad_real; auto; lia.
  - cbn [length]. intros q Hq. apply pad_cplx; auto; lia.
Qed.
(** In place, the padded real array fits the complex array exactly: the two
    rows starting at the same outer index start at the same address. *)
Theorem C27_inplace_rows : forall rank n outer, 0 < rank -> Z.of_nat (length outer) = rank - 1 ->
  horner (real_dims rank n true) 0 0 (outer ++ [0]) = 2 * horner (cplx_dims rank n) 0 0 (outer ++ [0]).
Proof.
  intros rank n outer Hr HL.
  assert (G : forall l i a, i + Z.of_nat (length l) = rank - 1 ->
    horner (real_dims rank n true) i a (l ++ [0]) = 2 * horner (cplx_dims rank n) i a (l ++ [0])).
  { unfold real_dims, cplx_dims. induction l as [|k l IH]; intros i a H.
    - cbn [app horner length] in *. unfold last_to. replace (i =? rank - 1) with true by (symmetry; apply Z.eqb_eq; lia). ring.
    - cbn [app horner length] in *. unfold last_to at 2 4. replace (i =? rank - 1) with false by (symmetry; apply Z.eqb_neq; lia).
      apply IH. lia. }
  apply G. lia.
Qed.
Example C27_case : many_kosherp 2 (fun i => if i =? 0 then 3 else 5) 2 = true /\
  horner (given None (real_dims 2 (fun i => if i =? 0 then 3 else 5) true)) 0 0 [2; 4] = 16 /\
  horner (given None (cplx_dims 2 (fun i => if i =? 0 then 3 else 5))) 0 0 [2; 2] = 8.
Proof. repeat split. Qed.

(** ** C28: argument checks *)
Theorem C28_guru : forall rank dims hrank hdims,
  guru_kosherp rank dims hrank hdims = true <->
  (0 <= rank /\ rank <> RNK_MINFTY /\ (forall i, 0 <= i < rank -> 0 < dn (dims i)) /\
   0 <= hrank /\ (hrank <> RNK_MINFTY -> forall i, 0 <= i < hrank -> 0 <= dn (hdims i))).
Proof.
  intros. unfold guru_kosherp, iodims_kosherp, FINITE_RNK. rewrite andb_true_iff.
  destruct (Z.ltb_spec rank 0) as [L1|L1]; [split; [intros [H _]; discriminate|lia]|].
  destruct (Z.ltb_spec hrank 0) as [L2|L2]; [split; [intros [_ H]; discriminate|lia]|].
  assert (A : forall r (f : Z -> bool), forallb f (zr r) = true <-> forall i, 0 <= i < r -> f i = true).
  { intros r f. rewrite forallb_forall. split; intros H i Hi; apply H; now apply in_zr. }
  destruct (Z.eqb_spec rank RNK_MINFTY) as [E1|E1]; cbn [negb]; [split; [intros [H _]; discriminate|tauto]|].
  destruct (Z.eqb_spec hrank RNK_MINFTY) as [E2|E2]; cbn [negb]; rewrite ?A; split; intros H.
  - destruct H as [H1 H2]. repeat split; auto; try lia. intros i Hi. specialize (H1 i Hi). apply negb_true_iff, Z.leb_gt in H1. exact H1.
  - split; auto. intros i Hi. apply negb_true_iff, Z.leb_gt. apply H; auto.
  - destruct H as [H1 H2]. repeat split; auto.
    + intros i Hi. specialize (H1 i Hi). apply negb_true_iff, Z.leb_gt in H1. exact H1.
    + intros _ i Hi. specialize (H2 i Hi). apply negb_true_iff, Z.ltb_ge in H2. exact H2.
  - destruct H as (_ & _ & H1 & _ & H2). split; intros i Hi; apply negb_true_iff; [apply Z.leb_gt|apply Z.ltb_ge]; auto.
Qed.
Theorem C28_many : forall rank n howmany,
  many_kosherp rank n howmany = true <->
  (0 <= howmany /\ 0 <= rank /\ rank <> RNK_MINFTY /\ forall i, 0 <= i < rank -> 0 < n i).
Proof.
  intros. unfold many_kosherp, rowmajor_kosherp, FINITE_RNK. rewrite andb_true_iff, Z.leb_le.
  destruct (Z.eqb_spec rank RNK_MINFTY) as [E1|E1]; cbn [negb]; [split; [intros [_ H]; discriminate|tauto]|].
  destruct (Z.ltb_spec rank 0) as [L1|L1]; [split; [intros [_ H]; discriminate|lia]|].
  rewrite forallb_forall. split.
  - intros [H1 H2]. repeat split; auto. intros i Hi. apply in_zr in Hi. specialize (H2 i Hi). apply negb_true_iff, Z.leb_gt in H2. exact H2.
  - intros (H1 & _ & _ & H2). split; auto. intros i Hi. apply in_zr in Hi. apply negb_true_iff, Z.leb_gt. auto.
Qed.
(** rejected arguments: NULL is the only outcome, whatever the rest *)
Theorem C28_null : forall qs rank dims hrank hdims inp out sign flags r,
  guru_kosherp rank dims hrank hdims = false ->
  plan_guru_dft qs rank dims hrank hdims inp out sign flags r -> r = None.
Proof. intros qs rank dims hrank hdims inp out sign flags r H Hp. inversion Hp; auto. congruence. Qed.
Theorem C28_null_many : forall qs rank n howmany inp inembed istride idist out onembed ostride odist sign flags r,
  many_kosherp rank n howmany = false ->
  plan_many_dft qs rank n howmany inp inembed istride idist out onembed ostride odist sign flags r -> r = None.
Proof. intros qs rank n howmany inp inembed istride idist out onembed ostride odist sign flags r H Hp. inversion Hp; auto. congruence. Qed.

(** ** Concrete plans meet the hypotheses *)
(** fftw_plan_dft_1d(6, in, out, -1, ESTIMATE): a Cooley-Tukey plan of radix 2
    whose children are codelets *)
Definition exn : Z -> Z := fun _ => 6.
Example C01_case : exists p, plan_dft isort 1 exn (0%nat, 0) (1%nat, 0) (-1) FFTW_ESTIMATE (Some p).
Proof.
  eexists. apply M_plan; [reflexivity|].
  eapply MK_plan with (ip := false); [reflexivity|reflexivity|reflexivity|discriminate|].
  cbn [extract_reim FFT_SIGN Z.eqb fst snd]. 
  eapply C_plan; [discriminate|reflexivity|].
  change (tensor_compress isort (mktensor_rowmajor 1 exn (N0 None exn) (N0 None exn) (2 * 1) (2 * 1))) with [mkdim 6 2 2].
  eapply (P_ct_dit isort _ false _ _ 6 2 2 [] 1 0 0 2 2 3); [reflexivity|reflexivity|lia|lia|reflexivity| |].
  - apply PW_direct.
  - eapply C_plan; [discriminate|reflexivity|].
    eapply (P_direct isort _ false _ _ (mkdim 3 4 2) [mkdim 2 2 6]); [reflexivity|]. now left.
Qed.
(** in place and backward, sign +1, two transforms of size 5 (generic solver
    inside a vector loop), with FFTW_DESTROY_INPUT *)
Definition exd : Z -> iodim := fun _ => mkdim 5 2 2.
Definition exh : Z -> iodim := fun _ => mkdim 2 1 1.
Example C05_case : exists p, plan_guru_dft isort 1 exd 1 exh (0%nat, 4) (0%nat, 4) 1 (FFTW_ESTIMATE + FFTW_DESTROY_INPUT) (Some p).
Proof.
  eexists. apply G_plan; [reflexivity|].
  eapply MK_plan with (ip := true); [reflexivity|reflexivity|reflexivity|split; reflexivity|].
  cbn [extract_reim FFT_SIGN Z.eqb fst snd sh].
  eapply C_plan; [split; reflexivity|reflexivity|].
  change (tensor_compress isort (mktensor_iodims 1 exd 2 2)) with [mkdim 5 4 4].
  eapply (P_vrank isort _ true _ _ [mkdim 5 4 4] [mkdim 2 2 2] 0); [discriminate|reflexivity|reflexivity|].
  eapply C_plan; [split; reflexivity|reflexivity|].
  change (tensor_compress isort [mkdim 5 4 4]) with [mkdim 5 4 4].
  apply P_generic; reflexivity.
Qed.
Example C05_case_args :
  let t := dims_of 1 exd ++ hm_of 1 exh in
  distinct_indices t /\ same_or_disjoint t (0%nat, 4) (0%nat, 4) /\ sign_consistent ((0%nat, 4) = (0%nat, 4)) t.
Proof.
  cbn zeta. change (dims_of 1 exd ++ hm_of 1 exh) with [mkdim 5 2 2; mkdim 2 1 1].
  split; [split; intros ks js Hk Hj; destruct ks as [|a [|b [|]]]; cbn in Hk; try tauto;
    destruct js as [|a' [|b' [|]]]; cbn in Hj; try tauto; cbn; intros E; assert (a = a' /\ b = b') as [-> ->] by lia; reflexivity|].
  split; [now left|]. exists 1, 1. repeat split; auto; repeat constructor; cbn in *; lia.
Qed.

Print Assumptions C01_guru_dft.
Print Assumptions C01_guru_split_dft.
Print Assumptions C01_many_dft.
Print Assumptions C01_plan_dft.
Print Assumptions C02_frame.
Print Assumptions C03_new_array.
Print Assumptions C04_round_trip.
Print Assumptions C05_backward.
Print Assumptions C06_pure.
Print Assumptions C27_layout.
Print Assumptions C27_r2c_layout.
Print Assumptions C27_inplace_rows.
Print Assumptions C28_guru.
Print Assumptions C28_many.
Print Assumptions C28_null.
