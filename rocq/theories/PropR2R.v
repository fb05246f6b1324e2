(** * C39: real-to-real transforms, from the API *)
From Coq Require Import Reals ZArith List Lia Lra Bool Permutation.
From Verif Require Import NumTheory Cplx Spec SpecApi SpecR2R Base TensorModel Offs TensorProofs XForm XKern XSeq
  CopyProofs Rank0Model DftModel RdftModel DftTw2 DftComp DftSplit DftProofs FlagsModel PropFlags ApiModel ApiProofs PropDft
  RSum RdftX RdftLib RdftCanon RdftProofs ApiR2R.
Import ListNotations.
Open Scope Z_scope.

(** ** Library *)
Lemma rin_il p sz vec l : rin p (ds sz ++ vec) l <-> InP p (il (rx sz) vec) l.
Proof.
  rewrite il_rx. unfold rin, InP. split.
  - intros (ks & Hk & ->). exists (ioff (ds sz ++ vec) ks). split; auto. apply in_ilocs. eauto.
  - intros (o & Ho & ->). apply in_ilocs in Ho as (ks & Hk & ->). eauto.
Qed.
Lemma rout_ol p sz vec l : rout p (ds sz ++ vec) l <-> InP p (ol (rx sz) vec) l.
Proof.
  rewrite ol_rx. unfold rout, InP. split.
  - intros (ks & Hk & ->). exists (ooff (ds sz ++ vec) ks). split; auto. apply in_olocs. eauto.
  - intros (o & Ho & ->). apply in_olocs in Ho as (ks & Hk & ->). eauto.
Qed.
Lemma loc_same_eq a b : loc_same a b = true <-> a = b.
Proof.
  unfold loc_same. rewrite andb_true_iff, Nat.eqb_eq, Z.eqb_eq. destruct a, b; cbn. split; [intros [-> ->]; auto|intros [= -> ->]; auto].
Qed.
(** the condition on in-place problems *)
Definition r2r_ok (sz : list rdim) (vec : list iodim) (inplace : Prop) : Prop :=
  inplace -> Forall (fun kd => reodft (fst kd) = false) sz \/ same_strides (ds sz ++ vec).

Lemma r2r_exec qs nd ip sz vec f : qsort_perm qs -> rchild qs nd ip sz vec f ->
  rpos_d sz -> nnegd vec -> r2r_ok sz vec (ip = true) -> distinct_indices (ds sz ++ vec) ->
  forall nx I O m, (ip = true <-> I = O) -> (fst I < nx)%nat -> (fst O < nx)%nat ->
  (I = O \/ forall l, rin I (ds sz ++ vec) l -> rout O (ds sz ++ vec) l -> False) ->
  is_r2r sz vec I O m (f nx I O m) /\
  (forall l, (fst l < nx)%nat -> ~ rout O (ds sz ++ vec) l -> (nd = true \/ ~ rin I (ds sz ++ vec) l) -> f nx I O m l = m l).
Proof.
  intros Hq Hc P1 P2 K [D1 D2] nx I O m Hip HI HO Hov.
  destruct (proj2 (proj2 (rplanned_correct qs Hq)) _ _ _ _ _ Hc P1 P2) as [Pi Pc].
  assert (X : Correct nd ip (rx sz) vec f) by (apply Pc; exact K).
  assert (WW : Wf nx ip I O (rx sz) vec).
  { constructor; auto.
    - rewrite il_rx. now apply inj_NoDup_i.
    - rewrite ol_rx. now apply inj_NoDup_o.
    - destruct ip.
      + split; [now apply Hip|]. intros o. rewrite il_rx, ol_rx. specialize (Pi eq_refl).
        split; intros H; [|symmetry in Pi]; eapply Permutation_in; eauto.
      + intros l Hl1 Hl2. apply rin_il in Hl1. apply rout_ol in Hl2. destruct Hov as [Hov|Hov]; [|eauto].
        apply Hip in Hov. discriminate. }
  destruct (X nx I O m WW) as [V F]. split.
  - rewrite vals_rx in V. intros vs ks Hv Hk. apply V; auto. now apply in_offs_box.
  - intros l Hl H1 H2. apply F; auto.
    + intros Q. apply H1. now apply rout_ol.
    + destruct H2 as [H2|H2]; [now left|right]. intros Q. apply H2. now apply rin_il.
Qed.

Lemma map_kind1 k kd : documented_kind k = Some kd -> map_r2r_kind1 k = kd.
Proof.
  unfold documented_kind, map_r2r_kind1. intros H.
  destruct k as [|p|p]; try discriminate H; [now injection H|].
  do 4 (try (destruct p as [p|p|]; try discriminate H; try (injection H as <-; reflexivity))).
Qed.
Lemma map_kinds rank kind kds : map (fun i => documented_kind (kind i)) (zr rank) = map Some kds -> map_r2r_kind rank kind = kds.
Proof.
  unfold map_r2r_kind. revert kds. induction (zr rank) as [|i l IH]; intros [|kd kds] H; cbn in *; try discriminate; auto.
  injection H as H1 H2. f_equal; [now apply map_kind1|auto].
Qed.
Lemma ds_combine kds dims : length kds = length dims -> ds (combine kds dims) = dims.
Proof. revert dims. induction kds as [|k kds IH]; intros [|d dims] H; cbn in *; try discriminate; auto. f_equal. apply IH. lia. Qed.
Lemma kinds_len rank kind kds : map (fun i => documented_kind (kind i)) (zr rank) = map Some kds -> length kds = length (zr rank).
Proof. intros H. apply (f_equal (@length _)) in H. now rewrite !map_length in H. Qed.

(** one planned problem, executed on any arrays that are in place just as the planning arrays *)
Lemma rdft_all qs flags sz vec inp out p : qsort_perm qs -> mkapiplan_rdft qs flags sz vec inp out (Some p) ->
  rpos_d sz -> nnegd vec -> r2r_ok sz vec (inp = out) -> distinct_indices (ds sz ++ vec) ->
  forall nx in2 out2 m, (inp = out <-> in2 = out2) -> (fst in2 < nx)%nat -> (fst out2 < nx)%nat ->
  (in2 = out2 \/ forall l, rin in2 (ds sz ++ vec) l -> rout out2 (ds sz ++ vec) l -> False) ->
  is_r2r sz vec in2 out2 m (execute_r2r p nx in2 out2 m) /\
  (forall l, (fst l < nx)%nat -> ~ rout out2 (ds sz ++ vec) l ->
     (flagset (PLNR_L flags) NO_DESTROY_INPUT = true \/ ~ rin in2 (ds sz ++ vec) l) -> execute_r2r p nx in2 out2 m l = m l) /\
  execute_r p nx m = execute_r2r p nx inp out m.
Proof.
  intros Hq Hp P1 P2 K D nx in2 out2 m Hio Hi Ho Hov. inversion Hp as [|f Hc]; subst p. unfold execute_r2r, execute_r. cbn [rp_apply rp_I rp_O].
  destruct (r2r_exec qs _ _ sz vec f Hq Hc P1 P2) with (nx := nx) (I := in2) (O := out2) (m := m) as [T F]; auto.
  - intros E. apply K. now apply loc_same_eq.
  - rewrite loc_same_eq. exact Hio.
Qed.

(** ** C39: every plan computes the documented transform and writes nothing but
    the output array (and, only if the flags allow it, the input array).
    [documented_kind] gives the meaning of the kind argument. *)
Theorem C39_guru_r2r : forall qs rank dims hrank hdims inp out kind kds flags p, qsort_perm qs -> word32 flags ->
  plan_guru_r2r qs rank dims hrank hdims inp out kind flags (Some p) ->
  map (fun i => documented_kind (kind i)) (zr rank) = map Some kds ->
  let sz := dims_of rank dims in let hm := hm_of hrank hdims in
  distinct_indices (sz ++ hm) ->
  (inp = out -> Forall (fun kd => reodft kd = false) kds \/ same_strides (sz ++ hm)) ->
  (* the planning arrays, or new arrays passed to fftw_execute_r2r *)
  forall nx in2 out2 m, (inp = out <-> in2 = out2) -> (fst in2 < nx)%nat -> (fst out2 < nx)%nat ->
  (in2 = out2 \/ forall l, rin in2 (sz ++ hm) l -> rout out2 (sz ++ hm) l -> False) ->
    is_r2r (combine kds sz) hm in2 out2 m (execute_r2r p nx in2 out2 m) /\
    (forall l, (fst l < nx)%nat -> ~ rout out2 (sz ++ hm) l ->
       (flagset flags FFTW_PRESERVE_INPUT || negb (flagset flags FFTW_DESTROY_INPUT) = true \/ ~ rin in2 (sz ++ hm) l) ->
       execute_r2r p nx in2 out2 m l = m l) /\
    execute_r p nx m = execute_r2r p nx inp out m.
Proof.
  intros qs rank dims hrank hdims inp out kind kds flags p Hq Hw Hp Hk sz hm D K nx in2 out2 m Hio Hi Ho Hov.
  inversion Hp as [|r KK Hmk]; subst r. destruct (kosher_guru _ _ _ _ KK) as (K1 & _ & K2 & K3 & _ & _ & E1 & E2).
  rewrite E1, E2, (map_kinds _ _ _ Hk) in Hmk. fold sz in K2, Hmk. fold hm in K3, Hmk.
  assert (L : length kds = length sz) by (rewrite (kinds_len _ _ _ Hk); unfold sz, dims_of; now rewrite map_length).
  assert (ED : ds (combine kds sz) = sz) by now apply ds_combine.
  pose proof (rdft_all qs flags (combine kds sz) hm inp out p Hq Hmk) as G. rewrite ED, C20_destroy_input in G by auto.
  apply G; auto.
  - apply rpos_ds. rewrite ED. exact K2.
  - intros E. rewrite ED. destruct (K E) as [Q|Q]; [left|now right].
    apply Forall_forall. intros [k d] H. apply in_combine_l in H. rewrite Forall_forall in Q. cbn. auto.
Qed.

Theorem C39_many_r2r : forall qs rank n howmany inp inembed istride idist out onembed ostride odist kind kds flags p, qsort_perm qs -> word32 flags ->
  plan_many_r2r qs rank n howmany inp inembed istride idist out onembed ostride odist kind flags (Some p) ->
  map (fun i => documented_kind (kind i)) (zr rank) = map Some kds ->
  let sz := rowmajor rank n (N0 inembed n) (N0 onembed n) istride ostride in
  let hm := [mkdim howmany idist odist] in
  distinct_indices (sz ++ hm) ->
  (inp = out -> Forall (fun kd => reodft kd = false) kds \/ same_strides (sz ++ hm)) ->
  forall nx in2 out2 m, (inp = out <-> in2 = out2) -> (fst in2 < nx)%nat -> (fst out2 < nx)%nat ->
  (in2 = out2 \/ forall l, rin in2 (sz ++ hm) l -> rout out2 (sz ++ hm) l -> False) ->
    is_r2r (combine kds sz) hm in2 out2 m (execute_r2r p nx in2 out2 m) /\
    (forall l, (fst l < nx)%nat -> ~ rout out2 (sz ++ hm) l ->
       (flagset flags FFTW_PRESERVE_INPUT || negb (flagset flags FFTW_DESTROY_INPUT) = true \/ ~ rin in2 (sz ++ hm) l) ->
       execute_r2r p nx in2 out2 m l = m l) /\
    execute_r p nx m = execute_r2r p nx inp out m.
Proof.
  intros qs rank n howmany inp inembed istride idist out onembed ostride odist kind kds flags p Hq Hw Hp Hk sz hm D K nx in2 out2 m Hio Hi Ho Hov.
  inversion Hp as [|r KK Hmk]; subst r. destruct (kosher_many _ _ _ KK) as (K1 & K2 & K3).
  rewrite rowmajor_spec, (map_kinds _ _ _ Hk) in Hmk by auto. fold sz in Hmk. change (mktensor_1d howmany idist odist) with hm in Hmk.
  assert (L : length kds = length sz).
  { rewrite (kinds_len _ _ _ Hk). unfold sz. change (rowmajor rank n (N0 inembed n) (N0 onembed n) istride ostride) with
      (map (rm_dim n (N0 inembed n) (N0 onembed n) istride ostride (rank - 1)) (zr rank)). now rewrite map_length. }
  assert (ED : ds (combine kds sz) = sz) by now apply ds_combine.
  pose proof (rdft_all qs flags (combine kds sz) hm inp out p Hq Hmk) as G. rewrite ED, C20_destroy_input in G by auto.
  apply G; auto.
  - apply rpos_ds. rewrite ED. now apply rowmajor_pos.
  - repeat constructor. cbn. lia.
  - intros E. rewrite ED. destruct (K E) as [Q|Q]; [left|now right].
    apply Forall_forall. intros [k d] H. apply in_combine_l in H. rewrite Forall_forall in Q. cbn. auto.
Qed.

(** *** The basic interface: no condition on layout is left. *)
Lemma rmx_imx kds t x ks : length kds = length t -> in_box t ks ->
  rmx (combine kds t) x ks = imx (combine kds (map dn t)) (fun js => x (ioff t js)) ks.
Proof.
  revert kds x ks. induction t as [|d t IH]; intros [|kd kds] x [|k ks] HL HB; cbn in HL; try discriminate; try easy.
  cbn [combine map rmx imx]. destruct HB as [_ HB]. apply Rsum_ext. intros j _. f_equal. rewrite IH; auto.
Qed.
Lemma imx_ext sz x y ks : inb (map snd sz) ks -> (forall js, inb (map snd sz) js -> x js = y js) -> imx sz x ks = imx sz y ks.
Proof.
  revert x y ks. induction sz as [|[kd n] sz IH]; intros x y ks Hk H; inversion Hk; subst; cbn [imx]; [apply H; constructor|].
  apply Rsum_ext. intros j Hj. f_equal. apply IH; auto. intros js Hjs. apply H. now constructor.
Qed.
Lemma snd_combine (kds : list rkind) (l : list Z) : length kds = length l -> map snd (combine kds l) = l.
Proof. revert l. induction kds as [|k kds IH]; intros [|d l] L; cbn in *; try discriminate; auto. f_equal. apply IH. lia. Qed.
Theorem C39_plan_r2r : forall qs rank n inp out kind kds flags p, qsort_perm qs -> word32 flags ->
  plan_r2r qs rank n inp out kind flags (Some p) ->
  map (fun i => documented_kind (kind i)) (zr rank) = map Some kds ->
  (inp = out \/ forall i j, 0 <= i < total rank n -> 0 <= j < total rank n -> sh inp i <> sh out j) ->
  forall nx m, (fst inp < nx)%nat -> (fst out < nx)%nat ->
  forall ks, Z.of_nat (length ks) = rank -> (forall i, (i < length ks)%nat -> 0 <= nth i ks 0 < n (Z.of_nat i)) ->
    execute_r p nx m (sh out (horner n 0 0 ks)) =
    imx (combine kds (map n (zr rank))) (fun js => m (sh inp (horner n 0 0 js))) ks.
Proof.
  intros qs rank n inp out kind kds flags p Hq Hw Hp Hk Hov nx m Hi Ho ks Lk Bk. unfold plan_r2r in Hp.
  assert (Kb : 0 <= rank /\ (forall i, 0 <= i < rank -> 0 < n i)).
  { inversion Hp as [|r K Hmk]; subst r. apply kosher_many in K. tauto. }
  destruct Kb as [Hr Hn]. destruct (basic_layout rank n Hr Hn) as (LO & DI & SC).
  set (sz := rowmajor rank n n n 1 1) in *.
  assert (Esz : sz = map (rm_dim n n n 1 1 (rank - 1)) (zr rank)) by reflexivity.
  assert (L : length kds = length sz) by (rewrite (kinds_len _ _ _ Hk), Esz; now rewrite map_length).
  assert (T : is_r2r (combine kds sz) [mkdim 1 1 1] inp out m (execute_r p nx m)).
  { destruct (C39_many_r2r qs rank n 1 inp None 1 1 out None 1 1 kind kds flags p Hq Hw Hp Hk) with (nx := nx) (in2 := inp) (out2 := out) (m := m) as (T & _ & E);
      cbn [N0]; fold sz; auto.
    - intros _. right. unfold same_strides. rewrite Esz. apply Forall_app. split; [|constructor; [now left|constructor]].
      rewrite Forall_map, Forall_forall. intros i _. now right.
    - tauto.
    - destruct Hov as [Hov|Hov]; [now left|right].
      intros l (k1 & B1 & E1) (k2 & B2 & E2). destruct (LO k1 B1) as [_ R1], (LO k2 B2) as [Q2 R2].
      rewrite <- Q2 in E2. rewrite E1 in E2. now apply Hov in E2.
    - rewrite E. exact T. }
  assert (Bx : in_box sz ks) by (apply rowmajor_box; auto).
  specialize (T [0] ks). rewrite ds_combine in T by auto. cbn [ooff ioff dos dis] in T. rewrite !Z.mul_0_l, !Z.add_0_l in T.
  destruct (rowmajor_offsets rank n n n 1 1 ks Hr Lk) as [_ O2]. fold sz in O2. rewrite O2, Z.mul_1_l in T.
  rewrite T; [|cbn; lia|auto]. rewrite rmx_imx by auto.
  assert (EN : map dn sz = map n (zr rank)) by (rewrite Esz, map_map; reflexivity).
  assert (EN2 : map snd (combine kds (map dn sz)) = map dn sz) by (apply snd_combine; now rewrite map_length).
  rewrite <- EN. apply imx_ext; rewrite EN2; [now apply in_box_inb|]. intros js Hj. apply in_box_inb in Hj. pose proof Hj as Bj.
  apply rowmajor_box in Bj as [Lj Qj]; auto.
  destruct (rowmajor_offsets rank n n n 1 1 js Hr Lj) as [O1 _]. fold sz in O1. now rewrite O1, Z.mul_1_l.
Qed.
(** one dimension: Y_k = sum_j X_j * rk kind n j k *)
Theorem C39_plan_r2r_1d : forall qs n inp out kind kd flags p, qsort_perm qs -> word32 flags ->
  plan_r2r_1d qs n inp out kind flags (Some p) -> documented_kind kind = Some kd ->
  (inp = out \/ forall i j, 0 <= i < n -> 0 <= j < n -> sh inp i <> sh out j) ->
  forall nx m, (fst inp < nx)%nat -> (fst out < nx)%nat ->
  forall k, 0 <= k < n -> execute_r p nx m (sh out k) = Rsum n (fun j => m (sh inp j) * rk kd n j k)%R.
Proof.
  intros qs n inp out kind kd flags p Hq Hw Hp Hk Hov nx m Hi Ho k Hkn.
  pose proof (C39_plan_r2r qs 1 (fun _ => n) inp out (fun _ => kind) [kd] flags p Hq Hw Hp) as G. cbn [zr map combine] in G.
  change (zr 1) with [0] in G. cbn [map combine imx] in G. specialize (G ltac:(now rewrite Hk)).
  assert (E : total 1 (fun _ => n) = n) by (unfold total; cbn [Z.to_nat prodfrom]; change (Pos.to_nat 1) with 1%nat; cbn [prodfrom]; apply Z.mul_1_r). rewrite E in G.
  specialize (G Hov nx m Hi Ho [k] eq_refl). cbn [horner] in G. rewrite Z.mul_0_l, Z.add_0_l in G. rewrite G.
  - apply Rsum_ext. intros j _. reflexivity.
  - intros [|i] H; [exact Hkn|]. cbn [length] in H. lia.
Qed.
(** what NULL means: invalid arguments give NULL *)
Theorem C39_null : forall qs rank dims hrank hdims inp out kind flags r,
  guru_kosherp rank dims hrank hdims = false -> plan_guru_r2r qs rank dims hrank hdims inp out kind flags r -> r = None.
Proof. intros qs rank dims hrank hdims inp out kind flags r H Hp. inversion Hp; auto. congruence. Qed.

(** ** The solvers for the DCT/DST kinds do not check strides in place
    (reodft/reodft010e-r2hc.c:318-329 and others: vecsz->rnk <= 1 is all they
    ask of the vector), so without the hypothesis [same_strides] of the
    theorems above the claim is false: an in-place transform of the rows of a
    2x2 array that also transposes it can get a plan that overwrites the second
    row before reading it. *)
Definition bug_dims : Z -> iodim := fun _ => mkdim 2 1 2.
Definition bug_hdims : Z -> iodim := fun _ => mkdim 2 2 1.
Definition bug_child : rapply := r2c_apply R2HC 2 1 1 1 0 0.
Definition bug_plan : rapply := vloop 2 2 1 (buf_apply (load010 REDFT10) (store010 REDFT10) 2 1 2 bug_child).
Lemma bug_child_ok : Correct true true (rx (x1 R2HC 2 1 1)) [] bug_child.
Proof.
  unfold bug_child. rewrite r2c_eq. pose proof (kr2r_correct true true R2HC 2 1 1 1 0 0 ltac:(auto)) as C.
  eapply Correct_sim; [apply xsim_refl| | |exact C]; [cbn; apply Permutation_refl|]. intros _. repeat constructor. cbn. lia.
Qed.
Lemma bug_step (nx : nat) I O m : (fst I < nx)%nat -> (fst O < nx)%nat ->
  let m' := buf_apply (load010 REDFT10) (store010 REDFT10) 2 1 2 bug_child nx I O m in
  m' (sh O 0) = (2 * (m (sh I 0) + m (sh I 1)))%R /\
  m' (sh O 2) = (2 * (m (sh I 0) - m (sh I 1)) * cos (PI / 4))%R /\
  forall l, (fst l < nx)%nat -> l <> sh O 0 -> l <> sh O 2 -> m' l = m l.
Proof.
  intros HI HO. cbn zeta. unfold buf_apply. cbn [load010 store010]. unfold re10_load, re10_store, pairs, middle.
  change (hcnt 2) with 0. rewrite !zfor_0. change (0 + 1 =? 2 - (0 + 1)) with true. cbv iota zeta.
  set (m1 := upd (upd m _ _) _ _).
  assert (B0 : m1 (sh (nx, 0) 0) = m (sh I 0)).
  { unfold m1. rewrite upd_other by (intros H; apply sh_inj in H; lia). apply upd_same. }
  assert (B1 : m1 (sh (nx, 0) 1) = m (sh I 1)).
  { unfold m1. change (0 + 1) with 1. rewrite upd_same. change ((2 - 1) * 1) with 1.
    apply upd_other. intros H. apply (f_equal fst) in H. cbn in H. lia. }
  assert (B2 : forall l, (fst l < nx)%nat -> m1 l = m l).
  { intros l Hl. unfold m1. rewrite !upd_other; auto; intros H; apply (f_equal fst) in H; cbn in H; lia. }
  clearbody m1.
  destruct (run_w1 true true R2HC 2 1 1 bug_child (S nx) (nx, 0) (nx, 0) m1 bug_child_ok) as [C1 C2].
  { apply W1_same; [cbn; lia|]. apply inj1_1. }
  set (m2 := bug_child (S nx) (nx, 0) (nx, 0) m1) in *. clearbody m2.
  assert (V : forall k, 0 <= k < 2 -> m2 (sh (nx, 0) k) = (m (sh I 0) + (if k =? 0 then 1 else -1) * m (sh I 1))%R).
  { intros k Hk. specialize (C1 k Hk). rewrite Z.mul_1_r in C1. rewrite C1. unfold Rsum. change (Z.to_nat 2) with 2%nat.
    cbn [nrsum]. change (Z.of_nat 0) with 0. change (Z.of_nat 1) with 1. rewrite Z.mul_0_l, Z.mul_1_l, B0, B1.
    assert (k = 0 \/ k = 1) as [->| ->] by lia; unfold rk; cbn [Z.leb Z.eqb Z.compare Z.mul Pos.mul Pos.compare Pos.compare_cont].
    - replace (2 * PI * 0 * 0 / 2)%R with 0%R by field. replace (2 * PI * 1 * 0 / 2)%R with 0%R by field. rewrite cos_0. ring.
    - replace (2 * PI * 0 * 1 / 2)%R with 0%R by field. replace (2 * PI * 1 * 1 / 2)%R with PI by field. rewrite cos_0, cos_PI. ring. }
  assert (F : forall l, (fst l < nx)%nat -> m2 l = m l).
  { intros l Hl. rewrite C2; [now apply B2|lia| |now left]. intros k _ H. apply (f_equal fst) in H. cbn in H. lia. }
  change ((0 + 1) * 2) with 2. change (0 + 1) with 1. change (2 * 1) with 2.
  assert (Ne : sh O 0 <> sh O 2) by (intros H; apply sh_inj in H; lia).
  split; [|split].
  - rewrite upd_other by congruence. rewrite upd_same, V by lia. cbn [Z.eqb]. ring.
  - rewrite upd_same. rewrite upd_other by (intros H; apply (f_equal fst) in H; cbn in H; lia). rewrite V by lia. cbn [Z.eqb].
    unfold tw_cs. change (2 mod 2) with 0. change (1 * (2 / 2) + 0) with 1. unfold part, cexp. cbn [Z.eqb fst]. idtac.
    replace (2 * PI * 1 / IZR (4 * 2))%R with (PI / 4)%R. unfold cis. cbn [fst]. ring. change (4 * 2) with 8. field.
  - intros l Hl N0 N2. rewrite !upd_other by congruence. now apply F.
Qed.
Theorem C39_inplace_transposed_refuted :
  exists p, plan_guru_r2r isort 1 bug_dims 1 bug_hdims (0%nat, 0) (0%nat, 0) (fun _ => 5) FFTW_PATIENT (Some p) /\
    distinct_indices (dims_of 1 bug_dims ++ hm_of 1 bug_hdims) /\
    exists m, ~ is_r2r (combine [REDFT10] (dims_of 1 bug_dims)) (hm_of 1 bug_hdims) (0%nat, 0) (0%nat, 0) m (execute_r p 1%nat m).
Proof.
  exists (mkrp bug_plan (0%nat, 0) (0%nat, 0)). split; [|split].
  - apply GR_plan; [reflexivity|]. apply MKR_plan.
    eapply RC_plan; [reflexivity|reflexivity|].
    change (rcompress (combine (map_r2r_kind 1 (fun _ => 5)) (mktensor_iodims 1 bug_dims 1 1))) with [(REDFT10, mkdim 2 1 2)].
    eapply (R_reodft010 isort _ true REDFT10 2 1 2 [mkdim 2 2 1] 2 2 1); [tauto|reflexivity|].
    eapply RC_plan; [reflexivity|reflexivity|].
    change (rcompress [(R2HC, mkdim 2 1 1)]) with [(R2HC, mkdim 2 1 1)].
    eapply (R_direct_r2c isort _ true R2HC (mkdim 2 1 1) [] 1 0 0); [now left|reflexivity|tauto].
  - change (dims_of 1 bug_dims ++ hm_of 1 bug_hdims) with [mkdim 2 1 2; mkdim 2 2 1].
    split; intros ks js Hk Hj; destruct ks as [|a [|b [|]]]; cbn in Hk; try tauto;
      destruct js as [|a' [|b' [|]]]; cbn in Hj; try tauto; cbn; intros E; assert (a = a' /\ b = b') as [-> ->] by lia; reflexivity.
  - exists (fun l => if loc_same l (0%nat, 0) then 1%R else 0%R). intros H.
    specialize (H [1] [0]). change (hm_of 1 bug_hdims) with [mkdim 2 2 1] in H. change (dims_of 1 bug_dims) with [mkdim 2 1 2] in H.
    specialize (H ltac:(cbn; lia) ltac:(cbn; lia)). revert H. unfold execute_r. cbn [rp_apply rp_I rp_O].
    unfold bug_plan, vloop. rewrite (zfor_succ 1) by lia. rewrite (zfor_succ 0), zfor_0 by lia.
    change (fun o => if loc_same (sh (0%nat, 0) (ioff [mkdim 2 2 1] [1] + o)) (0%nat, 0) then 1%R else 0%R) with
      (fun o => (fun l => if loc_same l (0%nat, 0) then 1%R else 0%R) (sh (0%nat, 0) (ioff [mkdim 2 2 1] [1] + o))).
    set (m := fun l => if loc_same l (0%nat, 0) then 1%R else 0%R).
    set (m1 := buf_apply _ _ 2 1 2 bug_child 1%nat (sh _ (0 * 2)) _ m).
    destruct (bug_step 1%nat (sh (0%nat, 0) (0 * 2)) (sh (0%nat, 0) (0 * 1)) m ltac:(cbn; lia) ltac:(cbn; lia)) as (S1 & S2 & S3). fold m1 in S1, S2, S3.
    destruct (bug_step 1%nat (sh (0%nat, 0) (1 * 2)) (sh (0%nat, 0) (1 * 1)) m1 ltac:(cbn; lia) ltac:(cbn; lia)) as (T1 & _ & _).
    change (sh (sh (0%nat, 0) (1 * 1)) 0) with (0%nat, 1) in T1. change (sh (sh (0%nat, 0) (1 * 2)) 0) with (0%nat, 2) in T1.
    change (sh (sh (0%nat, 0) (1 * 2)) 1) with (0%nat, 3) in T1. change (sh (sh (0%nat, 0) (0 * 1)) 2) with (0%nat, 2) in S2.
    rewrite (S3 (0%nat, 3)) in T1 by (cbn; lia || discriminate). rewrite S2 in T1.
    change (sh (0%nat, 0) (ooff [mkdim 2 2 1] [1] + ooff (ds (combine [REDFT10] [mkdim 2 1 2])) [0])) with (0%nat, 1).
    intros H. rewrite T1 in H. clear -H. cbn [combine rmx] in H. unfold Rsum in H. cbn [dn] in H. change (Z.to_nat 2) with 2%nat in H.
    cbn [nrsum] in H.
    assert (E1 : forall j, 0 <= j < 2 -> m (sh (0%nat, 0) (ioff [mkdim 2 2 1] [1] + (j * 1 + 0))) = 0%R).
    { intros j Hj. unfold m. destruct (loc_same _ _) eqn:E; auto. apply loc_same_eq in E. apply (f_equal snd) in E. unfold sh in E; cbn [fst snd ioff dis] in E; lia. }
    cbn [dis] in H. rewrite !E1 in H by lia.
    assert (E2 : m (0%nat, 3) = 0%R) by reflexivity. rewrite E2 in H.
    change (m (sh (sh (0%nat, 0) (0 * 2)) 0)) with 1%R in H. change (m (sh (sh (0%nat, 0) (0 * 2)) 1)) with 0%R in H.
    assert (P : (0 < cos (PI / 4))%R) by (apply cos_gt_0; pose proof PI_RGT_0; lra). lra.
Qed.

(** ** Concrete plans meet the hypotheses *)
(** fftw_plan_r2r_1d(6, in, in, FFTW_REDFT10, ESTIMATE), in place *)
Example C39_case : exists p, plan_r2r_1d isort 6 (0%nat, 0) (0%nat, 0) 5 FFTW_ESTIMATE (Some p).
Proof.
  eexists. apply MR_plan; [reflexivity|]. apply MKR_plan.
  eapply RC_plan; [reflexivity|reflexivity|].
  change (rcompress _) with [(REDFT10, mkdim 6 1 1)].
  eapply (R_reodft010 isort _ true REDFT10 6 1 1 [] 1 0 0); [tauto|reflexivity|].
  eapply RC_plan; [reflexivity|reflexivity|].
  change (rcompress _) with [(R2HC, mkdim 6 1 1)].
  eapply (R_direct_r2c isort _ true R2HC (mkdim 6 1 1) [] 1 0 0); [now left|reflexivity|tauto].
Qed.
(** fftw_plan_r2r_2d(4, 3, in, out, FFTW_RODFT00, FFTW_DHT): the dimensions are done
    one after the other, DHT by way of R2HC, RODFT00 by the padded algorithm inside
    a vector loop *)
Example C39_case_2d : exists p, plan_r2r_2d isort 4 3 (0%nat, 0) (1%nat, 0) 7 2 FFTW_MEASURE (Some p).
Proof.
  eexists. apply MR_plan; [reflexivity|]. apply MKR_plan.
  eapply RC_plan; [discriminate|reflexivity|].
  change (rcompress _) with [(RODFT00, mkdim 4 3 3); (DHT, mkdim 3 1 1)].
  eapply (R_rank2 isort _ false [(RODFT00, mkdim 4 3 3); (DHT, mkdim 3 1 1)] [] 1); [cbn; lia| |].
  - eapply RC_plan; [discriminate|reflexivity|]. change (rcompress _) with [(DHT, mkdim 3 1 1)].
    eapply (R_vrank isort _ false [(DHT, mkdim 3 1 1)] [mkdim 4 3 3] 0); [discriminate|reflexivity|discriminate|].
    eapply RC_plan; [discriminate|reflexivity|]. change (rcompress _) with [(DHT, mkdim 3 1 1)].
    eapply (R_dht_r2hc isort _ false 3 1 1).
    eapply RC_plan; [discriminate|reflexivity|]. change (rcompress _) with [(R2HC, mkdim 3 1 1)].
    apply (R_generic_r2hc isort _ false 3 1 1); reflexivity.
  - eapply RC_plan; [reflexivity|reflexivity|]. change (rcompress _) with [(RODFT00, mkdim 4 3 3)].
    eapply (R_rodft00_pad isort _ true 4 3 3 [mkdim 3 1 1] 3 1 1); [reflexivity| |].
    + eapply RC_plan; [reflexivity|reflexivity|]. change (rcompress _) with [(R2HC, mkdim 10 1 1)].
      eapply (R_direct_r2c isort _ true R2HC (mkdim 10 1 1) [] 1 0 0); [now left|reflexivity|tauto].
    + eapply RC_plan; [discriminate|reflexivity|]. change (rcompress _) with (@nil rdim). apply R_rank0.
      eapply (RP_rank0 isort false [mkdim 4 (-1) 3] 1 [mkdim 4 (-1) 3]); [reflexivity|]. eapply R0_iter1; reflexivity.
Qed.

(** fftw_plan_r2r_1d(12, in, out, FFTW_R2HC): a radix-3 halfcomplex Cooley-Tukey plan,
    with its middle butterfly *)
Example C39_case_hc2hc : exists p, plan_r2r_1d isort 12 (0%nat, 0) (1%nat, 0) 0 FFTW_MEASURE (Some p).
Proof.
  eexists. apply MR_plan; [reflexivity|]. apply MKR_plan.
  eapply RC_plan; [discriminate|reflexivity|].
  change (rcompress _) with [(R2HC, mkdim 12 1 1)].
  eapply (R_hc_dit isort _ false 12 1 1 [] 1 0 0 3 3 4); try reflexivity.
  - apply H_direct.
    + eapply RC_plan; [reflexivity|reflexivity|]. change (rcompress _) with [(R2HC, mkdim 3 4 4)].
      eapply (R_direct_r2c isort _ true R2HC (mkdim 3 4 4) [] 1 0 0); [now left|reflexivity|tauto].
    + eapply RC_plan; [reflexivity|reflexivity|]. change (rcompress _) with [(R2HCII, mkdim 3 4 4)].
      eapply (R_direct_r2c isort _ true R2HCII (mkdim 3 4 4) [] 1 0 0); [tauto|reflexivity|tauto].
  - eapply RC_plan; [discriminate|reflexivity|]. change (rcompress _) with [(R2HC, mkdim 4 3 1)].
    eapply (R_direct_r2c isort _ false R2HC (mkdim 4 3 1) [mkdim 3 1 4] 3 1 4); [now left|reflexivity|now left].
Qed.
(** fftw_plan_with_nthreads(2); fftw_plan_r2r_1d(15, in, out, FFTW_HC2R) destroying its input:
    the butterflies run in two blocks, the second block first *)
Example C39_case_hc2hc_threads : exists p, plan_r2r_1d isort 15 (0%nat, 0) (1%nat, 0) 1 FFTW_DESTROY_INPUT (Some p).
Proof.
  eexists. apply MR_plan; [reflexivity|]. apply MKR_plan.
  eapply RC_plan; [discriminate|reflexivity|].
  change (rcompress _) with [(HC2R, mkdim 15 1 1)].
  eapply (R_thr_hc_dif isort _ false 15 1 1 [] 1 0 0 3 3 5 3 2
    (fun j => if j =? 0 then _ else _) [1; 0]); try reflexivity.
  - right; reflexivity.
  - intros j Hj. assert (E : j = 0 \/ j = 1) by (change (thr_nb 3 2) with 2 in Hj; lia). destruct E as [->| ->].
    + change (0 =? 0) with true. cbn iota. apply H_direct.
      * eapply RC_plan; [reflexivity|reflexivity|]. change (rcompress _) with [(HC2R, mkdim 3 5 5)].
        eapply (R_direct_r2c isort _ true HC2R (mkdim 3 5 5) [] 1 0 0); [tauto|reflexivity|tauto].
      * eapply RC_plan; [reflexivity|reflexivity|]. change (rcompress _) with (@nil rdim). apply R_rank0. apply RP_nop. reflexivity.
    + change (1 =? 0) with false. cbn iota. apply H_direct_buf.
      * eapply RC_plan; [reflexivity|reflexivity|]. change (rcompress _) with (@nil rdim). apply R_rank0. apply RP_nop. reflexivity.
      * eapply RC_plan; [reflexivity|reflexivity|]. change (rcompress _) with (@nil rdim). apply R_rank0. apply RP_nop. reflexivity.
  - cbn. apply perm_swap.
  - eapply RC_plan; [discriminate|reflexivity|]. change (rcompress _) with [(HC2R, mkdim 5 1 3)].
    eapply (R_direct_r2c isort _ false HC2R (mkdim 5 1 3) [mkdim 3 5 1] 3 5 1); [tauto|reflexivity|now left].
Qed.

(** the same size by hc2hc-generic: the two loops over the real and the imaginary parts
    of the butterflies become one *)
Example C39_case_hc2hc_generic : exists p, plan_r2r_1d isort 15 (0%nat, 0) (1%nat, 0) 0 FFTW_MEASURE (Some p).
Proof.
  eexists. apply MR_plan; [reflexivity|]. apply MKR_plan.
  eapply RC_plan; [discriminate|reflexivity|].
  change (rcompress _) with [(R2HC, mkdim 15 1 1)].
  eapply (R_hc_dit isort _ false 15 1 1 [] 1 0 0 3 3 5); try reflexivity.
  - eapply (H_generic isort _ R2HC 3 5 1 1 0 0 3 2); [now left|discriminate|discriminate|reflexivity| |].
    + eapply RC_plan; [reflexivity|reflexivity|]. change (rcompress _) with [(R2HC, mkdim 3 5 5)].
      eapply (R_direct_r2c isort _ true R2HC (mkdim 3 5 5) [] 1 0 0); [now left|reflexivity|tauto].
    + eapply (RC_plan isort _ true _ _ [mkdim 4 1 1]); [reflexivity|reflexivity|]. change (rcompress _) with [(R2HC, mkdim 3 5 5)].
      eapply (R_direct_r2c isort _ true R2HC (mkdim 3 5 5) [mkdim 4 1 1] 4 1 1); [now left|reflexivity|right; right; reflexivity].
  - eapply RC_plan; [discriminate|reflexivity|]. change (rcompress _) with [(R2HC, mkdim 5 3 1)].
    eapply (R_direct_r2c isort _ false R2HC (mkdim 5 3 1) [mkdim 3 1 5] 3 1 5); [now left|reflexivity|now left].
Qed.

Print Assumptions C39_guru_r2r.
Print Assumptions C39_many_r2r.
Print Assumptions C39_plan_r2r.
Print Assumptions C39_plan_r2r_1d.
Print Assumptions C39_null.
Print Assumptions C39_inplace_transposed_refuted.
