(** * C55: the printed codelets of gen_r2r, gen_twidsq and gen_hc2hc are the kernels of the planner *)
From Coq Require Import Reals ZArith List Bool Lia Lra FunctionalExtensionality.
From Verif Require Import NumTheory Cplx Spec SpecR2R RSum RMath TensorModel Offs TensorProofs XForm XKern CopyProofs XSeq RaceProofs Base TrigModel PropTrig TwModel PropTwiddle DftModel DftComp DftTw RdftModel HcModel GenExpr GenCplx GenAlg GenAlgVars GenTrans GenTransProofs GenFft GenNum GenMain GenTrig GenTrigProofs.
From Verif Require Import PropGenfft PropGenreal GenTwid GenTwidProofs PropGentwid PropGenalg PropGentrans GenAlist GenExec PropGenalist GenSched GenPrint PropGensched GenAnnot PropGenannot PropGenprint GenLink GenInputs GenKernel GenKernel2 PropGenlink GenKernel3.
Import ListNotations.
Open Scope Z_scope.
Notation mem := Spec.mem.
Local Notation o1 := GenCplx.o1.
Local Notation o2 := GenCplx.o2.
Notation in_places := PropGentwid.in_places.

Section R2r.
  Variable W : variable -> Prop.
  Variable pheq : expr -> expr -> bool.
  Variable M : magic.
  Notation gd := (gd W).
  Notation inz := (inz W).
  Notation ino := (ino W).
  Notation ins := (ins W).
  (** signals of which only the real part may be used *)
  Definition rsig (f : signal) : Prop := forall k c, f k = Some c -> c = zzero \/ exists u, c = load_c u /\ W (fst u).
  Lemma timesN_zero y : forall a, a = 0%R -> exists b, makeTimesN a y = Num b.
  Proof.
    induction y as [b| |l|x1 IH1 x2 IH2|x1 IH1 x2 IH2|x1 IH1 x2 IH2|x IH|v|v x IH]; intros a ->; cbn [makeTimesN]; rewrite ?z0; eauto.
    destruct x1; rewrite ?z0; eauto. apply IH2. apply Rmult_0_l || apply Rmult_0_r.
  Qed.
  Lemma gdn a : gd (Num a). Proof. apply gd_Num. Qed.
  Lemma real_scale s c : threemult M = false -> c = zzero \/ (exists u, c = load_c u /\ W (fst u)) -> inz (zreal (ztimes pheq M (CE (Num s) (Num 0)) c)).
  Proof.
    intros T [->|(u & -> & Hu)].
    - apply z_real. apply z_times; apply inz_num.
    - split; [|apply gd_Num]. unfold load_c, ztimes, zreal. rewrite T. cbn [re im negb].
      apply i_plus; (apply Forall_cons; [|apply Forall_cons; [|apply Forall_nil]]).
      + apply (i_times W pheq); [exact (gdn s)|]. intros w Ow. cbn in Ow. now subst w.
      + apply (i_uminus W). unfold makeTimes. destruct (timesN_zero (ELoad (snd u)) 0 eq_refl) as (b & ->). apply gdn.
  Qed.
  Lemma rsig_zreal f : rsig f -> ins (fun i => o1 zreal (f i)).
  Proof.
    intros F k. destruct (f k) as [c|] eqn:E; cbn [o1 option_map]; [|apply ino_none]. apply ino_some. destruct (F k c E) as [->|(u & -> & Hu)].
    - apply inz_num.
    - split; [|apply gd_Num]. intros w Ow. cbn in Ow. now subst w.
  Qed.
  Lemma rsig_zero_extend n f : rsig f -> rsig (zero_extend n f).
  Proof. intros F k c. unfold zero_extend. destruct (_ && _); [apply F|]. intros [= <-]. now left. Qed.
  Lemma rsig_load n inp : (forall j, 0 <= j < n -> W (fst (inp j))) -> rsig (load_array_c n inp).
  Proof. intros H k c. unfold load_array_c, array. destruct ((0 <=? k) && (k <? n)) eqn:E; [|discriminate]. intros [= <-]. right. exists (inp k). split; [reflexivity|apply H; lia]. Qed.
  Lemma s_dht s n f : rsig f -> ins (dht pheq M s n f).
  Proof.
    intros F k. unfold dht. assert (G := s_fft W pheq M s n _ (rsig_zreal f F)). apply n_plus; (apply n_o1; [|apply G]); intros; [now apply z_real|now apply z_imag].
  Qed.
  Lemma s_trigI n f : ins f -> ins (trigI pheq M n f).
  Proof. intros F. unfold trigI. apply s_fft. now apply s_hermitian. Qed.
  Lemma s_interleave f : ins f -> ins (interleave_zero f).
  Proof. intros F k. unfold interleave_zero. destruct (_ =? 0); [apply ino_some, inz_num|apply F]. Qed.
  Lemma s_trigII n f : ins f -> ins (trigII pheq M n f).
  Proof. intros F. unfold trigII. apply s_fft, s_hermitian. now apply s_interleave. Qed.
  Lemma s_trigIII n f : ins f -> ins (trigIII pheq M n f).
  Proof.
    intros F k. unfold trigIII. refine (s_fft W pheq M 1 (4 * n) _ _ (2 * k + 1)). apply s_hermitian. intros i.
    assert (Z0 : ino (o1 zreal (f 0))) by (apply n_o1; [intros; now apply z_real|apply F]).
    destruct (i =? 0); [exact Z0|]. destruct (i =? 2 * n); [apply n_o1; [intros; now apply z_uminus|exact Z0]|]. now apply s_antihermitian.
  Qed.
  Lemma s_zext n f : ins f -> ins (zero_extend n f).
  Proof. intros F k. unfold zero_extend. destruct (_ && _); [apply F|apply ino_some, inz_num]. Qed.
  Lemma s_trigIV n f : ins f -> ins (trigIV pheq M n f).
  Proof.
    intros F k. unfold trigIV. refine (s_fft W pheq M 1 (8 * n) _ _ (2 * k + 1)). apply s_hermitian, s_zext, s_antihermitian. now apply s_interleave.
  Qed.
  Lemma s_make_dct s sh' trig n f : threemult M = false -> (forall n f, ins f -> ins (trig n f)) -> rsig f -> ins (make_dct pheq M (CE (Num s) (Num 0)) sh' trig n f).
  Proof.
    intros T Tr F. unfold make_dct. apply Tr. intros k. destruct (zero_extend n f k) as [c|] eqn:E; cbn [o1 option_map]; [|apply ino_none].
    apply ino_some. apply real_scale; [exact T|]. exact (rsig_zero_extend n f F k c E).
  Qed.
  Lemma s_make_dst s a b d trig n f : (forall n f, ins f -> ins (trig n f)) -> rsig f -> ins (make_dst pheq M (CE (Num s) (Num 0)) a b d trig n f).
  Proof.
    intros Tr F k. unfold make_dst, shift. apply n_o1; [intros; now apply z_real|]. apply Tr. intros i.
    apply n_o1; [intros; now apply z_uminus|]. apply n_o1; [intros; apply z_times; auto; apply inz_num|]. apply n_o1; [intros; apply z_times; auto; apply inz_num|].
    exact (rsig_zreal _ (rsig_zero_extend n f F) (i - b)).
  Qed.
End R2r.
Lemma store_r_loads W n dst src v w : store_array_r n dst src = Some v -> ins W src -> loads_of v w -> W w.
Proof.
  unfold store_array_r. intros E F (p & e & He & Ow). destruct (omapM_in _ _ _ E _ He) as (i & _ & Ei).
  destruct (src i) as [c|] eqn:Ec; [|discriminate]. injection Ei as _ <-. destruct (F i c Ec) as [A _]. now apply A.
Qed.
Definition needs_real_times (kd : rkind) : bool := match kd with REDFT00 | REDFT10 | REDFT01 | REDFT11 => true | _ => false end.
Definition rvars (n : Z) (inp : Z -> variable * variable) : list variable := map (fun j => fst (inp j)) (zr n).
(** the codelet loads the real parts of its inputs only (the imaginary ones have the C text "BUG") *)
Lemma gen_r2r_loads pheq M kd normsqr n inp oloc v w : (needs_real_times kd = true -> threemult M = false) ->
  gen_r2r pheq M kd false normsqr n inp oloc = Some v -> loads_of v w -> In w (rvars n inp) \/ var_is_constant w = true.
Proof.
  intros T E. set (W := fun w => In w (rvars n inp) \/ var_is_constant w = true). change (loads_of v w -> W w).
  assert (HR : forall sc a b s, rescale pheq M false sc a b s = s).
  { intros sc a b s. apply functional_extensionality. intros i. unfold rescale. now rewrite andb_false_r. }
  assert (L : rsig W (load_array_c n inp)).
  { apply rsig_load. intros j Hj. left. unfold rvars. apply in_map_iff. exists j. split; [reflexivity|now apply in_zr]. }
  unfold gen_r2r, r2r_mode in E. 
  assert (K : forall tr si so si1 si2 so1 so2, (forall f, rsig W f -> ins W (tr n f)) ->
    store_array_r n oloc (rescale pheq M false so so1 so2 (fun i => o1 (ztimes pheq M (inverse_int_sqrt normsqr)) (tr n (rescale pheq M false si si1 si2 (load_array_c n inp)) i))) = Some v -> loads_of v w -> W w).
  { intros tr si so si1 si2 so1 so2 Tr E'. apply (store_r_loads W _ _ _ _ _ E'). rewrite !HR. intros k. apply n_o1; [intros c Hc; apply z_times; [apply inz_num|exact Hc]|]. now apply Tr. }
  destruct kd; try discriminate; refine (K _ _ _ _ _ _ _ _ E); intros f Hf.
  - now apply s_dht.
  - apply s_make_dct; auto. intros; now apply s_trigI.
  - apply s_make_dct; auto. intros; now apply s_trigIII.
  - apply s_make_dct; auto. intros; now apply s_trigII.
  - apply s_make_dct; auto. intros; now apply s_trigIV.
  - apply s_make_dst; auto. intros; now apply s_trigI.
  - apply s_make_dst; auto. intros; now apply s_trigIII.
  - apply s_make_dst; auto. intros; now apply s_trigII.
  - apply s_make_dst; auto. intros; now apply s_trigIV.
Qed.

(** ** Loops *)
Lemma loop_body_wf nx ip I O X vl ivs ovs i : Wf nx ip I O X [mkdim vl ivs ovs] -> (ip = true -> same_set X [] /\ (vl = 1 \/ ivs = ovs)) ->
  0 <= i < vl -> Wf nx ip (sh I (i * ivs)) (sh O (i * ovs)) X [].
Proof.
  intros WF Ip Hi. destruct (Bool.bool_dec ip true) as [Ep|Ep]; [destruct (Ip Ep) as (SS & [Dv|Dv])|].
  - subst vl. replace i with 0 by lia. rewrite !Z.mul_0_l, !sh_0. now apply Wf_dim1 in WF.
  - assert (P : Wf nx ip (sh I (i * ivs)) (sh O (i * ovs)) X [mkdim 1 ivs ovs]).
    { apply (Wf_piece nx ip I O _ [] vl ivs ovs WF); try lia. intros _. auto. }
    now apply Wf_dim1 in P.
  - assert (P : Wf nx ip (sh I (i * ivs)) (sh O (i * ovs)) X [mkdim 1 ivs ovs]).
    { apply (Wf_piece nx ip I O _ [] vl ivs ovs WF); try lia. intros K. contradiction. }
    now apply Wf_dim1 in P.
Qed.

(** ** Every row of the transforms has a nonzero first coefficient *)
Lemma cos_half_turn a b : 0 <= a -> 2 * a < b -> (0 < cos (PI * (IZR a / IZR b)))%R.
Proof.
  intros Ha Hb. assert (P := PI_RGT_0). assert (B : (0 < IZR b)%R) by (apply (IZR_lt 0); lia). assert (A : (0 <= IZR a)%R) by (apply (IZR_le 0); lia).
  assert (L : (2 * IZR a < IZR b)%R) by (rewrite <- mult_IZR; now apply IZR_lt).
  assert (Q : (IZR a / IZR b < / 2)%R). { apply (Rmult_lt_reg_r (IZR b)); auto. unfold Rdiv. rewrite Rmult_assoc, Rinv_l by lra. lra. }
  assert (Q0 : (0 <= IZR a / IZR b)%R) by (apply Rmult_le_pos; [auto|left; now apply Rinv_0_lt_compat]).
  apply cos_gt_0; nra.
Qed.
Lemma sin_turn a b : 0 < a -> a < b -> (0 < sin (PI * (IZR a / IZR b)))%R.
Proof.
  intros Ha Hb. assert (P := PI_RGT_0). assert (B : (0 < IZR b)%R) by (apply (IZR_lt 0); lia). assert (A : (0 < IZR a)%R) by (apply (IZR_lt 0); lia).
  assert (L : (IZR a < IZR b)%R) by (now apply IZR_lt).
  assert (Q : (IZR a / IZR b < 1)%R). { apply (Rmult_lt_reg_r (IZR b)); auto. unfold Rdiv. rewrite Rmult_assoc, Rinv_l by lra. lra. }
  assert (Q0 : (0 < IZR a / IZR b)%R) by (apply Rmult_lt_0_compat; [auto|now apply Rinv_0_lt_compat]).
  apply sin_gt_0; nra.
Qed.
Lemma rk0_pos kd n k : r2r_kind kd = true -> 0 <= k < n -> (rk kd n 0 k <> 0)%R.
Proof.
  intros Hkd Hk. assert (N : IZR n <> 0%R) by (apply IZR_neq; lia). assert (N1 : (IZR n + 1 <> 0)%R) by (rewrite <- plus_IZR; apply IZR_neq; lia).
  destruct kd; try discriminate; unfold rk; rewrite ?Z.eqb_refl.
  - replace (2 * PI * 0 * IZR k / IZR n)%R with 0%R by (unfold Rdiv; ring). rewrite cos_0, sin_0. lra.
  - lra.
  - lra.
  - assert (H := cos_half_turn k (2 * n) ltac:(lia) ltac:(lia)). rewrite mult_IZR in H.
    replace (PI * (0 + / 2) * IZR k / IZR n)%R with (PI * (IZR k / (2 * IZR n)))%R by (field; auto). lra.
  - assert (H := cos_half_turn (2 * k + 1) (4 * n) ltac:(lia) ltac:(lia)). rewrite plus_IZR, !mult_IZR in H.
    replace (PI * (0 + / 2) * (IZR k + / 2) / IZR n)%R with (PI * ((2 * IZR k + 1) / (4 * IZR n)))%R by (field; auto). lra.
  - assert (H := sin_turn (k + 1) (n + 1) ltac:(lia) ltac:(lia)). rewrite !plus_IZR in H.
    replace (PI * (0 + 1) * (IZR k + 1) / (IZR n + 1))%R with (PI * ((IZR k + 1) / (IZR n + 1)))%R by (field; auto). lra.
  - destruct (0 =? n - 1) eqn:E.
    + apply Z.eqb_eq in E. replace k with 0 by lia. rewrite Rmult_0_r, cos_0. lra.
    + assert (H := sin_turn (2 * k + 1) (2 * n) ltac:(lia) ltac:(lia)). rewrite plus_IZR, !mult_IZR in H.
      replace (PI * (0 + 1) * (IZR k + / 2) / IZR n)%R with (PI * ((2 * IZR k + 1) / (2 * IZR n)))%R by (field; auto). lra.
  - assert (H := sin_turn (k + 1) (2 * n) ltac:(lia) ltac:(lia)). rewrite plus_IZR, !mult_IZR in H.
    replace (PI * (0 + / 2) * (IZR k + 1) / IZR n)%R with (PI * ((IZR k + 1) / (2 * IZR n)))%R by (field; auto). lra.
  - assert (H := sin_turn (2 * k + 1) (4 * n) ltac:(lia) ltac:(lia)). rewrite plus_IZR, !mult_IZR in H.
    replace (PI * (0 + / 2) * (IZR k + / 2) / IZR n)%R with (PI * ((2 * IZR k + 1) / (4 * IZR n)))%R by (field; auto). lra.
Qed.

Section Loop.
  Context {T : Type}.
  Variable T_dec : forall p q : T, {p = q} + {p <> q}.
  (** The input and output arrays of a codelet with real inputs and outputs: element j of the input
      at I + j*is, of the output at O + j*os *)
  Record rio_layout (n : Z) (inp oloc : Z -> variable * variable) (addr : variable -> loc + T) (I O : loc) (is os : Z) : Prop := {
    rio_in : forall j, 0 <= j < n -> addr (fst (inp j)) = inl (sh I (j * is));
    rio_out : forall k, 0 <= k < n -> addr (fst (oloc k)) = inl (sh O (k * os));
    rio_other : forall w, is_locative w = false -> exists u, addr w = inr u;
    rio_loc : forall w, In w (rvars n inp ++ rvars n oloc) -> is_locative w = true;
    rio_diff : NoDup (rvars n inp ++ rvars n oloc);
    rio_same : forall j, 0 <= j < n -> same_location (fst (oloc j)) (fst (inp j)) = true
  }.
  (** gen_r2r.ml:192-201: for (i = v; i > 0; --i, I += ivs, O += ovs) *)
  Theorem C55_r2r pheq M kd n inp oloc v t addr tab is os vl ivs ovs nx ip (I O : loc) m :
    sound_eq pheq -> magic_ok M -> r2r_kind kd = true -> match kd with REDFT00 => 1 < n | _ => 0 < n end ->
    (needs_real_times kd = true -> threemult M = false) ->
    gen_r2r pheq M kd false 1 n inp oloc = Some v -> compiled v t ->
    (forall i, 0 <= i < vl -> rio_layout n inp oloc (addr i) (sh I (i * ivs)) (sh O (i * ovs)) is os) ->
    Wf nx ip I O (xr2r kd n is os) [mkdim vl ivs ovs] -> (ip = true -> is = os /\ (vl = 1 \/ ivs = ovs)) ->
    loop_gives T_dec addr t vl tab m (kr2r kd n is os vl ivs ovs nx I O m).
  Proof.
    intros Hp HM Hkd Hn HT E Cm LO WF Ip. assert (Hn0 : 0 < n) by (destruct kd; lia). unfold kr2r, vloop. apply loop_zfor. intros i m' l Hi.
    assert (W1 : Wf nx ip (sh I (i * ivs)) (sh O (i * ovs)) (xr2r kd n is os) []).
    { eapply loop_body_wf; eauto. intros K. destruct (Ip K) as [<- Dv]. split; [|exact Dv]. intros o. rewrite il_nil, ol_nil. unfold xr2r. cbn [xi xo]. rewrite map_map. reflexivity. }
    destruct (LO i Hi) as [IN OUT OTH LOC DIFF SAME].
    set (ins := map (fun j => (fst (inp j), j * is)) (zr n)).
    set (outs := map (fun k => (fst (oloc k), (k * os, fun x : Z -> R => Rsum n (fun j => x (j * is)%Z * rk kd n j k)%R))) (zr n)).
    assert (FI : map fst ins = rvars n inp) by (unfold ins, rvars; rewrite map_map; reflexivity).
    assert (FO : map fst outs = rvars n oloc) by (unfold outs, rvars; rewrite map_map; reflexivity).
    assert (II : forall w z, In (w, z) ins -> exists j, 0 <= j < n /\ w = fst (inp j) /\ z = j * is).
    { intros w z Hw. apply in_map_iff in Hw. destruct Hw as (j & Ej & Hj). injection Ej as <- <-. apply in_zr in Hj. eauto. }
    assert (OO : forall p o F, In (p, (o, F)) outs -> exists k, 0 <= k < n /\ p = fst (oloc k) /\ o = k * os /\ F = (fun x : Z -> R => Rsum n (fun j => x (j * is)%Z * rk kd n j k)%R)).
    { intros p o F Hw. apply in_map_iff in Hw. destruct Hw as (k & Ek & Hk). injection Ek as <- <- <-. apply in_zr in Hk. eauto. }
    assert (NDo := wf_o _ _ _ _ _ _ W1). assert (NDi := wf_i _ _ _ _ _ _ W1).
    rewrite ol_nil in NDo. rewrite il_nil in NDi. unfold xr2r in NDo, NDi. cbn [xi xo] in NDo, NDi. rewrite map_map in NDo. cbn [fst] in NDo.
    assert (Dup : forall s j k, NoDup (map (fun j => j * s) (zr n)) -> 0 <= j < n -> 0 <= k < n -> j * s = k * s -> j = k).
    { intros s j k N Hj Hk Ejk. destruct (Z.eq_dec j k) as [|Njk]; auto. exfalso. destruct (Z.eq_dec s 0) as [->|Ns]; [|apply Njk; now apply (Z.mul_reg_r j k s)].
      clear - N Hj Hk Njk. rewrite (map_ext _ (fun _ => 0)) in N by (intros; ring). replace n with (1 + (1 + (n - 2))) in N by ring.
      rewrite !zr_add, !zr_1 in N by lia. cbn [map app] in N. inversion N as [|? ? A _]. apply A. now left. }
    apply (real_codelet T_dec v t ins outs (addr i) tab m' (xr2r kd n is os) nx ip); auto.
    - intros x y _ Hx. rewrite <- E. assert (Q := C46_r2r pheq M x kd 1 n inp oloc Hp HM Hkd Hn ltac:(lia)).
      replace (map (fun o => (fst o, snd (snd o) y)) outs) with (map (fun k => (fst (oloc k), (1 / sqrt (IZR 1) * Rsum n (fun j => x (fst (inp j)) * rk kd n j k))%R)) (zr n)); [exact Q|].
      unfold outs. rewrite map_map. apply map_ext. intros k. cbn [fst snd]. f_equal. rewrite sqrt_1. replace (1 / 1)%R with 1%R by field. rewrite Rmult_1_l.
      apply Rsum_ext. intros j Hj. f_equal. apply Hx. unfold ins. apply in_map_iff. exists j. split; [reflexivity|now apply in_zr].
    - intros w Hw. rewrite FI. eapply gen_r2r_loads; eauto.
    - constructor.
      + intros w z Hw. destruct (II w z Hw) as (j & Hj & -> & ->). split; [auto|]. apply LOC, in_or_app. left. apply in_map_iff. exists j. split; [reflexivity|now apply in_zr].
      + intros p o F Hw. destruct (OO p o F Hw) as (k & Hk & -> & -> & _). split; [auto|]. apply LOC, in_or_app. right. apply in_map_iff. exists k. split; [reflexivity|now apply in_zr].
      + exact OTH.
      + rewrite FO. apply NoDup_app_inv in DIFF. tauto.
      + rewrite FI, FO. apply NoDup_app_inv in DIFF. destruct DIFF as (_ & _ & D). exact D.
    - intros p o F Hw. destruct (OO p o F Hw) as (k & Hk & -> & -> & ->). exists (fun z => if z =? 0 then 1%R else 0%R).
      rewrite (Rsum_delta n 0) by (lia || (intros j Hj Nj; destruct (Z.eqb_spec (j * is) 0) as [E0|]; [exfalso; apply Nj; apply (Dup is); auto; lia|ring])).
      rewrite Z.mul_0_l. cbn [Z.eqb]. rewrite Rmult_1_l. now apply rk0_pos.
    - intros o F. unfold xr2r. cbn [xo]. rewrite in_map_iff. split.
      + intros (k & Ek & Hk). exists (fst (oloc k)). apply in_map_iff. exists k. rewrite <- Ek. auto.
      + intros (p & Hw). apply in_map_iff in Hw. destruct Hw as (k & Ek & Hk). exists k. split; [congruence|exact Hk].
    - intros p q o F F' Hw Hw'. destruct (OO p o F Hw) as (k & Hk & -> & -> & _), (OO q _ F' Hw') as (k' & Hk' & -> & Eo & _).
      rewrite (Dup os k k'); auto.
    - intros w z Hw. destruct (II w z Hw) as (j & Hj & -> & ->). unfold xr2r. cbn [xi]. apply in_map_iff. exists j. split; [reflexivity|now apply in_zr].
    - intros K w p z F Hw Hw'. destruct (Ip K) as [<- _]. destruct (II w z Hw) as (j & Hj & -> & ->), (OO p _ F Hw') as (k & Hk & -> & Eo & _).
      rewrite (Dup is j k); auto.
  Qed.
End Loop.

(** ** Loads of gen_twidsq and gen_hc2hc *)
Definition sqr (n : Z) : list (Z * Z) := flat_map (fun k => map (fun v => (k, v)) (zr n)) (zr n).
Lemma in_sqr n a : In a (sqr n) <-> 0 <= fst a < n /\ 0 <= snd a < n.
Proof.
  unfold sqr. rewrite in_flat_map. split.
  - intros (k & Hk & Ha). apply in_map_iff in Ha. destruct Ha as (v & <- & Hv). apply in_zr in Hk, Hv. auto.
  - intros [H1 H2]. destruct a as [k v]. exists k. split; [now apply in_zr|]. apply in_map_iff. exists v. split; [reflexivity|now apply in_zr].
Qed.
Lemma flat_map_in_ext {A B} (f g : A -> list B) l : (forall a, In a l -> f a = g a) -> flat_map f l = flat_map g l.
Proof. intros H. induction l as [|a l IH]; [reflexivity|]. cbn [flat_map]. rewrite H by now left. f_equal. apply IH. intros b Hb. apply H. now right. Qed.
Lemma flat_sqr {B} (f : Z * Z -> list B) n : flat_map f (sqr n) = flat_map (fun k => flat_map (fun v => f (k, v)) (zr n)) (zr n).
Proof.
  unfold sqr. assert (FA : forall l l2, flat_map f (flat_map (fun k => map (fun v => (k, v)) l) l2) = flat_map (fun k => flat_map (fun v => f (k, v)) l) l2).
  { intros l. induction l2 as [|k l2 IH]; [reflexivity|]. cbn [flat_map]. rewrite flat_map_app, IH. f_equal. clear. induction l as [|v l IH']; [reflexivity|]. cbn [map flat_map]. now rewrite IH'. }
  apply FA.
Qed.
Definition at2 (f : Z -> Z -> variable * variable) (a : Z * Z) : variable * variable := f (fst a) (snd a).
Lemma gen_twidsq_loads pheq M p cls dit sign n ioi ioo v w : gen_twidsq pheq M p cls dit sign n ioi ioo = Some v -> loads_of v w ->
  In w (avars (sqr n) (at2 ioi)) \/ var_is_constant w = true.
Proof.
  intros E. set (W := fun w => In w (avars (sqr n) (at2 ioi)) \/ var_is_constant w = true). change (loads_of v w -> W w).
  unfold gen_twidsq, store_v_array_c in E. destruct (omapM _ _) as [bs|] eqn:Eb; [|discriminate]. injection E as <-.
  intros (q & e & He & Ow). apply in_concat in He. destruct He as (b & Hb & He). destruct (omapM_in _ _ _ Eb b Hb) as (k & _ & Ek).
  apply (store_c_loads W _ _ _ _ _ Ek); [|exists q, e; auto].
  assert (K : forall c i, W (Constant c i)) by (intros; now right).
  assert (L : forall u, ins W (load_v_array_c n n ioi u)).
  { intros u. unfold load_v_array_c. destruct ((0 <=? u) && (u <? n)) eqn:Eu; [|intros i; apply ino_none]. unfold load_array_c. apply s_array. intros i Hi.
    apply ino_some. split; intros x Ox; cbn in Ox; subst x; left; apply in_avars; exists (u, i); (split; [apply in_sqr; cbn; lia|]); auto. }
  intros u. destruct ((0 <=? u) && (u <? n)); [|apply ino_none]. destruct dit.
  - refine (s_fft _ pheq M sign n _ _ k). refine (s_byw _ pheq M p false (cls u) sign n _ K _). apply L.
  - refine (s_byw _ pheq M p false (cls u) sign n _ K _ k). refine (s_fft _ pheq M sign n _ _). apply L.
Qed.
Lemma avars_vars n f : avars (zr n) f = vars n f. Proof. reflexivity. Qed.
Lemma s_byi W pheq M c : ino W c -> ino W (byi pheq M c).
Proof. intros H. unfold byi. apply n_o1; [|exact H]. intros. apply z_times; [apply inz_num|assumption]. Qed.
Lemma s_byui W pheq M c : ino W c -> ino W (byui pheq M c).
Proof. intros H. unfold byui. apply n_o1; [|exact H]. intros. apply z_times; [apply z_uminus; apply inz_num|assumption]. Qed.
Lemma s_sym1 W pheq M n f : ins W f -> ins W (hsym1 pheq M n f).
Proof.
  intros F k. unfold hsym1. apply n_plus; [apply n_o1; [intros; now apply z_real|apply F]|]. apply s_byi. apply n_o1; [intros; now apply z_imag|apply F].
Qed.
Lemma s_sym2 W pheq M n f : ins W f -> ins W (hsym2 pheq M n f).
Proof. intros F k. unfold hsym2. destruct (_ <? _); [apply F|apply s_byi, F]. Qed.
Lemma s_sym2i W pheq M n f : ins W f -> ins W (hsym2i pheq M n f).
Proof. intros F k. unfold hsym2i. destruct (_ <? _); [apply F|apply s_byui, F]. Qed.
Lemma gen_hc2hc_loads pheq M p cls dit sign n inp ioloc v w : gen_hc2hc pheq M p cls dit sign n inp ioloc = Some v -> loads_of v w ->
  In w (avars (zr n) inp) \/ var_is_constant w = true.
Proof.
  intros E. unfold gen_hc2hc in E. apply (store_c_loads (io_vars n inp) _ _ _ _ _ E). clear E.
  assert (K : forall c i, io_vars n inp (Constant c i)) by (intros; now right). assert (L := load_c_ins n inp).
  destruct dit.
  - apply s_sym1, s_sym2. refine (s_fft _ pheq M sign n _ _). now refine (s_byw _ pheq M p false cls sign n _ K _).
  - refine (s_byw _ pheq M p false cls sign n _ K _). refine (s_fft _ pheq M sign n _ _). now apply s_sym2i, s_sym1.
Qed.

(** ** Offsets *)
Lemma in_locs_nil z : In z (locs []) <-> z = 0.
Proof. cbn. intuition. Qed.
Lemma in_locs_cons d l z : In z (locs (d :: l)) <-> exists i o, 0 <= i < fst d /\ In o (locs l) /\ z = i * snd d + o.
Proof. destruct d as [n s]. cbn [locs]. apply in_lplus_dim. Qed.
Lemma NoDup_locs_tail n s l : 0 < n -> NoDup (locs ((n, s) :: l)) -> NoDup (locs l).
Proof.
  intros Hn H. cbn [locs] in H. apply (NoDup_lplus_range n s _ 0 1) in H; try lia. change (dimlocs (1, s)) with [0 * s] in H. rewrite Z.mul_0_l in H. now rewrite lplus_0_l in H.
Qed.
Lemma locs_inj2 n s l i i' o o' : NoDup (locs ((n, s) :: l)) -> 0 <= i < n -> 0 <= i' < n -> In o (locs l) -> In o' (locs l) -> i * s + o = i' * s + o' -> i = i' /\ o = o'.
Proof. intros H. cbn [locs] in H. now apply lplus_dim_inj. Qed.
Lemma locs1 n s k : 0 <= k < n -> In (k * s) (locs [(n, s)]).
Proof. intros Hk. apply in_locs_cons. exists k, 0. cbn [fst snd]. split; [lia|]. split; [now left|ring]. Qed.
Lemma locs2 n s n' s' k v : 0 <= k < n -> 0 <= v < n' -> In (k * s + v * s') (locs [(n, s); (n', s')]).
Proof. intros Hk Hv. apply in_locs_cons. exists k, (v * s'). cbn [fst snd]. split; [lia|]. split; [now apply locs1|ring]. Qed.

Lemma xw1_cdft1' dit di r rs os m j : xw1 dit di r rs os m j = cdft1 di di r rs os (butterfly dit (-1) r m j).
Proof. unfold xw1, cdft1. apply cxf_ext. intros ks x Hk. symmetry. apply C47_is_kernel. Qed.

Lemma in_offs1 n s u a b : In (a, b) (offs [mkdim n s u]) <-> exists k, 0 <= k < n /\ a = k * s /\ b = k * u.
Proof.
  cbn [offs]. unfold oplus. rewrite in_flat_map. split.
  - intros ([x y] & H1 & H2). unfold dimoffs in H1. apply in_map_iff in H1. destruct H1 as (k & Ek & Hk). apply in_zr in Hk. cbn [dn dis dos] in *. injection Ek as <- <-.
    exists k. split; [exact Hk|]. cbn in H2. destruct H2 as [H2|[]]. injection H2 as <- <-. split; ring.
  - intros (k & Hk & -> & ->). exists (k * s, k * u). split; [unfold dimoffs; apply in_map_iff; exists k; split; [reflexivity|now apply in_zr]|]. cbn. left. unfold padd. cbn [fst snd]. apply f_equal2; ring.
Qed.
(** a number of modulus 1 turned to have its real, or its imaginary part, 1 *)
Definition turn (c : Z) (w : C) : C := if c =? 0 then Cplx.conj w else (Cplx.conj w * Ci)%C.
Lemma turn_ok c w : (w * Cplx.conj w)%C = C1 -> c = 0 \/ c = 1 -> sel c (turn c w * w)%C = 1%R.
Proof.
  intros W1 [-> | ->]; unfold turn, sel; cbn [Z.eqb].
  - replace (Cplx.conj w * w)%C with (w * Cplx.conj w)%C by ring. now rewrite W1.
  - replace (Cplx.conj w * Ci * w)%C with (Ci * (w * Cplx.conj w))%C by ring. rewrite W1. cbn. ring.
Qed.

Section Loop2.
  Context {T : Type}.
  Variable T_dec : forall p q : T, {p = q} + {p <> q}.
  (** gen_twidsq.ml:104-127: for (m = mb, W += mb*nt; m < me; ++m, rio += ms, iio += ms, W += nt); element
      i of input v, and element v of output i, are at v*vs + i*rs *)
  Theorem C55_twidsq pheq M p cls dit r v t ioi ioo addr tab tw di rs vs m mb me ms desc nt G (P : loc) mm :
    sound_eq pheq -> magic_ok M -> pol_size p r -> twdesc p 0 r = Some desc -> twidlen p r = Some nt ->
    gen_twidsq pheq M p cls dit (-1) r ioi ioo = Some v -> compiled v t -> 0 <= mb -> me <= m ->
    (forall i, 0 <= i < me - mb -> ip_layout (sqr r) (at2 ioi) (at2 ioo) (fun a => fst a * vs + snd a * rs) (addr i) (sh P (i * ms)) di) ->
    (forall i c o, 0 <= i < me - mb -> addr i (Constant c o) = inr (tw ((mb + i) * nt + o))) ->
    (forall o, tab (tw o) = nth (Z.to_nat o) (tw_table (root (r * m)) r m 1 desc ++ G) 0%R) ->
    NoDup (locs [(2, di); (r, vs); (r, rs)]) ->
    loop_gives T_dec addr t (me - mb) tab mm (kdftwsq dit di r rs vs m mb me ms P mm).
  Proof.
    intros Hp HM Hr Hd Ht E Cm Hmb Hme LO TW TAB ND. unfold kdftwsq. apply loop_zfor. intros i m' l Hi.
    assert (Hr1 : 1 <= r) by (destruct p; cbn in Hr; lia).
    set (Y := fun (a : Z * Z) (y : Z -> R) => butterfly dit (-1) r m (mb + i) (fun j => cview di y (snd a * vs + j * rs)) (fst a)).
    set (X := xvec (xw1 dit di r rs vs m (mb + i)) [mkdim r vs rs]).
    assert (ND2 : NoDup (locs [(r, vs); (r, rs)])) by (eapply NoDup_locs_tail; [|exact ND]; lia).
    assert (INJ : forall a b c d, In a (sqr r) -> In b (sqr r) -> c = 0 \/ c = 1 -> d = 0 \/ d = 1 ->
       c * di + (fst a * vs + snd a * rs) = d * di + (fst b * vs + snd b * rs) -> c = d /\ a = b).
    { intros a b c d Ha Hb Hc Hdd Eq. apply in_sqr in Ha, Hb. destruct a as [k u], b as [k' u']. cbn [fst snd] in *.
      destruct (locs_inj2 2 di [(r, vs); (r, rs)] c d (k * vs + u * rs) (k' * vs + u' * rs) ND) as [-> Eq2]; try lia; try (apply locs2; lia). split; [reflexivity|].
      destruct (locs_inj2 r vs [(r, rs)] k k' (u * rs) (u' * rs) ND2) as [-> Eq3]; try lia; try (apply locs1; lia).
      assert (ND3 : NoDup (locs [(r, rs)])) by (eapply NoDup_locs_tail; [|exact ND2]; lia).
      destruct (locs_inj2 r rs [] u u' 0 0 ND3) as [-> _]; try lia; try (now left); reflexivity. }
    assert (XO : forall o F, In (o, F) (xo X) <-> exists a c, In a (sqr r) /\ (c = 0 \/ c = 1) /\ o = c * di + (fst a * vs + snd a * rs) /\ F = (fun y => sel c (Y a y))).
    { assert (Q : forall k u c, 0 <= k < r -> (fun y : Z -> R => sel c (Y (k, u) y)) =
         (fun x : Z -> R => (fun x0 => part c (butterfly dit (-1) r m (mb + i) (fun j => cview di x0 (j * rs)) k)) (fun z => x (u * vs + z)))).
      { intros k u c Hk. apply functional_extensionality. intros y. unfold Y. cbn [fst snd]. unfold sel, part.
        rewrite (butterfly_ext dit (-1) r m (mb + i) (fun j => cview di y (u * vs + j * rs)) (fun j => cview di (fun z => y (u * vs + z)) (j * rs)) k); [reflexivity|].
        intros j Hj. unfold cview. do 2 f_equal. ring. }
      intros o F. unfold X. rewrite xvec_xo. split.
      - intros (a & b & o' & F' & Hab & Ho & -> & ->). rewrite xw1_cdft1' in Ho. apply cdft1_xo in Ho. destruct Ho as (c & k & Hc & Hk & -> & ->).
        apply in_offs1 in Hab. destruct Hab as (u & Hu & -> & ->).
        exists (k, u), c. split; [apply in_sqr; auto|]. split; [exact Hc|]. cbn [fst snd]. split; [ring|]. now rewrite (Q k u c Hk).
      - intros ([k u] & c & Ha & Hc & -> & ->). apply in_sqr in Ha. cbn [fst snd] in *. destruct Ha as [Hk Hu].
        exists (u * vs), (u * rs), (c * di + k * vs), (fun x0 => part c (butterfly dit (-1) r m (mb + i) (fun j => cview di x0 (j * rs)) k)).
        split; [|split; [|split]].
        + apply in_offs1. exists u. auto.
        + rewrite xw1_cdft1'. apply cdft1_xo. exists c, k. auto.
        + ring.
        + now rewrite (Q k u c Hk). }
    assert (XI : forall z, In z (xi X) <-> exists a c, In a (sqr r) /\ (c = 0 \/ c = 1) /\ z = c * di + (fst a * vs + snd a * rs)).
    { intros z. unfold X, xvec. cbn [xi]. rewrite il_xw1. cbn [ti map dn dis]. rewrite !in_locs_cons. cbn [fst snd]. split.
      - intros (c & o & Hc & Ho & ->). apply in_locs_cons in Ho. destruct Ho as (k & o' & Hk & Ho & ->). apply in_locs_cons in Ho. destruct Ho as (u & o2 & Hu & Ho & ->). destruct Ho as [<-|[]].
        cbn [fst snd] in *. exists (u, k), c. split; [apply in_sqr; auto|]. split; [lia|]. cbn [fst snd]. ring.
      - intros ([k u] & c & Ha & Hc & ->). apply in_sqr in Ha. cbn [fst snd] in *. exists c, (u * rs + k * vs). split; [lia|]. split; [apply locs2; lia|ring]. }
    change (kern X 0%nat) with (kern X (S (fst (sh P (i * ms))))).
    apply (ip_codelet T_dec v t (sqr r) (at2 ioi) (at2 ioo) (fun a => fst a * vs + snd a * rs) (addr i) tab m' X (S (fst (sh P (i * ms)))) (sh P (i * ms)) di Y); auto.
    - intros x y Hx Hy. rewrite <- E.
      assert (Q : computes (gen_twidsq pheq M p cls dit (-1) r ioi ioo) x
         (flat_map (fun k => at_places r (ioo k) (fun v => butterfly dit (-1) r m (mb + i) (in_places x (ioi v)) k)) (zr r))).
      { apply C47_twidsq with (desc := desc); auto.
        apply (C47_table_rows p 0 r (r * m) m G desc nt (mb + i) x); auto; try lia. intros c o Ho. rewrite Hx by reflexivity. rewrite TW by auto. cbn [cells]. now rewrite TAB. }
      replace (flat_map (fun a => [(fst (at2 ioo a), fst (Y a y)); (snd (at2 ioo a), snd (Y a y))]) (sqr r))
        with (flat_map (fun k => at_places r (ioo k) (fun v => butterfly dit (-1) r m (mb + i) (in_places x (ioi v)) k)) (zr r)); [exact Q|].
      rewrite flat_sqr. apply flat_map_in_ext. intros k Hk. apply in_zr in Hk. unfold at_places. apply flat_map_in_ext. intros u Hu. apply in_zr in Hu.
      unfold at2, Y. cbn [fst snd]. rewrite (butterfly_ext dit (-1) r m (mb + i) (in_places x (ioi u)) (fun j => cview di y (u * vs + j * rs)) k); [reflexivity|].
      intros j Hj. destruct (Hy (u, j)) as [H1 H2]; [apply in_sqr; auto|]. unfold at2 in H1, H2. cbn [fst snd] in H1, H2. unfold in_places, cview. now rewrite H1, H2.
    - intros w. eapply gen_twidsq_loads; eauto.
    - intros [k u] c Ha Hc. apply in_sqr in Ha. cbn [fst snd] in Ha. set (w0 := if dit then C1 else E2 (-1 * (k * (mb + i))) (r * m)).
      assert (W1 : (w0 * Cplx.conj w0)%C = C1) by (unfold w0; destruct dit; [apply C_eq; unfold Cplx.conj, cmul, C1; cbn [fst snd]; ring|apply E2_unit]).
      exists (fun z => if z =? u * vs then fst (turn c w0) else if z =? di + u * vs then snd (turn c w0) else 0%R).
      unfold Y. cbn [fst snd].
      rewrite (butterfly_ext dit (-1) r m (mb + i) _ (fun j => if j =? 0 then turn c w0 else C0) k).
      + rewrite butterfly_unit by lia. change (if dit then C1 else E2 (-1 * (k * (mb + i))) (r * m)) with w0. rewrite turn_ok by auto. lra.
      + intros j Hj. unfold cview.
        assert (I0 : forall c' d', c' = 0 \/ c' = 1 -> d' = 0 \/ d' = 1 -> c' * di + (u * vs + j * rs) = d' * di + (u * vs + 0 * rs) -> c' = d' /\ j = 0).
        { intros c' d' Hc' Hd' Eq. destruct (INJ (u, j) (u, 0) c' d') as [-> Q]; auto; try (apply in_sqr; cbn [fst snd]; lia). split; [reflexivity|congruence]. }
        destruct (Z.eqb_spec j 0) as [->|Nj].
        * destruct (Z.eqb_spec (u * vs + 0 * rs) (u * vs)); [|lia]. destruct (Z.eqb_spec (di + (u * vs + 0 * rs)) (u * vs)) as [Q|_].
          { exfalso. destruct (I0 1 0); auto; lia. }
          destruct (Z.eqb_spec (di + (u * vs + 0 * rs)) (di + u * vs)); [|lia]. now destruct (turn c w0).
        * destruct (Z.eqb_spec (u * vs + j * rs) (u * vs)) as [Q|_]; [exfalso; destruct (I0 0 0); auto; lia|].
          destruct (Z.eqb_spec (u * vs + j * rs) (di + u * vs)) as [Q|_]; [exfalso; destruct (I0 0 1); auto; lia|].
          destruct (Z.eqb_spec (di + (u * vs + j * rs)) (u * vs)) as [Q|_]; [exfalso; destruct (I0 1 0); auto; lia|].
          destruct (Z.eqb_spec (di + (u * vs + j * rs)) (di + u * vs)) as [Q|_]; [exfalso; destruct (I0 1 1); auto; lia|]. reflexivity.
    - intros a c Ha Hc. apply XI. eauto.
    - assert (Pm : Permutation.Permutation (locs [(2, di); (r, vs); (r, rs)]) (locs [(2, di); (r, rs); (r, vs)])) by (apply locs_perm, Permutation.perm_skip, Permutation.perm_swap).
      assert (Pi : Permutation.Permutation (il X []) (locs [(2, di); (r, rs); (r, vs)])) by (unfold X; eapply Permutation.Permutation_trans; [apply xvec_il|]; cbn [app]; rewrite il_xw1; cbn; apply Permutation.Permutation_refl).
      assert (Po : Permutation.Permutation (ol X []) (locs [(2, di); (r, vs); (r, rs)])) by (unfold X; eapply Permutation.Permutation_trans; [apply xvec_ol|]; cbn [app]; rewrite ol_xw1; cbn; apply Permutation.Permutation_refl).
      constructor; try (cbn [fst sh]; lia); [constructor| | |split; [reflexivity|]].
      + eapply Permutation.Permutation_NoDup; [apply Permutation.Permutation_sym, Pi|]. eapply Permutation.Permutation_NoDup; [exact Pm|exact ND].
      + eapply Permutation.Permutation_NoDup; [apply Permutation.Permutation_sym, Po|exact ND].
      + intros o. split; intros Ho.
        * eapply Permutation.Permutation_in; [apply Permutation.Permutation_sym, Po|]. eapply Permutation.Permutation_in; [apply Permutation.Permutation_sym, Pm|]. eapply Permutation.Permutation_in; [exact Pi|exact Ho].
        * eapply Permutation.Permutation_in; [apply Permutation.Permutation_sym, Pi|]. eapply Permutation.Permutation_in; [exact Pm|]. eapply Permutation.Permutation_in; [exact Po|exact Ho].
  Qed.
End Loop2.

(** ** Halfcomplex butterflies *)
Definition hcY (kd : rkind) (r m j : Z) (f : Z -> C) (k : Z) : C := (if match kd with R2HC => true | _ => false end then hc_dit else hc_dif) r m j f k.
Lemma hc_ext kd r m j f g k : 0 <= k < r -> (forall l, 0 <= l < r -> f l = g l) -> hcY kd r m j f k = hcY kd r m j g k.
Proof.
  intros Hk H. unfold hcY.
  assert (A : hc_dit r m j f k = hc_dit r m j g k).
  { unfold hc_dit, sym1, sym2. 
    assert (Q : forall q, Csum r (fun i => f i * W (r * m) (j * i) * W r (i * q))%C = Csum r (fun i => g i * W (r * m) (j * i) * W r (i * q))%C) by (intros q; apply Csum_ext; intros l Hl; now rewrite H).
    now rewrite !Q. }
  assert (B : hc_dif r m j f k = hc_dif r m j g k).
  { unfold hc_dif. f_equal. apply Csum_ext. intros l Hl. f_equal. unfold sym2i, sym1. rewrite (H l) by auto. now rewrite (H (r - 1 - l)) by lia. }
  destruct kd; auto.
Qed.
Lemma W_unit n k : (W n k * Cplx.conj (W n k))%C = C1.
Proof.
  unfold W, cis. set (t := (_ / _)%R). assert (S := sin2_cos2 (- t)). unfold Rsqr in S. 
  apply C_eq; unfold Cplx.conj, cmul, C1; cbn [fst snd]; nra.
Qed.
Lemma W_0 n : W n 0 = C1.
Proof. unfold W, cis. replace (- _)%R with 0%R by (unfold Rdiv; ring). now rewrite cos_0, sin_0. Qed.
Lemma hc_dit_unit r m j k c : 0 <= k < r -> c = 0 \/ c = 1 -> sel c (hc_dit r m j (fun i => if i =? 0 then (1, 1)%R else C0) k) <> 0%R.
Proof.
  intros Hk Hc. unfold hc_dit.
  assert (Q : forall q, Csum r (fun i => (if i =? 0 then (1, 1)%R else C0) * W (r * m) (j * i) * W r (i * q))%C = (1, 1)%R).
  { intros q. rewrite (Csum_delta r 0).
    - rewrite Z.eqb_refl, Z.mul_0_r, Z.mul_0_l, !W_0. apply C_eq; unfold cmul, C1; cbn [fst snd]; ring.
    - lia.
    - intros l Hl Nl. destruct (Z.eqb_spec l 0); [contradiction|]. apply C_eq; unfold cmul, C0; cbn [fst snd]; ring. }
  unfold sym1, sym2, sel. rewrite !Q. destruct Hc as [-> | ->]; cbn [Z.eqb fst snd]; destruct (_ <? _); unfold cmul; cbn [fst snd]; lra.
Qed.
Lemma hc_dif_unit r m j k z : 0 <= k < r ->
  hc_dif r m j (fun i => (if i =? 0 then fst z else 0%R, if i =? r - 1 then snd z else 0%R)) k = (z * W (r * m) (- (j * k)))%C.
Proof.
  intros Hk. unfold hc_dif. f_equal. rewrite (Csum_delta r 0).
  - unfold sym2i, sym1. cbn [fst snd]. destruct (Z.ltb_spec 0 (r - 0)); [|lia]. rewrite Z.eqb_refl. replace (r - 1 - 0) with (r - 1) by ring. rewrite Z.eqb_refl.
    rewrite Z.mul_0_l. change (- 0) with 0. rewrite W_0. destruct z. apply C_eq; unfold cmul, C1; cbn [fst snd]; ring.
  - lia.
  - intros l Hl Nl. unfold sym2i, sym1. cbn [fst snd]. destruct (Z.eqb_spec l 0); [contradiction|]. destruct (Z.eqb_spec (r - 1 - l) (r - 1)); [lia|].
    destruct (_ <? _); apply C_eq; unfold cmul, C0; cbn [fst snd]; ring.
Qed.
Section Loop3.
  Context {T : Type}.
  Variable T_dec : forall p q : T, {p = q} + {p <> q}.
  (** gen_hc2hc.ml:108-128: for (m = mb, W += (mb - 1)*nt; m < me; ++m, cr += ms, ci -= ms, W += nt) *)
  Theorem C55_hc2hc pheq M p cls kd r v t inp ioloc addr tab tw rs m mrows mb me ms D desc nt G nx (P : loc) mm :
    sound_eq pheq -> magic_ok M -> pol_size p r -> kd = R2HC \/ kd = HC2R -> twdesc p 1 r = Some desc -> twidlen p r = Some nt ->
    gen_hc2hc pheq M p cls (rkind_eqb kd R2HC) (if rkind_eqb kd R2HC then -1 else 1) r inp ioloc = Some v -> compiled v t ->
    1 <= mb -> me - 1 <= mrows -> (fst P < nx)%nat ->
    (forall i, 0 <= i < me - mb -> ip_layout (zr r) inp ioloc (fun k => k * rs) (addr i) (sh P (i * ms)) (D - 2 * i * ms)) ->
    (forall i c o, 0 <= i < me - mb -> addr i (Constant c o) = inr (tw ((mb - 1 + i) * nt + o))) ->
    (forall o, tab (tw o) = nth (Z.to_nat o) (tw_table (root (r * m)) r mrows 1 desc ++ G) 0%R) ->
    (forall i, 0 <= i < me - mb -> NoDup (locs [(2, D - 2 * i * ms); (r, rs)])) ->
    loop_gives T_dec addr t (me - mb) tab mm (khc2hc kd r m rs mb me ms nx P D mm).
  Proof.
    intros Hp HM Hr Hkd Hd Ht E Cm Hmb Hme Hnx LO TW TAB NDi. unfold khc2hc. apply loop_zfor. intros i m' l Hi.
    assert (Hr1 : 1 <= r) by (destruct p; cbn in Hr; lia).
    set (D' := D - 2 * i * ms) in *. assert (ND := NDi i Hi). fold D' in ND.
    set (Y := fun (k : Z) (y : Z -> R) => hcY kd r m (mb + i) (fun l => (y (l * rs), y (D' + l * rs))) k).
    set (X := xhc2hc kd r m rs D' (mb + i)).
    assert (INJ : forall a b c d, In a (zr r) -> In b (zr r) -> c = 0 \/ c = 1 -> d = 0 \/ d = 1 -> c * D' + a * rs = d * D' + b * rs -> c = d /\ a = b).
    { intros a b c d Ha Hb Hc Hdd Eq. apply in_zr in Ha, Hb.
      destruct (locs_inj2 2 D' [(r, rs)] c d (a * rs) (b * rs) ND) as [-> Eq2]; try lia; try (apply locs1; lia). split; [reflexivity|].
      assert (ND3 : NoDup (locs [(r, rs)])) by (eapply NoDup_locs_tail; [|exact ND]; lia).
      destruct (locs_inj2 r rs [] a b 0 0 ND3) as [-> _]; try lia; try (now left); reflexivity. }
    assert (XO : forall o F, In (o, F) (xo X) <-> exists a c, In a (zr r) /\ (c = 0 \/ c = 1) /\ o = c * D' + a * rs /\ F = (fun y => sel c (Y a y))).
    { intros o F. unfold X, xhc2hc. cbn [xo]. rewrite in_app_iff, !in_map_iff. split.
      - intros [(k & Ek & Hk)|(k & Ek & Hk)]; injection Ek as <- <-; [exists k, 0|exists k, 1]; (split; [exact Hk|]); (split; [auto|]); (split; [ring|]); reflexivity.
      - intros (k & c & Hk & [-> | ->] & -> & ->); [left|right]; exists k; (split; [|exact Hk]); apply f_equal2; [ring|reflexivity|ring|reflexivity]. }
    assert (XI : forall z, In z (xi X) <-> exists a c, In a (zr r) /\ (c = 0 \/ c = 1) /\ z = c * D' + a * rs).
    { intros z. unfold X, xhc2hc. cbn [xi]. rewrite in_app_iff, !in_map_iff. split.
      - intros [(k & <- & Hk)|(k & <- & Hk)]; [exists k, 0|exists k, 1]; (split; [exact Hk|]); (split; [auto|ring]).
      - intros (k & c & Hk & [-> | ->] & ->); [left|right]; exists k; (split; [ring|exact Hk]). }
    apply (ip_codelet T_dec v t (zr r) inp ioloc (fun k => k * rs) (addr i) tab m' X nx (sh P (i * ms)) D' Y); auto.
    - intros x y Hx Hy. rewrite <- E.
      assert (RW : table_row x (r * m) r (mb + i - 1) desc).
      { apply (C47_table_rows p 1 r (r * m) mrows G desc nt (mb + i - 1) x); auto; try lia. intros c o Ho. rewrite Hx by reflexivity. rewrite TW by auto. cbn [cells]. rewrite TAB. do 2 f_equal. ring. }
      assert (Q : computes (gen_hc2hc pheq M p cls (rkind_eqb kd R2HC) (if rkind_eqb kd R2HC then -1 else 1) r inp ioloc) x (at_places r ioloc (hcY kd r m (mb + i) (in_places x inp)))).
      { destruct Hkd as [-> | ->]; cbn [rkind_eqb]; [apply C47_hc2hc_dit with (desc := desc)|apply C47_hc2hc_dif with (desc := desc)]; auto. }
      replace (flat_map (fun a => [(fst (ioloc a), fst (Y a y)); (snd (ioloc a), snd (Y a y))]) (zr r))
        with (at_places r ioloc (hcY kd r m (mb + i) (in_places x inp))); [exact Q|].
      unfold at_places. apply flat_map_in_ext. intros k Hk. unfold Y.
      rewrite (hc_ext kd r m (mb + i) (in_places x inp) (fun l => (y (l * rs), y (D' + l * rs))) k); [reflexivity|now apply in_zr|].
      intros j Hj. destruct (Hy j) as [H1 H2]; [now apply in_zr|]. unfold in_places. now rewrite H1, H2.
    - intros w. apply (gen_hc2hc_loads _ _ _ _ _ _ _ _ _ _ _ E).
    - exact (LO i Hi).
    - intros k c Hk Hc. assert (Hk' := proj1 (in_zr _ _) Hk).
      assert (I0 : forall k k' c d, 0 <= k < r -> 0 <= k' < r -> c = 0 \/ c = 1 -> d = 0 \/ d = 1 -> c * D' + k * rs = d * D' + k' * rs -> c = d /\ k = k') by (intros; apply INJ; auto; now apply in_zr).
      destruct Hkd as [-> | ->].
      + exists (fun z => if (z =? 0) || (z =? D') then 1%R else 0%R). unfold Y.
        rewrite (hc_ext R2HC r m (mb + i) _ (fun j => if j =? 0 then (1, 1)%R else C0) k Hk').
        * now apply hc_dit_unit.
        * intros j Hj. destruct (Z.eqb_spec j 0) as [->|Nj].
          { rewrite Z.mul_0_l, Z.add_0_r, !Z.eqb_refl, orb_true_r. reflexivity. }
          destruct (Z.eqb_spec (j * rs) 0) as [Q|_]; [exfalso; destruct (I0 j 0 0 0); auto; lia|].
          destruct (Z.eqb_spec (j * rs) D') as [Q|_]; [exfalso; destruct (I0 j 0 0 1); auto; lia|].
          destruct (Z.eqb_spec (D' + j * rs) 0) as [Q|_]; [exfalso; destruct (I0 j 0 1 0); auto; lia|].
          destruct (Z.eqb_spec (D' + j * rs) D') as [Q|_]; [exfalso; destruct (I0 j 0 1 1); auto; lia|]. reflexivity.
      + set (w0 := W (r * m) (- ((mb + i) * k))). assert (W1 : (w0 * Cplx.conj w0)%C = C1) by apply W_unit.
        exists (fun z => if z =? 0 then fst (turn c w0) else if z =? D' + (r - 1) * rs then snd (turn c w0) else 0%R). unfold Y.
        rewrite (hc_ext HC2R r m (mb + i) _ (fun j => (if j =? 0 then fst (turn c w0) else 0%R, if j =? r - 1 then snd (turn c w0) else 0%R)) k Hk').
        * unfold hcY. rewrite hc_dif_unit by auto. fold w0. rewrite turn_ok by auto. lra.
        * intros j Hj. f_equal.
          { destruct (Z.eqb_spec j 0) as [->|Nj]; [rewrite Z.mul_0_l, Z.eqb_refl; reflexivity|].
            destruct (Z.eqb_spec (j * rs) 0) as [Q|_]; [exfalso; destruct (I0 j 0 0 0); auto; lia|].
            destruct (Z.eqb_spec (j * rs) (D' + (r - 1) * rs)) as [Q|_]; [exfalso; destruct (I0 j (r - 1) 0 1); auto; lia|]. reflexivity. }
          { destruct (Z.eqb_spec (D' + j * rs) 0) as [Q|_]; [exfalso; destruct (I0 j 0 1 0); auto; lia|].
            destruct (Z.eqb_spec j (r - 1)) as [->|Nj]; [now rewrite Z.eqb_refl|].
            destruct (Z.eqb_spec (D' + j * rs) (D' + (r - 1) * rs)) as [Q|_]; [exfalso; destruct (I0 j (r - 1) 1 1); auto; lia|]. reflexivity. }
    - intros a c Ha Hc. apply XI. eauto.
    - assert (FX : map fst (xo X) = xi X) by (unfold X, xhc2hc; cbn [xo xi]; rewrite map_app, !map_map; reflexivity).
      assert (NX : NoDup (xi X)).
      { unfold X, xhc2hc. cbn [xi]. apply NoDup_app_intro.
        - apply NoDup_map_inj; [|apply NoDup_zr]. intros a b Ha Hb Eq. destruct (INJ a b 0 0); auto; lia.
        - apply NoDup_map_inj; [|apply NoDup_zr]. intros a b Ha Hb Eq. destruct (INJ a b 0 0); auto; lia.
        - intros z Ha Hb. apply in_map_iff in Ha, Hb. destruct Ha as (a & <- & Ha), Hb as (b & Eq & Hb). destruct (INJ a b 0 1); auto; lia. }
      constructor; try exact Hnx; [constructor| | |split; [reflexivity|]].
      + now rewrite il_nil.
      + rewrite ol_nil, FX. exact NX.
      + intros o. now rewrite il_nil, ol_nil, FX.
  Qed.
End Loop3.

(** ** The hypotheses are met *)
Example ex_rio_layout n I O di do_ is os W : 0 <= n -> rio_layout n ex_in ex_out (ex_addr I O di do_ is os W) I O is os.
Proof.
  intros Hn. constructor.
  - reflexivity.
  - reflexivity.
  - intros w Lw; destruct w; try discriminate; cbn; eauto.
  - intros w Hw. apply in_app_or in Hw. destruct Hw as [Hw|Hw]; apply in_map_iff in Hw; destruct Hw as (k & <- & _); reflexivity.
  - apply NoDup_app_intro.
    + apply NoDup_map_inj; [|apply NoDup_zr]. intros x y _ _ E. unfold ex_in in E. cbn in E. injection E as E. lia.
    + apply NoDup_map_inj; [|apply NoDup_zr]. intros x y _ _ E. unfold ex_out in E. cbn in E. injection E as E. lia.
    + intros w A B. apply in_map_iff in A, B. destruct A as (a & <- & _), B as (b & B & _). discriminate.
  - intros j Hj. unfold ex_in, ex_out, same_location. cbn. now rewrite !Z.eqb_refl.
Qed.
Example ex_ip_layout n P di rs W : 0 <= n -> ip_layout (zr n) ex_in ex_out (fun k => k * rs) (ex_addr P P di di rs rs W) P di.
Proof.
  intros Hn. destruct (ex_layout n P P di di rs rs W Hn) as [A1 A2 A3 A4 A5 A6]. constructor; auto.
  all: intros a Ha; apply in_zr in Ha; auto.
Qed.
(** the discrete Hartley transform of size 1 through all the passes: it copies a real number *)
Definition v2 : list expr := [EStore (Locative 0 2 0) (ELoad (Locative 0 0 0))].
Local Ltac ev := cbv -[IZR is_zero is_one is_mone Rmult Rplus Ropp Rdiv sqrt].
Local Ltac rw := rewrite ?z0, ?z1, ?o1', ?Rmult_0_l, ?Rmult_0_r, ?Rmult_1_l, ?Rmult_1_r, ?Ropp_0, ?Rplus_0_l, ?Rplus_0_r, ?z0, ?z1.
Example C55_dht1_dag : gen_r2r pheq0 magic_default DHT false 1 1 ex_in ex_out = Some v2.
Proof.
  assert (E : inverse_int_sqrt 1 = CE (Num 1) (Num 0)) by (unfold inverse_int_sqrt; rewrite sqrt_1; do 2 f_equal; field).
  unfold gen_r2r. rewrite E. ev. repeat (progress rw; ev). reflexivity.
Qed.
Example C55_twidsq1_dag : gen_twidsq pheq0 magic_default LOAD_ALL (fun _ _ => 0) true (-1) 1 (fun _ => ex_in) (fun _ => ex_out) = Some v1.
Proof. cbv -[IZR is_zero]. now rewrite ?z0. Qed.
Example C55_hc2hc1_dag : gen_hc2hc pheq0 magic_default LOAD_ALL (fun _ => 0) true (-1) 1 ex_in ex_out = Some v1.
Proof. ev. repeat (progress rw; ev). reflexivity. Qed.
Definition h2 : heap := fun i => nth i [NLoad (Locative 0 0 0); NStore (Locative 0 2 0) 0%nat] NNaN.
Definition t2 : ctext := CBlock [T 1] (CSeq (CBlock [] (CAssign (T 1) [TVar (Locative 0 0 0)])) (CBlock [] (CAssign (Locative 0 2 0) [TVar (T 1)]))).
Example C55_size1_compiled : compiled v2 t2.
Proof.
  destruct (algsimp ex_or ex_set 6 v2) as [[r s]|] eqn:E; [|exfalso; revert E; cbv -[IZR is_zero negative_num is_one is_mone Rplus Rmult Ropp Rminus Rdiv Req_EM_T]; discriminate].
  assert (B : match algsimp ex_or ex_set 6 v2 with Some (r, s) => (r, bad s) | None => ([], true) end = (v2, false))
    by (cbv -[IZR is_zero negative_num is_one is_mone Rplus Rmult Ropp Rminus Rdiv Req_EM_T]; reflexivity).
  rewrite E in B. injection B as -> B.
  eapply (compiled_intro v2 t2 v2 h2 [1]%nat magic0 (sm 0) plain no_sort 4 _ 20 _ 40 _ 20).
  - apply opt_plain. exists ex_or, ex_set, 6%nat, s. split; [exact ex_or_sound|auto].
  - intros k c Hc. unfold h2 in Hc. do 2 (destruct k as [|k]; [cbn in Hc; intuition lia|]). rewrite nth_overflow in Hc by (cbn; lia). destruct Hc.
  - repeat constructor; cbn; intuition discriminate.
  - reflexivity.
  - discriminate.
  - intros p e [K|[]]; injection K as <- <-; reflexivity.
  - reflexivity.
  - intros _ k a b u [K|K]; exfalso; unfold h2 in K; (do 2 (destruct k as [|k]; [discriminate K|])); rewrite nth_overflow in K by (cbn; lia); discriminate.
  - intros q [<-|[]]; lia.
  - vm_compute. reflexivity.
  - apply Nat.leb_le. vm_compute. reflexivity.
  - discriminate.
  - left. vm_compute. reflexivity.
  - intros c l. unfold no_sort. apply Permutation.Permutation_refl.
  - vm_compute. reflexivity.
  - vm_compute. reflexivity.
Qed.
(** a loop of vl real copies, out of place or in place *)
Example C55_size1 is os vl ivs ovs nx ip (I O : loc) tab m :
  Wf nx ip I O (xr2r DHT 1 is os) [mkdim vl ivs ovs] -> (ip = true -> is = os /\ (vl = 1 \/ ivs = ovs)) ->
  loop_gives Z.eq_dec (fun i => ex_addr (sh I (i * ivs)) (sh O (i * ovs)) 0 0 is os 0) t2 vl tab m (kr2r DHT 1 is os vl ivs ovs nx I O m).
Proof.
  intros WF Ip. apply (C55_r2r Z.eq_dec pheq0 magic_default DHT 1 ex_in ex_out v2 t2 _ tab is os vl ivs ovs nx ip I O m pheq0_sound magic_default_ok); auto.
  - lia.
  - exact C55_dht1_dag.
  - exact C55_size1_compiled.
  - intros i Hi. apply ex_rio_layout. lia.
Qed.
Lemma locs_one d s l : locs (d :: (1, s) :: l) = locs (d :: l).
Proof. destruct d as [n u]. cbn [locs]. change (dimlocs (1, s)) with [0 * s]. now rewrite Z.mul_0_l, lplus_0_l. Qed.
(** a radix-1 halfcomplex step copies every row in place *)
Example C55_hc2hc1 m rs mb me ms D nx (P : loc) tab mm : 1 <= mb -> me - 1 <= m -> (fst P < nx)%nat ->
  (forall o, tab o = nth (Z.to_nat o) (tw_table (root (1 * m)) 1 m 1 [mkin TW_FULL 1 1; mkin TW_NEXT 1 0] ++ []) 0%R) ->
  (forall i, 0 <= i < me - mb -> D - 2 * i * ms <> 0) ->
  loop_gives Z.eq_dec (fun i => ex_addr (sh P (i * ms)) (sh P (i * ms)) (D - 2 * i * ms) (D - 2 * i * ms) rs rs ((mb - 1 + i) * 0)) t1 (me - mb) tab mm (khc2hc R2HC 1 m rs mb me ms nx P D mm).
Proof.
  intros H1 H2 Hn Ht HD.
  apply (C55_hc2hc Z.eq_dec pheq0 magic_default LOAD_ALL (fun _ => 0) R2HC 1 v1 t1 ex_in ex_out _ tab (fun o => o) rs m m mb me ms D [mkin TW_FULL 1 1; mkin TW_NEXT 1 0] 0 [] nx P mm pheq0_sound magic_default_ok); auto.
  - cbn. lia.
  - exact C55_hc2hc1_dag.
  - exact C54_size1_compiled.
  - intros i Hi. apply ex_ip_layout. lia.
  - intros i Hi. rewrite locs_one. apply NoDup_locs_unit. auto.
Qed.
(** a radix-1 twiddle-square step *)
Example C55_twidsq1 m rs vs mb me ms di (P : loc) tab mm : 0 <= mb -> me <= m -> di <> 0 ->
  (forall o, tab o = nth (Z.to_nat o) (tw_table (root (1 * m)) 1 m 1 [mkin TW_FULL 0 1; mkin TW_NEXT 1 0] ++ []) 0%R) ->
  loop_gives Z.eq_dec (fun i => ex_addr (sh P (i * ms)) (sh P (i * ms)) di di rs rs ((mb + i) * 0)) t1 (me - mb) tab mm (kdftwsq true di 1 rs vs m mb me ms P mm).
Proof.
  intros H1 H2 HD Ht.
  apply (C55_twidsq Z.eq_dec pheq0 magic_default LOAD_ALL (fun _ _ => 0) true 1 v1 t1 (fun _ => ex_in) (fun _ => ex_out) _ tab (fun o => o) di rs vs m mb me ms [mkin TW_FULL 0 1; mkin TW_NEXT 1 0] 0 [] P mm pheq0_sound magic_default_ok); auto.
  - cbn. lia.
  - exact C55_twidsq1_dag.
  - exact C54_size1_compiled.
  - intros i Hi. destruct (ex_layout 1 (sh P (i * ms)) (sh P (i * ms)) di di rs rs ((mb + i) * 0) ltac:(lia)) as [A1 A2 A3 A4 A5 A6].
    assert (Q : forall a, In a (sqr 1) -> fst a = 0 /\ snd a = 0) by (intros a Ha; apply in_sqr in Ha; lia).
    constructor; auto; intros a Ha; destruct (Q a Ha) as [Q1 Q2]; unfold at2; rewrite ?Q1, Q2; [apply (A1 0); lia|apply (A2 0); lia|apply (A6 0); lia].
  - rewrite !locs_one. apply NoDup_locs_unit. auto.
Qed.

Print Assumptions C55_r2r.
Print Assumptions C55_twidsq.
Print Assumptions C55_hc2hc.
