(** * C54: the C text that genfft prints for the complex codelets is the kernel that the theorems
    about the planner (C01, C08, ...) assume *)
From Coq Require Import Reals ZArith List Bool Lia Lra FunctionalExtensionality.
From Verif Require Import NumTheory Cplx Spec SpecR2R RSum RMath TensorModel Offs TensorProofs XForm XKern CopyProofs XSeq RaceProofs Base TrigModel PropTrig TwModel PropTwiddle DftModel DftComp DftTw GenExpr GenCplx GenAlg GenAlgVars GenTrans GenTransProofs GenFft GenNum GenMain GenTrig GenTrigProofs.
From Verif Require Import PropGenfft PropGenreal GenTwid GenTwidProofs PropGentwid PropGenalg PropGentrans GenAlist GenExec PropGenalist GenSched GenPrint PropGensched GenAnnot PropGenannot PropGenprint GenLink GenInputs GenKernel.
Import ListNotations.
Open Scope Z_scope.
Notation mem := Spec.mem.
Notation in_places := PropGentwid.in_places.

(** ** Loads of the generators *)
Lemma omapM_in {A B} (f : A -> option B) l bs : omapM f l = Some bs -> forall b, In b bs -> exists a, In a l /\ f a = Some b.
Proof.
  revert bs. induction l as [|a l IH]; cbn [omapM]; intros bs E b Hb.
  - injection E as <-. destruct Hb.
  - destruct (f a) as [c|] eqn:Ea; [|discriminate]. destruct (omapM f l) as [cs|]; [|discriminate]. injection E as <-.
    destruct Hb as [<-|Hb]; [exists a; split; [now left|auto]|]. destruct (IH cs eq_refl b Hb) as (a' & Ha & E'). exists a'. split; [now right|auto].
Qed.
Lemma store_c_loads W n dst src v w : store_array_c n dst src = Some v -> ins W src -> loads_of v w -> W w.
Proof.
  unfold store_array_c. intros E F (p & e & He & Ow). destruct (omapM _ _) as [bs|] eqn:Eb; [|discriminate]. injection E as <-.
  apply in_concat in He. destruct He as (b & Hb & He). destruct (omapM_in _ _ _ Eb b Hb) as (i & _ & Ei).
  destruct (src i) as [c|] eqn:Ec; [|discriminate]. injection Ei as <-. destruct (F i c Ec) as [A B]. cbn in He.
  destruct He as [He|[He|[]]]; injection He as <- <-; [now apply A|now apply B].
Qed.
Definition io_vars n inp w := In w (vars n inp) \/ var_is_constant w = true.
Lemma load_c_ins n inp : ins (io_vars n inp) (load_array_c n inp).
Proof.
  unfold load_array_c. apply s_array. intros k Hk. apply ino_some. split; intros v Ov; cbn in Ov; subst v; left; apply in_vars; exists k; auto.
Qed.
Lemma gen_notw_loads pheq M sign n inp oloc v w : gen_notw pheq M sign n inp oloc = Some v -> loads_of v w -> io_vars n inp w.
Proof. intros E. unfold gen_notw in E. apply (store_c_loads _ _ _ _ _ _ E). apply s_fft, load_c_ins. Qed.
Lemma gen_twiddle_loads pheq M p cls dit sign n iloc oloc v w : gen_twiddle pheq M p cls dit sign n iloc oloc = Some v -> loads_of v w -> io_vars n iloc w.
Proof.
  intros E. unfold gen_twiddle in E. apply (store_c_loads _ _ _ _ _ _ E). clear E.
  assert (K : forall c i, io_vars n iloc (Constant c i)) by (intros; now right).
  destruct dit; apply s_array; intros k Hk.
  - refine (s_fft _ pheq M sign n _ _ k). refine (s_byw _ pheq M p false cls sign n _ K _). apply load_c_ins.
  - refine (s_byw _ pheq M p false cls sign n _ K _ k). refine (s_fft _ pheq M sign n _ _). apply load_c_ins.
Qed.

(** ** One transform *)
Lemma dft_sum_unit sign n k z : 0 < n -> dft_sum sign n (fun j => if j =? 0 then z else C0) k = (z * C1)%C.
Proof.
  intros Hn. unfold dft_sum. rewrite (Csum_ext n _ (fun j => if j =? 0 then z else C0)).
  - rewrite (Csum_delta n 0) by (lia || (intros i _ Ni; destruct (Z.eqb_spec i 0); [contradiction|reflexivity])). cbn. ring.
  - intros j Hj. destruct (Z.eqb_spec j 0) as [->|]; [|ring]. rewrite Z.mul_0_r, Z.mul_0_l. replace (2 * PI * 0 / IZR n)%R with 0%R by (unfold Rdiv; ring).
    unfold cis. rewrite cos_0, sin_0. change (1%R, 0%R) with C1. ring.
Qed.
Lemma E2_0 b : E2 0 b = C1.
Proof. unfold E2. replace (2 * PI * (IZR 0 / IZR b))%R with 0%R by (unfold Rdiv; cbn; ring). unfold cis. now rewrite cos_0, sin_0. Qed.
Lemma E2_unit a b : (E2 a b * Cplx.conj (E2 a b))%C = C1.
Proof.
  unfold E2, cis. set (t := (2 * PI * (IZR a / IZR b))%R). assert (S := sin2_cos2 t). unfold Rsqr in S.
  apply C_eq; unfold Cplx.conj, cmul, C1; cbn [fst snd]; nra.
Qed.
Lemma butterfly_unit dit sign r m j k z : 0 < r ->
  butterfly dit sign r m j (fun i => if i =? 0 then z else C0) k = (z * (if dit then C1 else E2 (sign * (k * j)) (r * m)))%C.
Proof.
  intros Hr. assert (Q : forall i, sign * (0 * i) = 0) by (intros; ring). unfold butterfly. destruct dit.
  - rewrite (Csum_ext r _ (fun i => if i =? 0 then z else C0)).
    + rewrite (Csum_delta r 0) by (lia || (intros i _ Ni; destruct (Z.eqb_spec i 0); [contradiction|reflexivity])). rewrite Z.eqb_refl. ring.
    + intros i Hi. destruct (Z.eqb_spec i 0) as [->|]; [|ring]. rewrite !Q, !E2_0. ring.
  - rewrite (Csum_ext r _ (fun i => if i =? 0 then z else C0)).
    + rewrite (Csum_delta r 0) by (lia || (intros i _ Ni; destruct (Z.eqb_spec i 0); [contradiction|reflexivity])). rewrite Z.eqb_refl. ring.
    + intros i Hi. destruct (Z.eqb_spec i 0) as [->|]; [|ring]. rewrite !Q, !E2_0. ring.
Qed.
Lemma dft_sum_ext sign n X X' k : (forall j, 0 <= j < n -> X j = X' j) -> dft_sum sign n X k = dft_sum sign n X' k.
Proof. intros H. unfold dft_sum. apply Csum_ext. intros j Hj. now rewrite H. Qed.
Lemma butterfly_ext dit sign r m j X X' k : (forall i, 0 <= i < r -> X i = X' i) -> butterfly dit sign r m j X k = butterfly dit sign r m j X' k.
Proof. intros H. unfold butterfly. destruct dit; [apply Csum_ext; intros i Hi; now rewrite H|]. f_equal. apply Csum_ext. intros i Hi. now rewrite H. Qed.

Lemma cxf_ext di do_ ii box oo G G' : (forall ks x, In ks box -> G ks x = G' ks x) -> cxf di do_ ii box oo G = cxf di do_ ii box oo G'.
Proof.
  intros H. unfold cxf. f_equal. rewrite !flat_map_concat_map. f_equal. apply map_ext. intros c. apply map_ext_in. intros ks Hk. f_equal.
  apply functional_extensionality. intros x. now rewrite H.
Qed.
Lemma cx_cdft1 di do_ n is os : cx di do_ [mkdim n is os] = cdft1 di do_ n is os (dft_sum (-1) n).
Proof.
  unfold cx, cdft1. apply cxf_ext. intros ks x Hk. rewrite box1 in Hk. apply in_map_iff in Hk. destruct Hk as (k & <- & Hk).
  cbn [mdft dn dis hd]. unfold dft_sum. apply Csum_ext. intros j Hj. rewrite Z.add_0_r. f_equal. unfold W, cis. f_equal; f_equal; rewrite !mult_IZR; unfold Rdiv; ring.
Qed.
Lemma xw1_cdft1 dit di r rs m j : xw1 dit di r rs rs m j = cdft1 di di r rs rs (butterfly dit (-1) r m j).
Proof. unfold xw1, cdft1. apply cxf_ext. intros ks x Hk. symmetry. apply C47_is_kernel. Qed.

Lemma Wf_dim1 nx ip I O X s u : Wf nx ip I O X [mkdim 1 s u] -> Wf nx ip I O X [].
Proof.
  intros [A1 A2 A3 A4 A5 A6].
  assert (Qi : forall o, In o (il X [mkdim 1 s u]) <-> In o (il X [])).
  { intros o. rewrite in_il_cons. cbn [dn dis]. split; [intros (a & b & Ha & Hb & ->); assert (a = 0) as -> by lia; rewrite Z.mul_0_l; exact Hb|]. intros Ho. exists 0, o. split; [lia|]. split; [exact Ho|reflexivity]. }
  assert (Qo : forall o, In o (ol X [mkdim 1 s u]) <-> In o (ol X [])).
  { intros o. rewrite in_ol_cons. cbn [dn dos]. split; [intros (a & b & Ha & Hb & ->); assert (a = 0) as -> by lia; rewrite Z.mul_0_l; exact Hb|]. intros Ho. exists 0, o. split; [lia|]. split; [exact Ho|reflexivity]. }
  refine (Build_Wf _ _ _ _ _ _ A1 A2 _ _ _ _).
  - constructor.
  - eapply Permutation.Permutation_NoDup in A4; [|apply il_cons_perm]. cbn [dn dis] in A4. change (dimlocs (1, s)) with [0 * s] in A4. rewrite Z.mul_0_l, lplus_0_l in A4. exact A4.
  - eapply Permutation.Permutation_NoDup in A5; [|apply ol_cons_perm]. cbn [dn dos] in A5. change (dimlocs (1, u)) with [0 * u] in A5. rewrite Z.mul_0_l, lplus_0_l in A5. exact A5.
  - destruct ip.
    + destruct A6 as [A6 A7]. split; [exact A6|]. intros o. rewrite <- Qi, <- Qo. apply A7.
    + intros l (o & Ho & ->) (o' & Ho' & E). apply (A6 (sh I o)); [exists o; split; [now apply Qi|reflexivity]|]. exists o'. split; [now apply Qo|exact E].
Qed.

(** ** Loops: the body of a for loop is run with the pointers advanced *)
Section Loop.
  Context {T : Type}.
  Variable T_dec : forall p q : T, {p = q} + {p <> q}.
  (** n iterations; in iteration i the variables of the text are the memory cells [addr i] *)
  Fixpoint loop_runs (addr : Z -> variable -> loc + T) (t : ctext) (n : nat) (s s' : cstate (loc + T)) : Prop :=
    match n with
    | O => s' = s
    | S k => exists s1, loop_runs addr t k s s1 /\ cruns _ (cell_dec T_dec) (addr (Z.of_nat k)) t s1 s'
    end.
  (** Running the text [t] n times, from any values of the local variables and the memory [m],
      ends, and whatever the locals of its blocks are before they are assigned, it ends with the memory [m'] *)
  Definition loop_gives addr t n tab m m' : Prop := forall (l : locals),
    (exists s', loop_runs addr t (Z.to_nat n) (l, ccells tab m) s') /\
    forall s', loop_runs addr t (Z.to_nat n) (l, ccells tab m) s' -> snd s' = ccells tab m'.
  Lemma loop_zfor addr t n tab (b : Z -> mem -> mem) m :
    (forall i m (l : locals), 0 <= i < n ->
      (exists s', cruns _ (cell_dec T_dec) (addr i) t (l, ccells tab m) s') /\
      forall s', cruns _ (cell_dec T_dec) (addr i) t (l, ccells tab m) s' -> forall q, snd s' q = ccells tab (b i m) q) ->
    loop_gives addr t n tab m (zfor n b m).
  Proof.
    intros H l. assert (G : forall k, Z.of_nat k <= n \/ k = O ->
      (exists s', loop_runs addr t k (l, ccells tab m) s') /\
      forall s', loop_runs addr t k (l, ccells tab m) s' -> snd s' = ccells tab (zfor (Z.of_nat k) b m)).
    { induction k as [|k IH]; intros Hk.
      - cbn [loop_runs]. split; [eauto|]. intros s' ->. reflexivity.
      - destruct IH as [(s1 & E1) R1]; [left; lia|]. assert (Hk' : 0 <= Z.of_nat k < n) by lia.
        replace (Z.of_nat (S k)) with (Z.of_nat k + 1) by lia. rewrite zfor_succ by lia. split.
        + destruct s1 as [l1 m1]. assert (Q := R1 _ E1). cbn in Q. subst m1. destruct (H (Z.of_nat k) (zfor (Z.of_nat k) b m) l1 Hk') as [(s' & E') _].
          exists s'. cbn [loop_runs]. eauto.
        + intros s' ([l2 m2] & E2 & C2). assert (Q := R1 _ E2). cbn in Q. subst m2. destruct (H (Z.of_nat k) (zfor (Z.of_nat k) b m) l2 Hk') as [_ R].
          apply functional_extensionality. exact (R _ C2). }
    destruct (Z_le_gt_dec n 0) as [Hn|Hn].
    - rewrite zfor_neg by auto. replace (Z.to_nat n) with O by lia. apply (G O). auto.
    - specialize (G (Z.to_nat n)). rewrite Z2Nat.id in G by lia. apply G. lia.
  Qed.

  (** ** gen_notw.ml:108-129: for (i = v; i > 0; --i, ri += ivs, ii += ivs, ro += ovs, io += ovs) *)
  Theorem C54_notw pheq M n inp oloc v t addr tab di do_ is os vl ivs ovs nx ip (I O : loc) m :
    sound_eq pheq -> magic_ok M -> 0 < n ->
    gen_notw pheq M (-1) n inp oloc = Some v -> compiled v t ->
    (forall i, 0 <= i < vl -> io_layout n inp oloc (addr i) (sh I (i * ivs)) (sh O (i * ovs)) di do_ is os) ->
    Wf nx ip I O (cx di do_ [mkdim n is os]) [mkdim vl ivs ovs] -> (ip = true -> di = do_ /\ is = os /\ (vl = 1 \/ ivs = ovs)) ->
    loop_gives addr t vl tab m (kdft di do_ n is os vl ivs ovs nx I O m).
  Proof.
    intros Hp HM Hn E Cm LO WF Ip. unfold kdft, vloop. apply loop_zfor. intros i m' l Hi. rewrite cx_cdft1 in *.
    apply (complex_codelet T_dec n v t inp oloc (addr i) tab m' nx (sh I (i * ivs)) (sh O (i * ovs)) di do_ is os (dft_sum (-1) n) (fun _ => C1) ip); auto.
    - intros x _. rewrite <- E. apply C46_notw; auto.
    - intros X X' k. apply dft_sum_ext.
    - intros k z Hk. rewrite dft_sum_unit by auto. split; auto. apply C_eq; unfold Cplx.conj, cmul, C1; cbn [fst snd]; ring.
    - intros w. eapply gen_notw_loads; eauto.
    - destruct (Bool.bool_dec ip true) as [Ep|Ep]; [destruct (Ip Ep) as (D1 & D2 & [Dv|Dv])|].
      + subst vl. replace i with 0 by lia. rewrite !Z.mul_0_l, !sh_0. now apply Wf_dim1 in WF.
      + assert (P : Wf nx ip (sh I (i * ivs)) (sh O (i * ovs)) (cdft1 di do_ n is os (dft_sum (-1) n)) [mkdim 1 ivs ovs]).
        { apply (Wf_piece nx ip I O _ [] vl ivs ovs WF); try lia. intros _. split; auto. rewrite <- cx_cdft1. subst. apply same_set_strides. unfold tensor_inplace_strides2. cbn. now rewrite Z.eqb_refl. }
        now apply Wf_dim1 in P.
      + assert (P : Wf nx ip (sh I (i * ivs)) (sh O (i * ovs)) (cdft1 di do_ n is os (dft_sum (-1) n)) [mkdim 1 ivs ovs]).
        { apply (Wf_piece nx ip I O _ [] vl ivs ovs WF); try lia. intros K. contradiction. }
        now apply Wf_dim1 in P.
    - intros K. destruct (Ip K) as (D1 & D2 & _). auto.
  Qed.
  (** ** gen_twiddle.ml:95-113: for (m = mb, W += mb*nt; m < me; ++m, rio += ms, iio += ms, W += nt).  The
      cell [tw o] is the element o of the twiddle table that kernel/twiddle.c makes (C32) from the codelet's
      instructions [desc]; [G] is whatever follows the table. *)
  Theorem C54_twiddle pheq M p cls dit r v t iloc oloc addr tab tw di rs m mb me ms desc nt G (P : loc) mm :
    sound_eq pheq -> magic_ok M -> pol_size p r -> twdesc p 0 r = Some desc -> twidlen p r = Some nt ->
    gen_twiddle pheq M p cls dit (-1) r iloc oloc = Some v -> compiled v t -> 0 <= mb -> me <= m ->
    (forall i, 0 <= i < me - mb -> io_layout r iloc oloc (addr i) (sh P (i * ms)) (sh P (i * ms)) di di rs rs) ->
    (forall i c o, 0 <= i < me - mb -> addr i (Constant c o) = inr (tw ((mb + i) * nt + o))) ->
    (forall o, tab (tw o) = nth (Z.to_nat o) (tw_table (root (r * m)) r m 1 desc ++ G) 0%R) ->
    NoDup (locs [(me - mb, ms); (2, di); (r, rs)]) ->
    loop_gives addr t (me - mb) tab mm (kdftw dit di r rs m mb me ms P mm).
  Proof.
    intros Hp HM Hr Hd Ht E Cm Hmb Hme LO TW TAB ND. unfold kdftw. apply loop_zfor. intros i m' l Hi.
    assert (Hr1 : 1 <= r) by (destruct p; cbn in Hr; lia).
    rewrite xw1_cdft1. change (kern (cdft1 di di r rs rs (butterfly dit (-1) r m (mb + i))) 0%nat) with (kern (cdft1 di di r rs rs (butterfly dit (-1) r m (mb + i))) (S (fst P))).
    apply (complex_codelet T_dec r v t iloc oloc (addr i) tab m' (S (fst P)) (sh P (i * ms)) (sh P (i * ms)) di di rs rs (butterfly dit (-1) r m (mb + i))
      (fun k => if dit then C1 else E2 (-1 * (k * (mb + i))) (r * m)) true); auto; try lia.
    - intros x Hx. rewrite <- E. apply C47_twiddle with (desc := desc); auto.
      apply (C47_table_rows p 0 r (r * m) m G desc nt (mb + i) x); auto; try lia. intros c o Ho. rewrite Hx by reflexivity. rewrite TW by auto. cbn [cells]. now rewrite TAB.
    - intros X X' k. apply butterfly_ext.
    - intros k z Hk. rewrite butterfly_unit by lia. split; auto. destruct dit; [|apply E2_unit]. apply C_eq; unfold Cplx.conj, cmul, C1; cbn [fst snd]; ring.
    - intros w. eapply gen_twiddle_loads; eauto.
    - rewrite <- xw1_cdft1. assert (ND' : NoDup (locs [(2, di); (r, rs)])).
      { change (NoDup (lplus (dimlocs (me - mb, ms)) (locs [(2, di); (r, rs)]))) in ND. apply (NoDup_lplus_range (me - mb) ms _ 0 1) in ND; try lia.
        change (dimlocs (1, ms)) with [0 * ms] in ND. rewrite Z.mul_0_l in ND. now rewrite lplus_0_l in ND. }
      constructor; cbn [fst sh]; try lia.
      + constructor.
      + now rewrite il_xw1.
      + now rewrite ol_xw1.
      + split; auto. intros o. now rewrite il_xw1, ol_xw1.
  Qed.
End Loop.

(** ** The hypotheses are met *)
(** the C code of the arrays: ri[is*j], ii[is*j], ro[os*k], io[os*k], W[o] *)
Definition ex_addr (I O : loc) (di do_ is os : Z) (W : Z) (w : variable) : loc + Z :=
  match w with
  | Locative _ c j => if c =? 0 then inl (sh I (j * is)) else if c =? 1 then inl (sh I (di + j * is))
                      else if c =? 2 then inl (sh O (j * os)) else inl (sh O (do_ + j * os))
  | Constant _ o => inr (W + o)
  | Temporary k => inr k
  end.
Example ex_layout n I O di do_ is os W : 0 <= n -> io_layout n ex_in ex_out (ex_addr I O di do_ is os W) I O di do_ is os.
Proof.
  intros Hn. constructor.
  - intros j Hj. split; reflexivity.
  - intros k Hk. split; reflexivity.
  - intros w Lw; destruct w; try discriminate; cbn; eauto.
  - intros w Hw. apply in_app_or in Hw. destruct Hw as [Hw|Hw]; apply in_vars in Hw; destruct Hw as (k & _ & [->| ->]); reflexivity.
  - assert (G : forall f : Z -> variable * variable, (forall j k, fst (f j) = fst (f k) -> j = k) -> (forall j k, snd (f j) = snd (f k) -> j = k) -> (forall j k, fst (f j) <> snd (f k)) -> NoDup (vars n f)).
    { intros f H1 H2 H3. unfold vars. assert (ND := NoDup_zr n). induction ND as [|a l Na ND IH]; [constructor|]. cbn [flat_map app].
      constructor.
      - intros [K|K]; [exact (H3 a a (eq_sym K))|]. apply in_flat_map in K. destruct K as (b & Hb & [K|[K|[]]]); [apply H1 in K; congruence|]. exact (H3 a b (eq_sym K)).
      - constructor; [|exact IH]. intros K. apply in_flat_map in K. destruct K as (b & Hb & [K|[K|[]]]); [exact (H3 b a K)|]. apply H2 in K; congruence. }
    apply NoDup_app_intro.
    + apply G; unfold ex_in; cbn; congruence.
    + apply G; unfold ex_out; cbn; congruence.
    + intros w A B. apply in_vars in A, B. destruct A as (a & _ & [->| ->]), B as (b & _ & [B|B]); discriminate.
  - intros j Hj. unfold ex_in, ex_out, same_location. cbn. now rewrite !Z.eqb_refl.
Qed.
(** the codelet of size 1, through all the passes: it copies a complex number *)
Definition v1 : list expr := [EStore (Locative 0 2 0) (ELoad (Locative 0 0 0)); EStore (Locative 1 3 0) (ELoad (Locative 1 1 0))].
Example C54_size1_dag : gen_notw pheq0 magic_default (-1) 1 ex_in ex_out = Some v1.
Proof. cbv -[IZR is_zero]. now rewrite z0. Qed.
Definition h1 : heap := fun i => nth i [NLoad (Locative 0 0 0); NLoad (Locative 1 1 0); NStore (Locative 0 2 0) 0%nat; NStore (Locative 1 3 0) 1%nat] NNaN.
Definition t1 : ctext := CBlock [T 1; T 2]
  (CSeq (CBlock [] (CSeq (CBlock [] (CAssign (T 1) [TVar (Locative 0 0 0)])) (CBlock [] (CAssign (Locative 0 2 0) [TVar (T 1)]))))
        (CBlock [] (CSeq (CBlock [] (CAssign (T 2) [TVar (Locative 1 1 0)])) (CBlock [] (CAssign (Locative 1 3 0) [TVar (T 2)]))))).
Example C54_size1_compiled : compiled v1 t1.
Proof.
  destruct (algsimp ex_or ex_set 6 v1) as [[r s]|] eqn:E; [|exfalso; revert E; cbv -[IZR is_zero negative_num is_one is_mone Rplus Rmult Ropp Rminus Rdiv Req_EM_T]; discriminate].
  assert (B : match algsimp ex_or ex_set 6 v1 with Some (r, s) => (r, bad s) | None => ([], true) end = (v1, false))
    by (cbv -[IZR is_zero negative_num is_one is_mone Rplus Rmult Ropp Rminus Rdiv Req_EM_T]; reflexivity).
  rewrite E in B. injection B as -> B.
  eapply (compiled_intro v1 t1 v1 h1 [2; 3]%nat magic0 (sm 0) plain no_sort 4 _ 20 _ 40 _ 20).
  - apply opt_plain. exists ex_or, ex_set, 6%nat, s. split; [exact ex_or_sound|auto].
  - intros k c Hc. unfold h1 in Hc. do 4 (destruct k as [|k]; [cbn in Hc; intuition lia|]). rewrite nth_overflow in Hc by (cbn; lia). destruct Hc.
  - repeat constructor; cbn; intuition discriminate.
  - reflexivity.
  - discriminate.
  - intros p e [K|[K|[]]]; injection K as <- <-; reflexivity.
  - reflexivity.
  - intros _ k a b u [K|K]; exfalso; unfold h1 in K; (do 4 (destruct k as [|k]; [discriminate K|])); rewrite nth_overflow in K by (cbn; lia); discriminate.
  - intros q [<-|[<-|[]]]; lia.
  - vm_compute. reflexivity.
  - apply Nat.leb_le. vm_compute. reflexivity.
  - discriminate.
  - left. vm_compute. reflexivity.
  - intros c l. unfold no_sort. apply Permutation.Permutation_refl.
  - vm_compute. reflexivity.
  - vm_compute. reflexivity.
Qed.
(** a loop of vl copies, out of place *)
Example C54_size1 di do_ is os vl ivs ovs nx (I O : loc) tab m :
  Wf nx false I O (cx di do_ [mkdim 1 is os]) [mkdim vl ivs ovs] ->
  loop_gives Z.eq_dec (fun i => ex_addr (sh I (i * ivs)) (sh O (i * ovs)) di do_ is os 0) t1 vl tab m (kdft di do_ 1 is os vl ivs ovs nx I O m).
Proof.
  intros WF. apply (C54_notw Z.eq_dec pheq0 magic_default 1 ex_in ex_out v1 t1 _ tab di do_ is os vl ivs ovs nx false I O m pheq0_sound magic_default_ok); auto.
  - lia.
  - exact C54_size1_dag.
  - exact C54_size1_compiled.
  - intros i Hi. apply ex_layout. lia.
  - discriminate.
Qed.
(** the codelet of C47_twiddle_instance in place, in a table of the right size *)
Example C54_twiddle_layout P di rs ms mb r nt i c o : 0 <= r ->
  let addr := fun i => ex_addr (sh P (i * ms)) (sh P (i * ms)) di di rs rs ((mb + i) * nt) in
  io_layout r ex_in ex_out (addr i) (sh P (i * ms)) (sh P (i * ms)) di di rs rs /\ addr i (Constant c o) = inr ((mb + i) * nt + o).
Proof. intros Hr addr. split; [now apply ex_layout|reflexivity]. Qed.

Print Assumptions C54_notw.
Print Assumptions C54_twiddle.
