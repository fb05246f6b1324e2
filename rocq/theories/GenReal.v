(** * The transform of real inputs: output 0 has no imaginary part, not even a symbolic one *)
From Coq Require Import Reals ZArith List Lia Bool Lra.
From Verif Require Import NumTheory Cplx SpecR2R TwModel GenExpr GenCplx GenAlg GenAlgVars GenTransProofs GenFft GenTrig GenTwid.
Import ListNotations.
Open Scope Z_scope.
Local Notation o1 := GenCplx.o1.
Local Notation o2 := GenCplx.o2.

Section RealOut.
  Variable pheq : expr -> expr -> bool.
  Variable M : magic.
  Hypothesis T3 : threemult M = false.
  (** an expression that loads nothing but entries of the twiddle table *)
  Definition nl (e : expr) : Prop := nonconst e = false.
  Notation nls := (Forall nl).
  Lemma nl_Num a : nl (Num a). Proof. reflexivity. Qed.
  Lemma nl_Plus l : nl (Plus l) <-> nls l.
  Proof.
    unfold nl. cbn [nonconst]. split.
    - intros H. apply Forall_forall. intros x Hx. destruct (nonconst x) eqn:E; auto. rewrite <- H. symmetry. apply existsb_exists. eauto.
    - intros F. destruct (existsb nonconst l) eqn:E; auto. apply existsb_exists in E. destruct E as (x & Hx & E). rewrite Forall_forall in F. now rewrite (F x Hx) in E.
  Qed.
  Lemma nl_Times a b : nl (Times a b) <-> nl a /\ nl b. Proof. unfold nl. cbn [nonconst]. apply orb_false_iff. Qed.
  Lemma nl_CTimes a b : nl (CTimes a b) <-> nl a /\ nl b. Proof. unfold nl. cbn [nonconst]. apply orb_false_iff. Qed.
  Lemma nl_CTimesJ a b : nl (CTimesJ a b) <-> nl a /\ nl b. Proof. unfold nl. cbn [nonconst]. apply orb_false_iff. Qed.
  Lemma nl_Uminus a : nl (Uminus a) <-> nl a. Proof. reflexivity. Qed.
  Hint Rewrite nl_Plus nl_Times nl_CTimes nl_CTimesJ nl_Uminus : nl.
  Lemma nl_uminus e : nl e -> nl (makeUminus e).
  Proof. intros G. destruct e; cbn [makeUminus]; autorewrite with nl in *; auto. Qed.
  Lemma nl_timesN y : forall a, nl y -> nl (makeTimesN a y).
  Proof.
    assert (T : forall a e, nl e -> nl (if is_zero a then Num 0 else if is_one a then e else if is_mone a then makeUminus e else
       match e with Uminus b => Times (makeUminus (Num a)) b | _ => Times (Num a) e end)).
    { intros a e G. destruct (is_zero a); [reflexivity|]. destruct (is_one a); auto. destruct (is_mone a); [now apply nl_uminus|].
      destruct e; try (apply nl_Times; split; [reflexivity|exact G]). }
    induction y as [b| |l|x1 IH1 x2 IH2|x1 IH1 x2 IH2|x1 IH1 x2 IH2|x IH|v|v x IH]; intros a G; try (exact (T a _ G)).
    - reflexivity.
    - destruct x1; try (exact (T a _ G)). cbn [makeTimesN]. apply IH2. apply nl_Times in G. tauto.
  Qed.
  Lemma nl_times x y : nl x -> nl y -> nl (makeTimes x y).
  Proof.
    intros A B. unfold makeTimes. destruct x; try (now apply nl_timesN); destruct y; try (now apply nl_timesN); apply nl_Times; auto.
  Qed.
  Lemma nl_reduceN l : forall a, nls l -> nls (reduceSumN a l).
  Proof.
    induction l as [|b l IH]; intros a G; cbn [reduceSumN].
    - destruct (is_zero a); auto. constructor; auto. reflexivity.
    - inversion G; subst. destruct b; auto.
  Qed.
  Lemma nl_reduce l : nls l -> nls (reduceSum l).
  Proof.
    induction l as [|b l IH]; intros G; cbn [reduceSum]; auto. inversion G; subst. destruct b; auto. now apply nl_reduceN.
  Qed.
  Lemma nl_plus l : nls l -> nl (makePlus pheq l).
  Proof.
    intros G. unfold makePlus. apply nl_reduce in G. destruct (reduceSum l) as [|a [|b [|c r]]]; try reflexivity.
    - now inversion G.
    - inversion G as [|? ? A G1]; subst. inversion G1 as [|? ? B _]; subst. destruct (pheq a b); [apply nl_times; [reflexivity|exact A]|].
      assert (P : nl (Plus [a; b])) by (apply nl_Plus; auto).
      destruct a; auto. destruct a1; auto. destruct b; auto. destruct b1; auto. destruct (pheq a2 b2); auto.
      apply nl_times; [|apply nl_Times in A; tauto]. unfold makePlusNN. cbn [reduceSum reduceSumN]. destruct (is_zero _); reflexivity.
    - now apply nl_Plus.
  Qed.
  (** complex expressions whose imaginary part loads nothing; real numbers *)
  Definition rz (c : ce) : Prop := nl (im c).
  Definition ro (x : option ce) : Prop := forall c, x = Some c -> rz c.
  Definition lit (x : option ce) : Prop := forall c, x = Some c -> exists a b, c = CE (Num a) (Num b) /\ b = 0%R.
  Definition rs (f : signal) : Prop := forall k, ro (f k).
  Lemma ro_some c : rz c -> ro (Some c). Proof. intros H d [= <-]. exact H. Qed.
  Lemma ro_none : ro None. Proof. intros d [=]. Qed.
  Lemma lit_ro x : lit x -> ro x.
  Proof. intros L c E. destruct (L c E) as (a & b & -> & _). apply nl_Num. Qed.
  Lemma rz_plus l : Forall rz l -> rz (zplus pheq l).
  Proof. intros F. unfold rz. cbn [zplus im]. apply nl_plus. induction F; cbn; constructor; auto. Qed.
  Lemma rz_uminus c : rz c -> rz (zuminus c). Proof. intros H. now apply nl_uminus. Qed.
  Lemma rz_conj c : rz c -> rz (zconj c). Proof. intros H. now apply nl_uminus. Qed.
  Lemma zz : is_zero 0 = true. Proof. unfold is_zero. destruct (Req_EM_T 0 0); congruence. Qed.
  Lemma timesN_zero' y : forall a, a = 0%R -> exists b, makeTimesN a y = Num b.
  Proof.
    induction y as [b| |l|x1 IH1 x2 IH2|x1 IH1 x2 IH2|x1 IH1 x2 IH2|x IH|v|v x IH]; intros a ->; cbn [makeTimesN]; rewrite ?zz; eauto.
    destruct x1; rewrite ?zz; eauto. apply IH2. apply Rmult_0_l || apply Rmult_0_r.
  Qed.
  Lemma nl_zero_l b y : b = 0%R -> nl (makeTimes (Num b) y).
  Proof. intros H. unfold makeTimes. destruct (timesN_zero' y b H) as (c & ->). apply nl_Num. Qed.
  Lemma nl_zero_r b y : b = 0%R -> nl (makeTimes y (Num b)).
  Proof.
    intros H. destruct (timesN_zero' y b H) as (c & E). unfold makeTimes. destruct y; try (rewrite E; apply nl_Num). apply nl_Num.
  Qed.
  Ltac two := apply nl_plus; apply Forall_cons; [|apply Forall_cons; [|apply Forall_nil]].
  Lemma ro_times_l x y : lit x -> ro y -> ro (otimes pheq M x y).
  Proof.
    intros L Y. unfold otimes, o2. destruct x as [x|]; [|apply ro_none]. destruct y as [y|]; [|apply ro_none]. apply ro_some.
    destruct (L x eq_refl) as (a & b & -> & Hb). assert (Hy := Y y eq_refl). destruct y as [c d]. unfold rz in *. unfold ztimes. rewrite T3. cbn [negb im] in *. two.
    - apply nl_times; [apply nl_Num|exact Hy].
    - now apply nl_zero_l.
  Qed.
  Lemma ro_times_r x y : lit y -> ro x -> ro (otimes pheq M x y).
  Proof.
    intros L X. unfold otimes, o2. destruct x as [x|]; [|apply ro_none]. destruct y as [y|]; [|apply ro_none]. apply ro_some.
    destruct (L y eq_refl) as (a & b & -> & Hb). assert (Hx := X x eq_refl). destruct x as [c d]. unfold rz in *. unfold ztimes. rewrite T3. cbn [negb im] in *. two.
    - now apply nl_zero_r.
    - apply nl_times; [exact Hx|apply nl_Num].
  Qed.
  Lemma plus_nn a b : exists c, makePlus pheq [Num a; Num b] = Num c /\ c = (a + b)%R.
  Proof.
    unfold makePlus. cbn [reduceSum reduceSumN]. destruct (is_zero (a + b)) eqn:E.
    - apply is_zero_t in E. exists 0%R. auto.
    - exists (a + b)%R. auto.
  Qed.
  Lemma lit_times x y : lit x -> lit y -> lit (otimes pheq M x y).
  Proof.
    intros X Y c. unfold otimes, o2. destruct x as [x|]; [|discriminate]. destruct y as [y|]; [|discriminate]. intros [= <-].
    destruct (X x eq_refl) as (a & b & -> & Hb), (Y y eq_refl) as (a' & b' & -> & Hb'). unfold ztimes. rewrite T3. cbn [negb makeTimes makeTimesN makeUminus].
    destruct (plus_nn (a * a') (- (b * b'))) as (u & -> & _). destruct (plus_nn (a * b') (b * a')) as (w & -> & Hw). exists u, w. split; [reflexivity|]. rewrite Hw, Hb, Hb'. ring.
  Qed.
  Lemma ro_o1 f x : (forall c, rz c -> rz (f c)) -> ro x -> ro (o1 f x).
  Proof. intros F X. destruct x as [c|]; cbn; [|apply ro_none]. apply ro_some, F, X. reflexivity. Qed.
  Lemma ro_plus x y : ro x -> ro y -> ro (oplus2 pheq x y).
  Proof.
    intros X Y. unfold oplus2, o2. destruct x as [x|]; [|apply ro_none]. destruct y as [y|]; [|apply ro_none]. apply ro_some, rz_plus. repeat constructor; auto.
  Qed.
  Lemma ro_minus x y : ro x -> ro y -> ro (ominus2 pheq x y).
  Proof.
    intros X Y. unfold ominus2, o2. destruct x as [x|]; [|apply ro_none]. destruct y as [y|]; [|apply ro_none]. apply ro_some, rz_plus. repeat constructor; auto.
    apply rz_uminus. auto.
  Qed.
  Lemma ro_sigma a b f : (forall j, ro (f j)) -> ro (osigma pheq a b f).
  Proof.
    intros F. unfold osigma. assert (G : forall l r, omapM f l = Some r -> Forall rz r).
    { induction l as [|x l IH]; cbn; [intros r [= <-]; constructor|]. intros r. destruct (f x) eqn:E; [|discriminate]. destruct (omapM f l); [|discriminate]. intros [= <-].
      constructor; auto. now apply (F x). }
    destruct (omapM f (interval a b)) eqn:E; cbn; [|apply ro_none]. apply ro_some, rz_plus. eauto.
  Qed.
  Lemma ro_array n f k : ro (f k) -> ro (array n f k).
  Proof. intros H. unfold array. destruct (_ && _); [exact H|apply ro_none]. Qed.
  Lemma rs_array n f : (forall k, ro (f k)) -> rs (array n f).
  Proof. intros H k. apply ro_array, H. Qed.
  Lemma ro_oidx f i : rs f -> ro (oidx f i). Proof. intros F. destruct i; cbn; [apply F|apply ro_none]. Qed.
  Lemma omod0 n : omod 0 n = 0. Proof. unfold omod. destruct n; reflexivity. Qed.
  Lemma odiv0 n : odiv 0 n = 0. Proof. unfold odiv. destruct n; reflexivity. Qed.
  Lemma lit_exp n k : k = 0 -> lit (oexp n k).
  Proof. intros -> c. unfold oexp, ncexp. rewrite omod0. cbn [Z.eqb]. intros [= <-]. eauto. Qed.
  Lemma lit_sec n k : lit (osec n k).
  Proof. intros c. unfold osec. destruct (ncexp n k) as [[a b]|]; [|discriminate]. destruct (is_zero a); [discriminate|]. intros [= <-]. eauto. Qed.
  Lemma lit_num a : lit (Some (CE (Num a) (Num 0))). Proof. intros c [= <-]. eauto. Qed.
  Lemma lit_real n k : lit (o1 zreal (oexp n k)).
  Proof. intros c. unfold oexp. destruct (ncexp n k) as [[a b]|]; [|discriminate]. intros [= <-]. exists a, 0%R. auto. Qed.
  Lemma lit_conj x : lit x -> lit (o1 zconj x).
  Proof. intros L c. destruct x as [x|]; [|discriminate]. destruct (L x eq_refl) as (a & b & -> & ->). intros [= <-]. cbn. exists a, (- 0)%R. split; [reflexivity|ring]. Qed.
  Hint Resolve ro_none lit_num lit_sec lit_real : core.

  (** a transform whose output 0 is real if its inputs are *)
  Definition real0 (d : Z -> Z -> signal -> signal) : Prop := forall s n f, rs f -> ro (d s n f 0).
  Section Rec.
    Variable dft : Z -> Z -> signal -> signal.
    Hypothesis D : real0 dft.
    Lemma ro_half x : ro x -> ro (rhalf pheq M x). Proof. intros X. apply ro_times_l; [apply lit_num|exact X]. Qed.
    Lemma ro_rader s p f : rs f -> ro (dft_rader pheq M dft s p f 0).
    Proof.
      intros F. unfold dft_rader. destruct (find_generator p) as [g|]; [|apply ro_none]. destruct (pow_mod g (p - 2) p) as [gi|]; [|apply ro_none].
      cbv beta zeta. set (ip := array p (fun i => oidx f (pow_mod g i p))). set (op := array p _).
      assert (I1 : rs ip) by (apply rs_array; intros k; now apply ro_oidx).
      assert (Q : forall sc : option ce * signal, ro (fst sc) -> ro (osig (let (sum, conv) := sc in Some (array p (fun i => if i =? 0 then oplus2 pheq (f 0) sum
         else oidx conv (suchthat (Z.to_nat p) 0 (fun i' => option_map (fun o => i =? o) (array p (fun i => pow_mod gi i p) i')))))) 0)).
      { intros [sum conv] Hs. cbn [osig]. apply ro_array. rewrite Z.eqb_refl. apply ro_plus; [apply F|exact Hs]. }
      apply Q. destruct (p <=? alternate_convolution M).
      - unfold gen_convolution_by_fft_alt. cbn [fst]. apply ro_plus; apply D; apply rs_array; intros k; apply ro_half; [apply ro_plus|apply ro_minus]; apply I1.
      - unfold gen_convolution_by_fft. cbn [fst]. now apply D.
    Qed.
    Lemma ro_prime s n f : rs f -> ro (dft_prime pheq M dft s n f 0).
    Proof.
      intros F. unfold dft_prime. destruct (_ >=? _); [now apply ro_rader|]. destruct (n =? 2).
      - unfold computation_even. apply ro_array. unfold prime_sum. apply ro_sigma. intros j. cbv zeta. apply ro_times_l; [apply lit_exp; ring|apply F].
      - unfold computation_odd. apply ro_array. rewrite Z.eqb_refl. apply ro_plus; [apply F|]. apply ro_sigma. intros j. apply ro_plus; apply F.
    Qed.
  End Rec.

  (** newsplit *)
  Lemma lit_scl f : forall n k, lit (scl pheq M f n k).
  Proof. induction f as [|f IH]; intros n k; cbn [scl]; [intros c [=]|]. destruct (n <=? 4); [apply lit_num|]. cbv zeta. apply lit_times; [apply IH|apply lit_real]. Qed.
  Lemma lit_sclinv f : forall n k, lit (sclinv pheq M f n k).
  Proof. induction f as [|f IH]; intros n k; cbn [sclinv]; [intros c [=]|]. destruct (n <=? 4); [apply lit_num|]. cbv zeta. apply lit_times; [apply IH|apply lit_sec]. Qed.
  Lemma lit_sdiv2 n k : lit (sdiv2 pheq M n k). Proof. apply lit_times; [apply lit_scl|apply lit_sclinv]. Qed.
  Lemma lit_t n k : k = 0 -> lit (ns_t pheq M n k). Proof. intros Hk. apply lit_times; [now apply lit_exp|apply lit_sec]. Qed.
  Lemma ro_dft2 f : rs f -> ro (dft2 pheq M f 0).
  Proof. intros F. unfold dft2. apply ro_array, ro_plus; [apply F|]. apply ro_times_r; [now apply lit_exp|apply F]. Qed.
  Lemma ro_w s n z z' : ro (z 0) -> ro (z' 0) -> ro (ns_w pheq M s n z z' 0).
  Proof.
    intros A B. unfold ns_w. apply ro_plus; apply ro_array; rewrite omod0; (apply ro_times_l; [|assumption]); [|apply lit_conj]; apply lit_t; ring.
  Qed.
  Lemma ro_newsplitS fu : forall kd s n f, rs f -> ro (newsplitS pheq M fu kd s n f 0).
  Proof.
    induction fu as [|fu IH]; intros kd s n f F; cbn [newsplitS]; [apply ro_none|].
    destruct (n =? 1); [apply F|]. destruct (n =? 2).
    - destruct kd; try (now apply ro_dft2). cbv zeta. apply ro_array. apply ro_times_r; [apply lit_sclinv|now apply ro_dft2].
    - cbv zeta. set (u := newsplitS _ _ fu (match kd with KS => KS2 | KS2 => KS4 | KS4 => KS2 end) _ _ _). set (z := newsplitS _ _ fu KS _ _ (fun i => f (i * 4 + 1))).
      set (z' := newsplitS _ _ fu KS _ _ (fun i => f (omod _ _))).
      assert (U : ro (u 0)) by (apply IH; intros k; apply F). assert (Z1 : ro (z 0)) by (apply IH; intros k; apply F). assert (Z2 : ro (z' 0)) by (apply IH; intros k; apply F).
      assert (Wz := ro_w s n z z' Z1 Z2). destruct kd; apply ro_array; rewrite ?omod0.
      + apply ro_plus; [exact U|]. now apply ro_array.
      + apply ro_plus; [exact U|]. apply ro_array. apply ro_times_r; [apply lit_sdiv2|exact Wz].
      + apply ro_times_r; [apply lit_sec|]. apply ro_plus; [exact U|]. now apply ro_array.
  Qed.
  Lemma ro_newsplit fu : forall s n f, rs f -> ro (newsplit0 pheq M fu s n f 0).
  Proof.
    induction fu as [|fu IH]; intros s n f F; cbn [newsplit0]; [apply ro_none|].
    destruct (n =? 1); [apply F|]. destruct (n =? 2); [now apply ro_dft2|]. cbv zeta.
    set (u := newsplit0 _ _ fu _ _ _). set (z := newsplitS _ _ fu KS _ _ (fun i => f (i * 4 + 1))). set (z' := newsplitS _ _ fu KS _ _ (fun i => f (omod _ _))).
    assert (U : ro (u 0)) by (apply IH; intros k; apply F). assert (Z1 : ro (z 0)) by (apply ro_newsplitS; intros k; apply F). assert (Z2 : ro (z' 0)) by (apply ro_newsplitS; intros k; apply F).
    set (tw := array n (fun k => otimes pheq M (ns_s pheq M (odiv n 4) k) (oexp n (s * k)))).
    assert (Lt : lit (tw 0)).
    { unfold tw, array. destruct (_ && _); [|intros c [=]]. apply lit_times; [apply lit_scl|apply lit_exp; ring]. }
    apply ro_array, ro_plus; [rewrite omod0; exact U|]. apply ro_array, ro_plus; apply ro_array; rewrite omod0; (apply ro_times_l; [|assumption]); [exact Lt|now apply lit_conj].
  Qed.
  Lemma ro_osig_array n (g : Z -> signal) i j : ro (g i j) -> ro (osig (array n (fun k => Some (g k)) i) j).
  Proof. intros H. unfold array. destruct (_ && _); cbn [osig]; [exact H|apply ro_none]. Qed.
  Lemma real0_dft fu : real0 (dft_fuel pheq M fu).
  Proof.
    induction fu as [|fu IH]; intros s n f F; cbn [dft_fuel]; [apply ro_none|].
    apply ro_array. set (d := dft_fuel pheq M fu) in *. unfold algorithm.
    destruct (choose_factor n) as [r|]; [|apply ro_none]. destruct (existsb _ _); [now apply ro_rader|]. destruct (r =? 1); [now apply ro_prime|].
    destruct (gcd r (odiv n r)) as [g|]; [|apply ro_none]. destruct (g =? 1).
    { unfold prime_factor. cbv zeta. rewrite !omod0. apply ro_osig_array. apply IH. intros k. apply ro_osig_array. apply IH. intros i. apply F. }
    destruct (_ && _); [destruct (_ && _); [now apply ro_newsplit|destruct (dif_split_radix M)]|].
    - unfold split_radix_dif. cbv zeta. apply ro_array. rewrite omod0, odiv0. cbn [Z.eqb]. apply IH, rs_array. intros k. apply ro_plus; apply F.
    - unfold split_radix_dit. cbv zeta. apply ro_array. rewrite omod0. apply ro_plus.
      + apply IH. intros k. apply F.
      + apply ro_array, ro_plus; apply ro_array; rewrite omod0; (apply ro_times_l; [apply lit_exp; ring|]); apply IH; intros k; apply F.
    - unfold cooley_tukey. cbv zeta. rewrite omod0, odiv0. apply ro_osig_array. apply IH. intros i2. apply ro_osig_array. apply ro_array.
      apply ro_times_l; [apply lit_exp; ring|]. apply ro_osig_array. apply IH. intros i1. apply F.
  Qed.
  (** rdft, trig.ml:26-27: output 0 of the transform of real inputs has an imaginary part without loads *)
  Lemma rdft_dc s n f c : rdft pheq M s n f 0 = Some c -> nl (im c).
  Proof.
    intros E. refine (real0_dft _ s n _ _ c E). intros k d. destruct (f k) as [x|]; [|discriminate]. intros [= <-]. apply nl_Num.
  Qed.
End RealOut.
