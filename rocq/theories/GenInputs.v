(** * The generators load only their inputs and twiddle factors *)
From Coq Require Import Reals ZArith List Lia Bool.
From Verif Require Import NumTheory Cplx SpecR2R TwModel GenExpr GenCplx GenAlg GenAlgVars GenFft GenTrig GenTwid.
Import ListNotations.
Open Scope Z_scope.

Section Inputs.
  Variable W : variable -> Prop.
  Variable pheq : expr -> expr -> bool.
  Variable M : magic.
  Notation gd := (gd W).
  Notation gds := (Forall gd).
  Hint Rewrite gd_Plus gd_Times gd_CTimes gd_CTimesJ gd_Uminus gd_Store gds_cons gds_nil : gd.
  Hint Resolve gd_Num gd_NaN : core.

  Lemma i_uminus e : gd e -> gd (makeUminus e).
  Proof. intros G. destruct e; cbn [makeUminus]; autorewrite with gd in *; auto. Qed.
  Lemma i_timesN y : forall a, gd y -> gd (makeTimesN a y).
  Proof.
    assert (T : forall a e, gd e -> gd (if is_zero a then Num 0 else if is_one a then e else if is_mone a then makeUminus e else
       match e with Uminus b => Times (makeUminus (Num a)) b | _ => Times (Num a) e end)).
    { intros a e G. destruct (is_zero a); auto. destruct (is_one a); auto. destruct (is_mone a); [now apply i_uminus|].
      destruct e; autorewrite with gd in *; auto. split; [apply i_uminus|]; auto. }
    induction y as [b| |l|x1 IH1 x2 IH2|x1 IH1 x2 IH2|x1 IH1 x2 IH2|x IH|v|v x IH]; intros a G; try (exact (T a _ G)).
    - apply gd_Num.
    - destruct x1; try (exact (T a _ G)). cbn [makeTimesN]. apply IH2. autorewrite with gd in G. tauto.
  Qed.
  Lemma i_times x y : gd x -> gd y -> gd (makeTimes x y).
  Proof.
    intros A B. unfold makeTimes. destruct x; try (now apply i_timesN); destruct y; try (now apply i_timesN); autorewrite with gd in *; auto.
  Qed.
  Lemma i_reduceN l : forall a, gds l -> gds (reduceSumN a l).
  Proof.
    induction l as [|b l IH]; intros a G; cbn [reduceSumN].
    - destruct (is_zero a); auto.
    - inversion G; subst. destruct b; auto.
  Qed.
  Lemma i_reduce l : gds l -> gds (reduceSum l).
  Proof.
    induction l as [|b l IH]; intros G; cbn [reduceSum]; auto. inversion G; subst. destruct b; auto. now apply i_reduceN.
  Qed.
  Lemma i_plus l : gds l -> gd (makePlus pheq l).
  Proof.
    intros G. unfold makePlus. apply i_reduce in G. destruct (reduceSum l) as [|a [|b [|c r]]]; auto.
    - now inversion G.
    - inversion G as [|? ? A G1]; subst. inversion G1 as [|? ? B _]; subst. destruct (pheq a b); [now apply i_times|].
      assert (P : gd (Plus [a; b])) by (apply gd_Plus; auto).
      destruct a; auto. destruct a1; auto. destruct b; auto. destruct b1; auto. destruct (pheq a2 b2); auto.
      apply i_times; [|autorewrite with gd in *; tauto]. unfold makePlusNN. cbn [reduceSum reduceSumN]. destruct (is_zero _); auto.
    - now apply gd_Plus.
  Qed.

  (** ** Complex expressions *)
  Definition inz (c : ce) : Prop := gd (re c) /\ gd (im c).
  Definition ino (x : option ce) : Prop := forall c, x = Some c -> inz c.
  Definition ins (f : signal) : Prop := forall k, ino (f k).
  Lemma ino_some c : inz c -> ino (Some c). Proof. intros H d [= <-]. exact H. Qed.
  Lemma ino_none : ino None. Proof. intros d [=]. Qed.
  Lemma inz_num a b : inz (CE (Num a) (Num b)). Proof. split; apply gd_Num. Qed.
  Lemma inz_zi : inz zi. Proof. apply inz_num. Qed.
  Lemma inz_inv n : inz (inverse_int n). Proof. apply inz_num. Qed.
  Hint Resolve inz_zi inz_inv : core.
  Lemma z_uminus x : inz x -> inz (zuminus x). Proof. intros [A B]. split; now apply i_uminus. Qed.
  Lemma z_conj x : inz x -> inz (zconj x). Proof. intros [A B]. split; cbn; auto using i_uminus. Qed.
  Lemma z_real x : inz x -> inz (zreal x). Proof. intros [A B]. split; cbn; auto. Qed.
  Lemma z_imag x : inz x -> inz (zimag x). Proof. intros [A B]. split; cbn; auto. Qed.
  Lemma z_iimag x : inz x -> inz (ziimag x). Proof. intros [A B]. split; cbn; auto. Qed.
  Lemma z_3x3 x y : inz x -> inz y -> inz (times3x3 pheq x y).
  Proof. destruct x, y. intros [A B] [A' B']. cbn in *. split; cbn; repeat (apply i_plus || apply i_times || apply i_uminus || apply Forall_cons || apply Forall_nil || assumption). Qed.
  Lemma z_times x y : inz x -> inz y -> inz (ztimes pheq M x y).
  Proof.
    intros X Y. destruct x as [a b], y as [c d]. unfold ztimes. destruct (negb (threemult M)).
    - destruct X as [A B], Y as [A' B']. cbn in *. split; cbn; repeat (apply i_plus || apply i_times || apply i_uminus || apply Forall_cons || apply Forall_nil || assumption).
    - destruct (_ && _); now apply z_3x3.
  Qed.
  Lemma z_plus l : Forall inz l -> inz (zplus pheq l).
  Proof. intros F. split; cbn; apply i_plus; induction F as [|x l [A B] F IH]; cbn; auto. Qed.
  Lemma z_ctimes x y : inz x -> inz y -> inz (zctimes x y).
  Proof. intros [A B] [A' B']. split; cbn; auto. now apply gd_CTimes. Qed.
  Lemma z_ctimesj x y : inz x -> inz y -> inz (zctimesj x y).
  Proof. intros [A B] [A' B']. split; cbn; auto. now apply gd_CTimesJ. Qed.
  Hint Resolve ino_none inz_num z_uminus z_conj z_real z_imag z_iimag z_times z_ctimes z_ctimesj : core.
  Lemma n_o1 f x : (forall c, inz c -> inz (f c)) -> ino x -> ino (o1 f x).
  Proof. intros F X. destruct x as [c|]; cbn; auto. apply ino_some, F, X. reflexivity. Qed.
  Lemma n_o2 f x y : (forall c d, inz c -> inz d -> inz (f c d)) -> ino x -> ino y -> ino (o2 f x y).
  Proof. intros F X Y. destruct x as [c|], y as [d|]; cbn; auto. apply ino_some, F; [now apply X|now apply Y]. Qed.
  Lemma n_times x y : ino x -> ino y -> ino (otimes pheq M x y). Proof. apply n_o2. auto. Qed.
  Lemma n_plus x y : ino x -> ino y -> ino (oplus2 pheq x y). Proof. apply n_o2. intros. apply z_plus; auto. Qed.
  Lemma n_minus x y : ino x -> ino y -> ino (ominus2 pheq x y). Proof. apply n_o2. intros. apply z_plus; auto. Qed.
  Lemma n_plus' x y : ino x -> ino y -> ino (o2 (fun a b => zplus pheq [a; b]) x y). Proof. apply n_plus. Qed.
  Lemma n_num a b : ino (Some (CE (Num a) (Num b))). Proof. apply ino_some. auto. Qed.
  Lemma n_exp n i : ino (oexp n i).
  Proof. unfold oexp. destruct (ncexp n i) as [[c s]|]; auto. apply n_num. Qed.
  Lemma n_sec n i : ino (osec n i).
  Proof. unfold osec. destruct (ncexp n i) as [[c s]|]; auto. destruct (is_zero c); auto. apply n_num. Qed.
  Lemma n_sigma a b f : (forall j, ino (f j)) -> ino (osigma pheq a b f).
  Proof.
    intros F. unfold osigma. assert (G : forall l r, omapM f l = Some r -> Forall inz r).
    { induction l as [|x l IH]; cbn; [intros r [= <-]; auto|]. intros r. destruct (f x) eqn:E; [|discriminate]. destruct (omapM f l); [|discriminate]. intros [= <-].
      constructor; auto. now apply (F x). }
    destruct (omapM f (interval a b)) eqn:E; cbn; auto. apply ino_some, z_plus. eauto.
  Qed.
  Lemma s_array n f : (forall k, 0 <= k < n -> ino (f k)) -> ins (array n f).
  Proof. intros F k. unfold array. destruct ((0 <=? k) && (k <? n)) eqn:E; auto. apply F. lia. Qed.
  Definition inos (o : option signal) : Prop := forall f, o = Some f -> ins f.
  Lemma s_osig o : inos o -> ins (osig o).
  Proof. intros H k. destruct o as [f|]; cbn; auto. now apply H. Qed.
  Lemma os_some f : ins f -> inos (Some f). Proof. intros H g [= <-]. exact H. Qed.
  Lemma os_none : inos None. Proof. intros g [=]. Qed.
  Lemma os_array n f : (forall k, inos (f k)) -> forall k, inos (array n f k).
  Proof. intros F k. unfold array. destruct (_ && _); auto using os_none. Qed.
  Lemma n_oidx f i : ins f -> ino (oidx f i). Proof. intros F. destruct i; cbn; auto. Qed.

  (** the shape of the functions of fft.ml is followed *)
  Ltac step := match goal with
    | |- ino (otimes _ _ _ _) => apply n_times
    | |- ino (oplus2 _ _ _) => apply n_plus
    | |- ino (ominus2 _ _ _) => apply n_minus
    | |- ino (o2 (fun a b => zplus _ [a; b]) _ _) => apply n_plus'
    | |- ino (o2 (ztimes _ _) _ _) => apply n_times
    | |- ino (o1 _ _) => apply n_o1; [now auto|]
    | |- ino (oexp _ _) => apply n_exp
    | |- ino (osec _ _) => apply n_sec
    | |- ino (Some (inverse_int _)) => apply n_num
    | |- ino (Some zzero) => apply n_num
    | |- ino (Some zone) => apply n_num
    | |- ino (Some zi) => apply n_num
    | |- ino None => apply ino_none
    | |- ino (osigma _ _ _ _) => apply n_sigma; intros ?
    | |- ino (oidx _ _) => apply n_oidx
    | |- ino (osig _ _) => apply s_osig
    | |- inos (array _ _ _) => apply os_array; intros ?
    | |- inos (Some _) => apply os_some
    | |- inos None => apply os_none
    | |- ins (osig _) => apply s_osig
    | |- ins (array _ _) => apply s_array; intros ? ?
    | H : ins ?f |- ino (?f _) => apply H
    | H : ins ?f |- ins ?f => exact H
    | |- ins (fun k => _) => intros ?; cbv beta
    | |- ino (array _ _ _) => apply s_array; intros ? ?
    | |- ino (if ?c then _ else _) => destruct c
    | |- ins (if ?c then _ else _) => destruct c
    | |- ino (match ?c with Some _ => _ | None => _ end) => destruct c
    | |- inos (match ?c with Some _ => _ | None => _ end) => destruct c
    end.
  Ltac go := cbv beta zeta; repeat (step; cbv beta).

  Section Rec.
    Variable dft : Z -> Z -> signal -> signal.
    Hypothesis D : forall s n f, ins f -> ins (dft s n f).
    Ltac stepD := first [step | match goal with
      | |- ins (dft _ _ _) => apply D
      | |- ino (dft _ _ _ _) => apply D
      end].
    Ltac god := cbv beta zeta; repeat (stepD; cbv beta).
    Lemma s_rhalf x : ino x -> ino (rhalf pheq M x). Proof. intros. unfold rhalf. god. assumption. Qed.
    Lemma s_product n a b : ins a -> ins b -> ins (make_product pheq M n a b). Proof. intros. unfold make_product. god. Qed.
    Lemma n_dc a i : ino a -> ino (dc_term a i). Proof. intros. unfold dc_term. god. assumption. Qed.
    Lemma s_conv n a b c : ins a -> ins b -> ino c -> ino (fst (gen_convolution_by_fft pheq M dft n a b c)) /\ ins (snd (gen_convolution_by_fft pheq M dft n a b c)).
    Proof.
      intros A B Cc. unfold gen_convolution_by_fft. cbn [fst snd]. split; god. 1: now apply s_product; god. now apply n_dc.
    Qed.
    Lemma s_conv_alt n a b c : ins a -> ins b -> ino c -> ino (fst (gen_convolution_by_fft_alt pheq M dft n a b c)) /\ ins (snd (gen_convolution_by_fft_alt pheq M dft n a b c)).
    Proof.
      intros A B Cc. unfold gen_convolution_by_fft_alt. cbn [fst snd].
      split; god; repeat first [apply s_rhalf; god | apply n_dc; assumption | apply s_product; god].
    Qed.
    Lemma s_rader s p f : ins f -> ins (dft_rader pheq M dft s p f).
    Proof.
      intros F. unfold dft_rader. apply s_osig. destruct (find_generator p) as [g|]; [|apply os_none]. destruct (pow_mod g (p - 2) p) as [gi|]; [|apply os_none].
      cbv beta zeta.
      set (ip := array p (fun i => oidx f (pow_mod g i p))). set (op := array p _).
      assert (I1 : ins ip) by (unfold ip; go). assert (I2 : ins op) by (unfold op; go).
      match goal with |- context [array p (fun i => pow_mod gi i p)] => set (pp := array p (fun i => pow_mod gi i p)) end.
      destruct (p <=? alternate_convolution M).
      - destruct (s_conv_alt (p - 1) ip op (f 0) I1 I2 (F 0)) as [C1 C2]. destruct (gen_convolution_by_fft_alt pheq M dft (p - 1) ip op (f 0)). cbn [fst snd] in *. go. assumption.
      - destruct (s_conv (p - 1) ip op (f 0) I1 I2 (F 0)) as [C1 C2]. destruct (gen_convolution_by_fft pheq M dft (p - 1) ip op (f 0)). cbn [fst snd] in *. go. assumption.
    Qed.
    Lemma n_psum s n f fl i : ins f -> (forall x, ino x -> ino (fl x)) -> ino (prime_sum pheq M s n f fl i).
    Proof. intros F L. unfold prime_sum. go. apply L. go. Qed.
    Lemma z_iim c : inz c -> inz (ztimes pheq M zi (zimag c)). Proof. intros. apply z_times; auto. Qed.
    Lemma s_prime s n f : ins f -> ins (dft_prime pheq M dft s n f).
    Proof.
      intros F. unfold dft_prime. destruct (_ >=? _); [now apply s_rader|]. destruct (n =? 2).
      - unfold computation_even. go. now apply n_psum.
      - unfold computation_odd. assert (Q := z_iim). go; try (apply n_psum; [assumption|intros x Hx; go; assumption]).
    Qed.
  End Rec.

  (** newsplit *)
  Lemma n_scl f n k : ino (scl pheq M f n k).
  Proof. revert n k. induction f as [|f IH]; intros n k; cbn [scl]; go. apply IH. Qed.
  Lemma n_sclinv f n k : ino (sclinv pheq M f n k).
  Proof. revert n k. induction f as [|f IH]; intros n k; cbn [sclinv]; go. apply IH. Qed.
  Lemma n_s n k : ino (ns_s pheq M n k). Proof. apply n_scl. Qed.
  Lemma n_sinv n k : ino (ns_sinv pheq M n k). Proof. apply n_sclinv. Qed.
  Lemma n_sdiv2 n k : ino (sdiv2 pheq M n k). Proof. unfold sdiv2. go; [apply n_s|apply n_sinv]. Qed.
  Lemma n_sdiv4 n k : ino (sdiv4 n k). Proof. unfold sdiv4. go. Qed.
  Lemma n_t n k : ino (ns_t pheq M n k). Proof. unfold ns_t. go. apply n_sdiv4. Qed.
  Lemma s_dft2 f : ins f -> ins (dft2 pheq M f). Proof. intros. unfold dft2. go. Qed.
  Lemma s_w s n z z' : ins z -> ins z' -> ins (ns_w pheq M s n z z').
  Proof. intros. unfold ns_w. go; apply n_t. Qed.
  Lemma s_newsplitS fu : forall kd s n f, ins f -> ins (newsplitS pheq M fu kd s n f).
  Proof.
    induction fu as [|fu IH]; intros kd s n f F; cbn [newsplitS]; [intros k; apply ino_none|].
    destruct (n =? 1); [exact F|]. destruct (n =? 2).
    - destruct kd; try (now apply s_dft2). cbv zeta. assert (G := s_dft2 f F). go. apply n_sinv.
    - cbv zeta. set (u := newsplitS _ _ fu (match kd with KS => KS2 | KS2 => KS4 | KS4 => KS2 end) _ _ _). set (z := newsplitS _ _ fu KS _ _ (fun i => f (i * 4 + 1))).
      set (z' := newsplitS _ _ fu KS _ _ (fun i => f (omod _ _))).
      assert (U : ins u) by (apply IH; intros k; apply F). assert (Z1 : ins z) by (apply IH; intros k; apply F). assert (Z2 : ins z') by (apply IH; intros k; apply F).
      assert (Wz := s_w s n z z' Z1 Z2). destruct kd; go; first [apply n_sdiv2|apply n_sdiv4].
  Qed.
  Lemma s_newsplit fu : forall s n f, ins f -> ins (newsplit0 pheq M fu s n f).
  Proof.
    induction fu as [|fu IH]; intros s n f F; cbn [newsplit0]; [intros k; apply ino_none|].
    destruct (n =? 1); [exact F|]. destruct (n =? 2); [now apply s_dft2|]. cbv zeta.
    set (u := newsplit0 _ _ fu _ _ _). set (z := newsplitS _ _ fu KS _ _ (fun i => f (i * 4 + 1))). set (z' := newsplitS _ _ fu KS _ _ (fun i => f (omod _ _))).
    assert (U : ins u) by (apply IH; intros k; apply F). assert (Z1 : ins z) by (apply s_newsplitS; intros k; apply F). assert (Z2 : ins z') by (apply s_newsplitS; intros k; apply F).
    go; apply n_s.
  Qed.
  Lemma s_dft fu : forall s n f, ins f -> ins (dft_fuel pheq M fu s n f).
  Proof.
    induction fu as [|fu IH]; intros s n f F; cbn [dft_fuel]; [intros k; apply ino_none|].
    apply s_array. intros k _. set (d := dft_fuel pheq M fu) in *. unfold algorithm.
    destruct (choose_factor n) as [r|]; [|apply ino_none]. destruct (existsb _ _); [now apply s_rader|]. destruct (r =? 1); [now apply s_prime|].
    destruct (gcd r (odiv n r)) as [g|]; [|apply ino_none]. destruct (g =? 1).
    { unfold prime_factor. go; apply IH; go; apply IH; go. }
    destruct (_ && _); [destruct (_ && _); [now apply s_newsplit|destruct (dif_split_radix M)]|].
    - unfold split_radix_dif. go; apply IH; go.
    - unfold split_radix_dit. go; apply IH; go.
    - unfold cooley_tukey. go; apply IH; go; apply IH; go.
  Qed.
  (** the DFT of signals made of allowed variables is made of allowed variables *)
  Lemma s_fft s n f : ins f -> ins (fft_dft pheq M s n f). Proof. apply s_dft. Qed.

  (** ** trig.ml, twiddle.ml *)
  Ltac stepF := first [step | match goal with
    | |- ins (fft_dft _ _ _ _ _) => apply s_fft
    | |- ino (fft_dft _ _ _ _ _ _) => apply s_fft
    end].
  Ltac gof := cbv beta zeta; repeat (stepF; cbv beta).
  Lemma s_hermitian n f : ins f -> ins (hermitian n f). Proof. intros. unfold hermitian. gof. Qed.
  Lemma s_antihermitian n f : ins f -> ins (antihermitian n f). Proof. intros. unfold antihermitian. gof. Qed.
  Lemma s_rdft s n f : ins f -> ins (rdft pheq M s n f). Proof. intros. unfold rdft. gof. Qed.
  Lemma s_hdft s n f : ins f -> ins (hdft pheq M s n f). Proof. intros. unfold hdft. apply s_fft. now apply s_hermitian. Qed.
  Lemma s_rdftII s n f : ins f -> ins (rdftII pheq M s n f). Proof. intros. unfold rdftII. gof. Qed.
  Lemma s_hcdftIII s n f : ins f -> ins (hcdftIII pheq M s n f). Proof. intros. unfold hcdftIII. gof. Qed.
  Lemma s_twiddles cls nt : (forall c i, W (Constant c i)) -> ins (twiddle_array cls nt).
  Proof. intros K. unfold twiddle_array. apply s_array. intros l _. apply ino_some. split; intros v [= <-]; apply K. Qed.
  Lemma n_tc u a b : ino a -> ino b -> ino (tctimes pheq M u a b).
  Proof. intros. unfold tctimes. destruct u; [apply n_o2; auto|gof; assumption]. Qed.
  Lemma n_tcj u a b : ino a -> ino b -> ino (tctimesj pheq M u a b).
  Proof. intros. unfold tctimesj. destruct u; [apply n_o2; auto|gof; assumption]. Qed.
  Lemma s_mkby s u g f : ins g -> ins f -> ins (make_bytwiddle pheq M s u g f).
  Proof. intros. unfold make_bytwiddle. gof; first [apply n_tc|apply n_tcj]; gof. Qed.
  Lemma s_rec n body : (forall g, ins g -> ins (body g)) -> ins (rec_array n body).
  Proof.
    intros Hb. unfold rec_array. generalize (S (S (Z.to_nat n))). intros fu. induction fu as [|fu IH]; intros k; cbn [urec_array]; [apply ino_none|].
    apply Hb. apply s_array. intros j _. apply IH.
  Qed.
  Lemma s_bytw p u n s w f : ins w -> ins f -> ins (bytwiddle pheq M p u n s w f).
  Proof.
    intros Hw F. unfold bytwiddle. destruct p.
    - apply s_mkby; auto. gof.
    - apply s_mkby; auto. apply s_rec. intros g G. unfold log2_body. intros i. destruct (i =? 0); [gof|]. destruct (is_pow 2 i) as [[]|]; gof; apply n_tc; gof.
    - destruct (terms_needed 0 1 0 n); [|intros k; apply ino_none]. destruct (tpow 3 _); [|intros k; apply ino_none].
      apply s_mkby; auto. apply s_rec. intros g G. unfold log3_body. intros i. destruct (i =? 0); [gof|]. destruct (is_pow 3 i) as [[]|]; gof; first [apply n_tc|apply n_tcj]; gof.
  Qed.
  Lemma s_byw p u cls s n f : (forall c i, W (Constant c i)) -> ins f -> ins (byw pheq M p u cls s n f).
  Proof. intros K F. unfold byw. destruct (twidlen p n); [|intros k; apply ino_none]. apply s_bytw; auto. now apply s_twiddles. Qed.
End Inputs.
