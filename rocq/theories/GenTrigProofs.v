(** * Correctness of the real transforms of genfft/trig.ml, gen_r2cf.ml and gen_r2cb.ml *)
From Coq Require Import Reals ZArith List Lia Lra Bool.
From Verif Require Import NumTheory Cplx SpecR2R RSum RMath GenExpr GenCplx GenFft GenNum GenMain GenTrig.
Import ListNotations.
Open Scope Z_scope.

Section Trig.
  Variable pheq : expr -> expr -> bool.
  Variable M : magic.
  Variable env : variable -> C.
  Hypothesis pheq_eq : forall a b, pheq a b = true -> a = b.
  Hypothesis Hmagic : magic_ok M.
  Notation fft := (fft_dft pheq M).
  Notation ev := (eval env).

  (** the computation succeeds, and its real and imaginary parts have the values a and b *)
  Definition denr (x : option ce) (a b : R) : Prop :=
    exists c, x = Some c /\ ev (re c) = RtoC a /\ ev (im c) = RtoC b.

  Lemma denr_eq x a b a' b' : denr x a b -> a = a' -> b = b' -> denr x a' b'.
  Proof. now intros H <- <-. Qed.
  Lemma denr_zero : denr (Some zzero) 0 0.
  Proof. exists zzero. auto. Qed.
  Lemma denr_real x a b : denr x a b -> denr (o1 zreal x) a 0.
  Proof. intros (c & -> & H1 & H2). eexists. split; [reflexivity|]. cbn. auto. Qed.
  Lemma denr_imag x a b : denr x a b -> denr (o1 zimag x) b 0.
  Proof. intros (c & -> & H1 & H2). eexists. split; [reflexivity|]. cbn. auto. Qed.
  Lemma denr_iimag x a b : denr x a b -> denr (o1 ziimag x) 0 b.
  Proof. intros (c & -> & H1 & H2). eexists. split; [reflexivity|]. cbn. auto. Qed.
  Lemma RtoC_opp a : (- RtoC a)%C = RtoC (- a).
  Proof. apply C_eq; cbn; ring. Qed.
  Lemma denr_conj x a b : denr x a b -> denr (o1 zconj x) a (- b).
  Proof. intros (c & -> & H1 & H2). eexists. split; [reflexivity|]. cbn. rewrite eval_makeUminus, H2, RtoC_opp. auto. Qed.
  Lemma denr_uminus x a b : denr x a b -> denr (o1 zuminus x) (- a) (- b).
  Proof. intros (c & -> & H1 & H2). eexists. split; [reflexivity|]. cbn. rewrite !eval_makeUminus, H1, H2, !RtoC_opp. auto. Qed.

  Lemma denr_den s x a b : denr x a b -> den env s x (RtoC a + csg s * RtoC b)%C.
  Proof. intros (c & -> & H1 & H2). exists c. split; auto. unfold evc. now rewrite H1, H2. Qed.
  Lemma den_denr x a b : (forall s, den env s x (RtoC a + csg s * RtoC b)%C) -> denr x a b.
  Proof.
    intros H. destruct (H true) as (c & E & V1). destruct (H false) as (c' & E' & V2). rewrite E in E'. injection E' as <-.
    exists c. split; auto. unfold evc, csg in V1, V2.
    destruct (ev (re c)) as [p q], (ev (im c)) as [u v]. cbn in V1, V2.
    unfold cadd, cmul, copp, Ci, RtoC in V1, V2; cbn [fst snd] in V1, V2.
    apply pair_equal_spec in V1 as [V1 V3]. apply pair_equal_spec in V2 as [V2 V4].
    split; apply C_eq; cbn; lra.
  Qed.
  Lemma denr_times x y a b c d : denr x a b -> denr y c d ->
    denr (otimes pheq M x y) (a * c - b * d) (a * d + b * c).
  Proof.
    intros H1 H2. apply den_denr. intros s.
    eapply den_eq; [apply den_times; eauto using denr_den|].
    apply C_eq; destruct s; cbn; ring.
  Qed.
  Lemma denr_times1 x c y d f : ev (re x) = RtoC c -> ev (im x) = RtoC 0 -> denr y d f ->
    denr (o1 (ztimes pheq M x) y) (c * d) (c * f).
  Proof.
    intros H1 H2 H3. assert (H : denr (otimes pheq M (Some x) y) (c * d - 0 * f) (c * f + 0 * d)).
    { apply denr_times; auto. exists x. auto. }
    destruct H3 as (e & -> & ?). eapply denr_eq; [exact H|ring|ring].
  Qed.
  Lemma denr_times_i y d e : denr y d e -> denr (o1 (ztimes pheq M zi) y) (- e) d.
  Proof.
    intros H3. assert (H : denr (otimes pheq M (Some zi) y) (0 * d - 1 * e) (0 * e + 1 * d)).
    { apply denr_times; auto. exists zi. auto. }
    destruct H3 as (c & -> & ?). eapply denr_eq; [exact H|ring|ring].
  Qed.
  Lemma denr_plus x y a b c d : denr x a b -> denr y c d ->
    denr (o2 (fun a b => zplus pheq [a; b]) x y) (a + c) (b + d).
  Proof.
    intros H1 H2. apply den_denr. intros s.
    eapply den_eq; [apply (den_plus pheq env pheq_eq); eauto using denr_den|].
    apply C_eq; destruct s; cbn; ring.
  Qed.

  (** the DFT of a signal with real parts a and imaginary parts b *)
  Theorem denr_fft sign n input a b k : sign = 1 \/ sign = -1 ->
    (forall j, 0 <= j < n -> denr (input j) (a j) (b j)) -> 0 <= k < n ->
    denr (fft sign n input k)
      (Rsum n (fun j => a j * cs n (j * k) - IZR sign * (b j * sn n (j * k)%Z))%R)
      (Rsum n (fun j => b j * cs n (j * k) + IZR sign * (a j * sn n (j * k)%Z))%R).
  Proof.
    intros Hs Hin Hk. apply den_denr. intros s.
    eapply den_eq.
    - apply (fft_dft_ok pheq M env pheq_eq Hmagic s sign n (fun j => RtoC (a j) + csg s * RtoC (b j))%C); auto.
      intros j Hj. apply denr_den. auto.
    - rewrite !Rsum_C, <- Csum_mul_l, <- Csum_add. unfold dft. apply Csum_ext. intros j Hj.
      replace (j * (- (sg s * sign) * k)) with (- (sg s * sign) * (j * k)) by ring.
      rewrite W_cs.
      destruct Hs as [->| ->]; destruct s; cbn [sg csg];
        (replace (- (1 * 1) * (j * k)) with (- (j * k)) by ring) ||
        (replace (- (-1 * 1) * (j * k)) with (j * k) by ring) ||
        (replace (- (1 * -1) * (j * k)) with (j * k) by ring) ||
        (replace (- (-1 * -1) * (j * k)) with (- (j * k)) by ring);
        rewrite ?cs_neg, ?sn_neg; apply C_eq; cbn; ring.
  Qed.
  (** only the real part *)
  Lemma denr_hermitian n input a b i : (forall j, 0 <= j -> 2 * j <= n -> denr (input j) (a j) (b j)) -> 0 <= i < n ->
    denr (hermitian n input i)
      (if 2 * i <=? n then a i else a (n - i))
      (if (i =? 0) || (2 * i =? n) then 0 else if 2 * i <? n then b i else - b (n - i)%Z).
  Proof.
    intros Hin Hi. unfold hermitian. rewrite array_in by auto.
    destruct (Z.eqb_spec i 0) as [->|N0]; cbn [orb].
    { destruct (Z.leb_spec (2 * 0) n); [|lia]. eapply denr_real. apply Hin; lia. }
    destruct (Z.ltb_spec i (n - i)).
    { destruct (Z.leb_spec (2 * i) n); [|lia]. destruct (Z.eqb_spec (2 * i) n); [lia|]. destruct (Z.ltb_spec (2 * i) n); [|lia]. apply Hin; lia. }
    destruct (Z.gtb_spec i (n - i)).
    { destruct (Z.leb_spec (2 * i) n); [lia|]. destruct (Z.eqb_spec (2 * i) n); [lia|]. destruct (Z.ltb_spec (2 * i) n); [lia|].
      apply denr_conj. apply Hin; lia. }
    destruct (Z.leb_spec (2 * i) n); [|lia]. destruct (Z.eqb_spec (2 * i) n); [|lia]. eapply denr_real. apply Hin; lia.
  Qed.
  Lemma denr_antihermitian n input a b i : (forall j, 0 <= j -> 2 * j <= n -> denr (input j) (a j) (b j)) -> 0 <= i < n ->
    denr (antihermitian n input i)
      (if (i =? 0) || (2 * i =? n) then 0 else if 2 * i <? n then a i else - a (n - i)%Z)
      (if 2 * i <=? n then b i else b (n - i)).
  Proof.
    intros Hin Hi. unfold antihermitian. rewrite array_in by auto.
    destruct (Z.eqb_spec i 0) as [->|N0]; cbn [orb].
    { destruct (Z.leb_spec (2 * 0) n); [|lia]. eapply denr_iimag. apply Hin; lia. }
    destruct (Z.ltb_spec i (n - i)).
    { destruct (Z.leb_spec (2 * i) n); [|lia]. destruct (Z.eqb_spec (2 * i) n); [lia|]. destruct (Z.ltb_spec (2 * i) n); [|lia]. apply Hin; lia. }
    destruct (Z.gtb_spec i (n - i)).
    { destruct (Z.leb_spec (2 * i) n); [lia|]. destruct (Z.eqb_spec (2 * i) n); [lia|]. destruct (Z.ltb_spec (2 * i) n); [lia|].
      eapply denr_eq; [apply denr_uminus, denr_conj, Hin; lia|reflexivity|ring]. }
    destruct (Z.leb_spec (2 * i) n); [|lia]. destruct (Z.eqb_spec (2 * i) n); [|lia]. eapply denr_iimag. apply Hin; lia.
  Qed.

  (** the transform of a hermitian signal of even length: the sum over half of it *)
  Theorem denr_fft_hermitian m input a b k : 0 < m ->
    (forall j, 0 <= j <= m -> denr (input j) (a j) (b j)) -> 0 <= k < 2 * m ->
    exists y, denr (fft 1 (2 * m) (hermitian (2 * m) input) k)
      (a 0%Z + a m * cs 2 k + 2 * Rsum (m - 1) (fun j => a (j + 1)%Z * cs (2 * m) ((j + 1) * k) - b (j + 1)%Z * sn (2 * m) ((j + 1) * k)%Z))%R y.
  Proof.
    intros Hm Hin Hk. eexists. eapply denr_eq; [apply denr_fft; [now left| |auto]|..].
    - intros j Hj. apply denr_hermitian; [|auto]. intros i Hi1 Hi2. apply Hin. lia.
    - cbn beta. rewrite (Rsum_pairs_even (2 * m) m) by lia.
      rewrite !Z.eqb_refl, orb_true_r. cbn [orb]. destruct (Z.leb_spec (2 * 0) (2 * m)); [|lia]. rewrite Z.leb_refl.
      change (0 * k) with 0. rewrite cs_0, (cs_2_mul m) by lia. rewrite <- Rsum_mul_l.
      replace (a 0%Z * 1 - 1 * (0 * sn (2 * m) 0) + (a m * cs (2 * m) (m * k) - 1 * (0 * sn (2 * m) (m * k))))%R
        with (a 0%Z + a m * cs (2 * m) (m * k))%R by ring. f_equal.
      apply Rsum_ext. intros j Hj.
      destruct (Z.leb_spec (2 * (j + 1)) (2 * m)); [|lia]. destruct (Z.leb_spec (2 * (2 * m - (j + 1))) (2 * m)); [lia|].
      destruct (Z.eqb_spec (j + 1) 0); [lia|]. destruct (Z.eqb_spec (2 * (j + 1)) (2 * m)); [lia|].
      destruct (Z.ltb_spec (2 * (j + 1)) (2 * m)); [|lia].
      destruct (Z.eqb_spec (2 * m - (j + 1)) 0); [lia|]. destruct (Z.eqb_spec (2 * (2 * m - (j + 1))) (2 * m)); [lia|].
      destruct (Z.ltb_spec (2 * (2 * m - (j + 1))) (2 * m)); [lia|]. cbn [orb].
      replace (2 * m - (2 * m - (j + 1))) with (j + 1) by ring.
      replace ((2 * m - (j + 1)) * k) with (- ((j + 1) * k) + 2 * m * k) by ring.
      rewrite cs_period, sn_period, cs_neg, sn_neg by lia. ring.
    - reflexivity.
  Qed.

  (** ** Folding sums *)
  Lemma fold_sym h F : 0 < h -> (forall j, 0 < j < h -> F (2 * h - j) = F j) ->
    Rsum (2 * h - 1) (fun j => F (j + 1)%Z) = (F h + 2 * Rsum (h - 1) (fun j => F (j + 1)%Z))%R.
  Proof.
    intros Hh HF. assert (E1 := Rsum_head (2 * h) F ltac:(lia)). assert (E2 := Rsum_pairs_even (2 * h) h F Hh eq_refl).
    rewrite (Rsum_ext (h - 1) _ (fun i => 2 * F (i + 1)%Z)%R) in E2.
    - rewrite Rsum_mul_l in E2. lra.
    - intros i Hi. rewrite (HF (i + 1)) by lia. ring.
  Qed.
  Lemma fold_odd h F : 0 < h -> (forall i, 0 <= i < h -> F (2 * i) = 0%R) ->
    Rsum (2 * h - 1) (fun j => F (j + 1)%Z) = Rsum h (fun i => F (2 * i + 1)%Z).
  Proof.
    intros Hh HF. assert (E1 := Rsum_head (2 * h) F ltac:(lia)). rewrite Rsum_even_odd in E1 by lia.
    rewrite (Rsum_zero h) in E1 by auto. assert (F0 : F 0 = 0%R) by (apply (HF 0); lia). rewrite F0 in E1. lra.
  Qed.
  (** reflection about pi * odd *)
  Lemma cs_reflect m j k : 0 < m -> cs (4 * m) ((2 * m - j) * (2 * k + 1)) = (- cs (4 * m) (j * (2 * k + 1)))%R.
  Proof.
    intros Hm. replace ((2 * m - j) * (2 * k + 1)) with (2 * m - j * (2 * k + 1) + 4 * m * k) by ring.
    rewrite cs_period by lia. rewrite cs_sub. replace (4 * m) with (2 * (2 * m)) at 1 3 by ring.
    rewrite cs_half, sn_half by lia. ring.
  Qed.
  Lemma sn_reflect m j k : 0 < m -> sn (4 * m) ((2 * m - j) * (2 * k + 1)) = sn (4 * m) (j * (2 * k + 1)).
  Proof.
    intros Hm. replace ((2 * m - j) * (2 * k + 1)) with (2 * m - j * (2 * k + 1) + 4 * m * k) by ring.
    rewrite sn_period by lia. rewrite sn_sub. replace (4 * m) with (2 * (2 * m)) at 1 3 by ring.
    rewrite cs_half, sn_half by lia. ring.
  Qed.
  Lemma cs_2_odd k : cs 2 (2 * k + 1) = (-1)%R.
  Proof. replace (2 * k + 1) with (1 + 2 * k) by ring. rewrite cs_period by lia. apply (cs_half 1). lia. Qed.

  (** ** The four trigonometric transforms, for input a + ib *)
  Lemma denr_interleave input a b n i : (forall j, 0 <= j < n -> denr (input j) (a j) (b j)) -> 0 <= i <= 2 * n ->
    denr (interleave_zero input i) (if Z.even i then 0 else a ((i - 1) / 2)) (if Z.even i then 0 else b ((i - 1) / 2)).
  Proof.
    intros Hin Hi. unfold interleave_zero. rewrite omod_pos by lia. rewrite Zmod_even.
    destruct (Z.even i) eqn:E; cbn [Z.eqb]; [apply denr_zero|].
    assert (O : Z.odd i = true) by (rewrite <- Z.negb_even, E; reflexivity). apply Z.odd_spec in O as (h & ->).
    replace (2 * h + 1 - 1) with (h * 2) by ring. rewrite odiv_pos by lia. rewrite Z.div_mul by lia. apply Hin. lia.
  Qed.

  Definition C4 (N q : Z) (a b : R) : R := (a * cs N q - b * sn N q)%R.

  Lemma trigII_ok n input a b k : 0 < n -> (forall j, 0 <= j < n -> denr (input j) (a j) (b j)) -> 0 <= k < 4 * n ->
    exists y, denr (trigII pheq M n input k) (2 * Rsum n (fun j => C4 (4 * n) ((2 * j + 1) * k) (a j) (b j))) y.
  Proof.
    intros Hn Hin Hk. unfold trigII. replace (4 * n) with (2 * (2 * n)) by ring.
    destruct (denr_fft_hermitian (2 * n) (interleave_zero input) (fun i => if Z.even i then 0%R else a ((i - 1) / 2))
      (fun i => if Z.even i then 0%R else b ((i - 1) / 2)) k ltac:(lia)) as (y & H); [|lia|].
    { intros j Hj. apply (denr_interleave input a b n); auto. }
    exists y. eapply denr_eq; [exact H| |reflexivity]. cbn beta.
    change (Z.even 0) with true. rewrite Z.even_mul. cbn [Z.even orb].
    set (F := fun i => ((if Z.even i then 0%R else a ((i - 1) / 2)%Z) * cs (2 * (2 * n)) (i * k) -
                        (if Z.even i then 0%R else b ((i - 1) / 2)%Z) * sn (2 * (2 * n)) (i * k)%Z)%R).
    rewrite (Rsum_ext (2 * n - 1) _ (fun j => F (j + 1)%Z)) by reflexivity.
    rewrite (fold_odd n F Hn).
    - rewrite Rmult_0_l, !Rplus_0_l. f_equal. apply Rsum_ext. intros i Hi. unfold F, C4.
      rewrite Z.even_add, Z.even_mul. cbn [Z.even orb Bool.eqb].
      replace (2 * i + 1 - 1) with (i * 2) by ring. rewrite Z.div_mul by lia. reflexivity.
    - intros i Hi. unfold F. rewrite Z.even_mul. cbn [Z.even orb]. ring.
  Qed.
  Lemma trigIII_ok n input a b k : 0 < n -> (forall j, 0 <= j <= n -> denr (input j) (a j) (b j)) -> 0 <= k < 2 * n ->
    exists y, denr (trigIII pheq M n input k)
      (2 * a 0%Z + 2 * (- (b n * sn (4 * n) (n * (2 * k + 1))) +
         2 * Rsum (n - 1) (fun j => C4 (4 * n) ((j + 1) * (2 * k + 1)) (a (j + 1)%Z) (b (j + 1)%Z))))%R y.
  Proof.
    intros Hn Hin Hk. unfold trigIII. replace (4 * n) with (2 * (2 * n)) by ring.
    set (A := fun i => if i =? 0 then a 0 else if i =? 2 * n then (- a 0%Z)%R else
                       if (i =? 0) || (2 * i =? 2 * n) then 0%R else if 2 * i <? 2 * n then a i else (- a (2 * n - i)%Z)%R).
    set (B := fun i => if i =? 0 then 0%R else if i =? 2 * n then (- 0)%R else if 2 * i <=? 2 * n then b i else b (2 * n - i)).
    destruct (denr_fft_hermitian (2 * n) (fun i =>
      if i =? 0 then o1 zreal (input 0)
      else if i =? 2 * n then o1 zuminus (o1 zreal (input 0))
      else antihermitian (2 * n) input i) A B (2 * k + 1) ltac:(lia)) as (y & H); [|lia|].
    { intros j Hj. unfold A, B. destruct (Z.eqb_spec j 0) as [->|N0].
      { eapply denr_real. apply Hin. lia. }
      destruct (Z.eqb_spec j (2 * n)) as [->|N1].
      { eapply denr_uminus, denr_real. apply Hin. lia. }
      assert (Ha := denr_antihermitian (2 * n) input a b j). destruct (Z.eqb_spec j 0) as [->|_] in Ha; [lia|].
      apply Ha; [|lia]. intros i Hi1 Hi2. apply Hin. lia. }
    exists y. eapply denr_eq; [exact H| |reflexivity]. cbn beta.
    assert (A0 : A 0 = a 0) by reflexivity.
    assert (A1 : A (2 * n) = (- a 0%Z)%R) by (unfold A; destruct (Z.eqb_spec (2 * n) 0); [lia|]; now rewrite Z.eqb_refl).
    rewrite A0, A1, cs_2_odd. replace (a 0%Z + - a 0%Z * -1)%R with (2 * a 0%Z)%R by ring. f_equal. f_equal.
    set (F := fun i => (A i * cs (2 * (2 * n)) (i * (2 * k + 1)) - B i * sn (2 * (2 * n)) (i * (2 * k + 1))%Z)%R).
    assert (FF : forall j, 0 < j < n -> A j = a j /\ B j = b j /\ A (2 * n - j) = (- a j)%R /\ B (2 * n - j) = b j).
    { intros j Hj. unfold A, B.
      destruct (Z.eqb_spec j 0); [lia|]. destruct (Z.eqb_spec j (2 * n)); [lia|]. destruct (Z.eqb_spec (2 * j) (2 * n)); [lia|].
      destruct (Z.ltb_spec (2 * j) (2 * n)); [|lia]. destruct (Z.leb_spec (2 * j) (2 * n)); [|lia].
      destruct (Z.eqb_spec (2 * n - j) 0); [lia|]. destruct (Z.eqb_spec (2 * n - j) (2 * n)); [lia|].
      destruct (Z.eqb_spec (2 * (2 * n - j)) (2 * n)); [lia|]. destruct (Z.ltb_spec (2 * (2 * n - j)) (2 * n)); [lia|].
      destruct (Z.leb_spec (2 * (2 * n - j)) (2 * n)); [lia|]. cbn [orb].
      replace (2 * n - (2 * n - j)) with j by ring. auto. }
    rewrite (Rsum_ext (2 * n - 1) _ (fun j => F (j + 1)%Z)) by reflexivity.
    rewrite (fold_sym n F Hn).
    - f_equal.
      + unfold F. assert (An : A n = 0%R /\ B n = b n).
        { unfold A, B. destruct (Z.eqb_spec n 0); [lia|]. destruct (Z.eqb_spec n (2 * n)); [lia|]. rewrite Z.eqb_refl, Z.leb_refl. auto. }
        destruct An as [-> ->]. ring.
      + f_equal. apply Rsum_ext. intros j Hj. unfold F, C4. destruct (FF (j + 1) ltac:(lia)) as (-> & -> & _). reflexivity.
    - intros j Hj. unfold F. destruct (FF j Hj) as (-> & -> & -> & ->).
      replace (2 * (2 * n)) with (4 * n) by ring. rewrite cs_reflect, sn_reflect by lia. ring.
  Qed.
  Lemma trigIV_ok n input a b k : 0 < n -> (forall j, 0 <= j < n -> denr (input j) (a j) (b j)) -> 0 <= k < 4 * n ->
    exists y, denr (trigIV pheq M n input k)
      (4 * Rsum n (fun j => C4 (8 * n) ((2 * j + 1) * (2 * k + 1)) (a j) (b j)))%R y.
  Proof.
    intros Hn Hin Hk. unfold trigIV. replace (8 * n) with (2 * (4 * n)) by ring.
    set (a' := fun i => if Z.even i then 0%R else a ((i - 1) / 2)).
    set (b' := fun i => if Z.even i then 0%R else b ((i - 1) / 2)).
    set (A := fun i => if i =? 4 * n then 0%R else
                       if (i =? 0) || (2 * i =? 4 * n) then 0%R else if 2 * i <? 4 * n then a' i else (- a' (4 * n - i)%Z)%R).
    set (B := fun i => if i =? 4 * n then 0%R else if 2 * i <=? 4 * n then b' i else b' (4 * n - i)).
    destruct (denr_fft_hermitian (4 * n) (zero_extend (4 * n) (antihermitian (4 * n) (interleave_zero input))) A B (2 * k + 1) ltac:(lia)) as (y & H); [|lia|].
    { intros j Hj. unfold A, B, zero_extend. destruct (Z.geb_spec j 0); [|lia]. cbn [andb].
      destruct (Z.eqb_spec j (4 * n)) as [->|N1].
      { rewrite Z.ltb_irrefl. apply denr_zero. }
      destruct (Z.ltb_spec j (4 * n)); [|lia].
      apply (denr_antihermitian (4 * n) _ a' b' j); [|lia]. intros i Hi1 Hi2. apply (denr_interleave input a b n); auto. lia. }
    exists y. eapply denr_eq; [exact H| |reflexivity]. cbn beta.
    assert (A0 : A 0 = 0%R) by (unfold A; destruct (Z.eqb_spec 0 (4 * n)); reflexivity).
    assert (A1 : A (4 * n) = 0%R) by (unfold A; now rewrite Z.eqb_refl).
    rewrite A0, A1, Rmult_0_l, !Rplus_0_l.
    set (F := fun i => (A i * cs (2 * (4 * n)) (i * (2 * k + 1)) - B i * sn (2 * (4 * n)) (i * (2 * k + 1))%Z)%R).
    assert (FF : forall j, 0 < j < 2 * n -> A j = a' j /\ B j = b' j /\ A (4 * n - j) = (- a' j)%R /\ B (4 * n - j) = b' j).
    { intros j Hj. unfold A, B.
      destruct (Z.eqb_spec j 0); [lia|]. destruct (Z.eqb_spec j (4 * n)); [lia|]. destruct (Z.eqb_spec (2 * j) (4 * n)); [lia|].
      destruct (Z.ltb_spec (2 * j) (4 * n)); [|lia]. destruct (Z.leb_spec (2 * j) (4 * n)); [|lia].
      destruct (Z.eqb_spec (4 * n - j) 0); [lia|]. destruct (Z.eqb_spec (4 * n - j) (4 * n)); [lia|].
      destruct (Z.eqb_spec (2 * (4 * n - j)) (4 * n)); [lia|]. destruct (Z.ltb_spec (2 * (4 * n - j)) (4 * n)); [lia|].
      destruct (Z.leb_spec (2 * (4 * n - j)) (4 * n)); [lia|]. cbn [orb].
      replace (4 * n - (4 * n - j)) with j by ring. auto. }
    replace (4 * n - 1) with (2 * (2 * n) - 1) by ring.
    rewrite (Rsum_ext (2 * (2 * n) - 1) _ (fun j => F (j + 1)%Z)) by reflexivity.
    rewrite (fold_sym (2 * n) F ltac:(lia)).
    - assert (F2 : F (2 * n) = 0%R).
      { unfold F. assert (An : A (2 * n) = 0%R /\ B (2 * n) = 0%R).
        { unfold A, B, b'. destruct (Z.eqb_spec (2 * n) (4 * n)); [lia|]. destruct (Z.eqb_spec (2 * n) 0); [lia|].
          destruct (Z.eqb_spec (2 * (2 * n)) (4 * n)); [|lia]. destruct (Z.leb_spec (2 * (2 * n)) (4 * n)); [|lia].
          rewrite Z.even_mul. auto. }
        destruct An as [-> ->]. ring. }
      rewrite F2, Rplus_0_l.
      rewrite (Rsum_ext (2 * n - 1) _ (fun j => (fun i => (a' i * cs (2 * (4 * n)) (i * (2 * k + 1)) - b' i * sn (2 * (4 * n)) (i * (2 * k + 1))%Z)%R) (j + 1)%Z)).
      2:{ intros j Hj. unfold F. destruct (FF (j + 1) ltac:(lia)) as (-> & -> & _). reflexivity. }
      rewrite (fold_odd n (fun i => (a' i * cs (2 * (4 * n)) (i * (2 * k + 1)) - b' i * sn (2 * (4 * n)) (i * (2 * k + 1))%Z)%R)) by
        (auto; intros i Hi; unfold a', b'; rewrite Z.even_mul; cbn [Z.even orb]; ring).
      rewrite (Rsum_ext n _ (fun j => C4 (2 * (4 * n)) ((2 * j + 1) * (2 * k + 1)) (a j) (b j))); [ring|].
      intros i Hi. unfold C4, a', b'. rewrite Z.even_add, Z.even_mul. cbn [Z.even orb Bool.eqb].
      replace (2 * i + 1 - 1) with (i * 2) by ring. rewrite Z.div_mul by lia. reflexivity.
    - intros j Hj. unfold F. replace (2 * (2 * n) - j) with (4 * n - j) by ring. destruct (FF j Hj) as (-> & -> & -> & ->).
      replace (2 * (4 * n)) with (4 * (2 * n)) by ring. replace (4 * n - j) with (2 * (2 * n) - j) by ring.
      rewrite cs_reflect, sn_reflect by lia. ring.
  Qed.
End Trig.
