(** * Correctness of the algorithms of genfft/fft.ml *)
From Coq Require Import Reals ZArith Znumtheory List Lia Lra Bool.
From Verif Require Import NumTheory Cplx DftMath GenExpr GenCplx GenNum GenFft GenMath.
Import ListNotations.
Open Scope Z_scope.

Lemma dft_congr n x a b : 0 < n -> (n | a - b) -> dft n x a = dft n x b.
Proof.
  intros Hn (q & E). unfold dft. apply Csum_ext. intros j Hj. f_equal. apply W_congr; [lia|].
  exists (j * q). nia.
Qed.
Lemma dft_add n x y k : dft n (fun i => x i + y i)%C k = (dft n x k + dft n y k)%C.
Proof. unfold dft. rewrite <- Csum_add. apply Csum_ext. intros. ring. Qed.
Lemma mod_div_sub k n : 0 < n -> (n | k mod n - k).
Proof. intros H. exists (- (k / n)). pose proof (Z.div_mod k n ltac:(lia)). lia. Qed.
Lemma divide_scale n t a b : (n | a - b) -> (n | t * a - t * b).
Proof. intros (q & E). exists (t * q). replace (t * a - t * b) with (t * (a - b)) by ring. rewrite E. ring. Qed.

Section Pf.
  Variable pheq : expr -> expr -> bool.
  Variable M : magic.
  Variable env : variable -> C.
  Hypothesis pheq_eq : forall a b, pheq a b = true -> a = b.
  Notation den := (den env).
  Variable rec : Z -> Z -> signal -> signal.
  Variable N : Z.
  Definition rec_ok (rec : Z -> Z -> signal -> signal) (N : Z) :=
    forall s sign n x input, sign = 1 \/ sign = -1 -> 0 < n < N ->
      (forall j, 0 <= j < n -> den s (input j) (x j)) ->
      forall k, 0 <= k < n -> den s (rec sign n input k) (dft n x (- (sg s * sign) * k)).
  Hypothesis Hrec : rec_ok rec N.
  Variable s : bool.
  Variable sign : Z.
  Hypothesis Hsign : sign = 1 \/ sign = -1.
  Let T := - (sg s * sign).

  Lemma T_cases : T = 1 \/ T = -1.
  Proof. unfold T. destruct s; cbn [sg]; lia. Qed.
  Lemma dexp n m : 0 < n -> den s (oexp n (sign * m)) (W n (T * m)).
  Proof.
    intros Hn. apply (den_eq env s _ _ _ (den_exp env s n (sign * m) Hn)). f_equal. unfold T. ring.
  Qed.
  Lemma dexp' n m e : 0 < n -> e = sign * m -> den s (oexp n e) (W n (T * m)).
  Proof. intros Hn ->. now apply dexp. Qed.

  (** ** cooley_tukey *)
  Lemma cooley_tukey_ok n n1 n2 x input k : n = n1 * n2 -> 0 < n1 < N -> 0 < n2 < N ->
    (forall j, 0 <= j < n -> den s (input j) (x j)) -> 0 <= k < n ->
    den s (cooley_tukey pheq M rec sign n n1 n2 input k) (dft n x (T * k)).
  Proof.
    intros -> H1 H2 Hin Hk. unfold cooley_tukey.
    rewrite omod_pos, odiv_pos by lia.
    set (a := k mod n1). set (b := k / n1).
    assert (Ha : 0 <= a < n1) by (apply Z.mod_pos_bound; lia).
    assert (Hb : 0 <= b < n2) by (split; [apply Z.div_pos; lia|apply Z.div_lt_upper_bound; lia]).
    pose proof (Z.div_mod k n1 ltac:(lia)) as Dk. fold a b in Dk.
    rewrite (array_in n1) by auto. cbn [osig].
    pose (y := fun i2 => (W (n1 * n2)%Z (T * (a * i2))%Z * dft n1 (fun i1 => x (i1 * n2 + i2)%Z) (T * a)%Z)%C).
    eapply den_eq.
    - apply (Hrec s sign n2 y); auto.
      intros i2 Hi2. rewrite (array_in n1) by auto. cbn [osig]. rewrite (array_in n2) by auto.
      apply (den_times pheq M env pheq_eq).
      + apply dexp'; [nia|ring].
      + rewrite (array_in n2) by auto. cbn [osig].
        apply (Hrec s sign n1 (fun i1 => x (i1 * n2 + i2))); auto.
        intros i1 Hi1. apply Hin. nia.
    - fold T. replace (T * k) with (T * b * n1 + T * a) by (rewrite Dk; ring).
      rewrite (Z.mul_comm n1 n2). rewrite Cplx.cooley_tukey by lia. apply dft_ext. intros i2 Hi2. unfold y.
      rewrite (Z.mul_comm n1 n2). replace (T * (a * i2)) with (i2 * (T * a)) by ring. ring.
  Qed.

  (** ** prime_factor *)
  Lemma prime_factor_ok n n1 n2 x input k : n = n1 * n2 -> 0 < n1 < N -> 0 < n2 < N -> Z.gcd n1 n2 = 1 ->
    (forall j, 0 <= j < n -> den s (input j) (x j)) -> 0 <= k < n ->
    den s (prime_factor rec sign n n1 n2 input k) (dft n x (T * k)).
  Proof.
    intros -> H1 H2 Hg Hin Hk. unfold prime_factor. rewrite !omod_pos by lia.
    pose proof (Z.mod_pos_bound k n1 ltac:(lia)) as Ha. pose proof (Z.mod_pos_bound k n2 ltac:(lia)) as Hb.
    rewrite (array_in n1) by auto. cbn [osig].
    pose (y := fun i2 => dft n1 (fun i1 => x ((i1 * n2 + i2 * n1) mod (n1 * n2))%Z) (T * (k mod n1))).
    eapply den_eq.
    - apply (Hrec s sign n2 y); auto.
      intros i2 Hi2. rewrite (array_in n2) by auto. cbn [osig].
      apply (Hrec s sign n1 (fun i1 => x ((i1 * n2 + i2 * n1) mod (n1 * n2)))); auto.
      intros i1 Hi1. rewrite omod_pos by nia. apply Hin. apply Z.mod_pos_bound. nia.
    - fold T. rewrite pfa_math by (auto; lia).
      rewrite (dft_congr n2 y (T * (k mod n2)) (T * k)) by (try lia; apply divide_scale, mod_div_sub; lia).
      apply dft_ext. intros i2 Hi2. unfold y. apply dft_congr; [lia|]. apply divide_scale, mod_div_sub. lia.
  Qed.

  (** ** split_radix_dit *)
  Lemma split_radix_dit_ok m x input k : 0 < m -> 4 * m <= N ->
    (forall j, 0 <= j < 4 * m -> den s (input j) (x j)) -> 0 <= k < 4 * m ->
    den s (split_radix_dit pheq M rec sign (4 * m) input k) (dft (4 * m) x (T * k)).
  Proof.
    intros Hm HN Hin Hk. unfold split_radix_dit.
    replace (odiv (4 * m) 2) with (2 * m) by (rewrite odiv_pos by lia; apply (Z.div_unique_pos _ _ _ 0); lia).
    replace (odiv (4 * m) 4) with m by (rewrite odiv_pos by lia; apply (Z.div_unique_pos _ _ _ 0); lia).
    rewrite !(array_in (4 * m)) by auto. rewrite !omod_pos by lia.
    pose proof (Z.mod_pos_bound k m ltac:(lia)) as Ha. pose proof (Z.mod_pos_bound k (2 * m) ltac:(lia)) as Hb.
    eapply den_eq.
    - apply (den_plus pheq env pheq_eq); [|apply (den_plus pheq env pheq_eq); apply (den_times pheq M env pheq_eq)].
      + apply (Hrec s sign (2 * m) (fun i => x (i * 2))); auto; [lia|]. intros j Hj. apply Hin. lia.
      + apply dexp. lia.
      + apply (Hrec s sign m (fun i => x (i * 4 + 1))); auto; [lia|]. intros j Hj. apply Hin. lia.
      + apply (dexp' (4 * m) (- k)); [lia|ring].
      + apply (Hrec s sign m (fun i => x ((4 * m + i * 4 - 1) mod (4 * m)))); auto; [lia|].
        intros j Hj. rewrite omod_pos by lia. apply Hin. apply Z.mod_pos_bound. lia.
    - fold T. rewrite (split_dit m x (T * k) Hm).
      rewrite (dft_congr (2 * m) _ (T * (k mod (2 * m))) (T * k)) by (try lia; apply divide_scale, mod_div_sub; lia).
      rewrite !(dft_congr m _ (T * (k mod m)) (T * k)) by (try lia; apply divide_scale, mod_div_sub; lia).
      replace (T * - k) with (- (T * k)) by ring. reflexivity.
  Qed.

  (** ** split_radix_dif *)
  Lemma split_radix_dif_ok m x input k : 0 < m -> 4 * m <= N ->
    (forall j, 0 <= j < 4 * m -> den s (input j) (x j)) -> 0 <= k < 4 * m ->
    den s (split_radix_dif pheq M rec sign (4 * m) input k) (dft (4 * m) x (T * k)).
  Proof.
    intros Hm HN Hin Hk. unfold split_radix_dif.
    replace (odiv (4 * m) 2) with (2 * m) by (rewrite odiv_pos by lia; apply (Z.div_unique_pos _ _ _ 0); lia).
    replace (odiv (4 * m) 4) with m by (rewrite odiv_pos by lia; apply (Z.div_unique_pos _ _ _ 0); lia).
    cbn zeta. rewrite (array_in (4 * m)) by auto. rewrite !omod_pos by lia.
    pose proof (Z.div_mod k 2 ltac:(lia)) as D2. pose proof (Z.mod_pos_bound k 2 ltac:(lia)) as B2.
    pose proof (Z.div_mod k 4 ltac:(lia)) as D4. pose proof (Z.mod_pos_bound k 4 ltac:(lia)) as B4.
    destruct (k mod 2 =? 0) eqn:E2.
    - apply Z.eqb_eq in E2. rewrite odiv_pos by lia. eapply den_eq.
      + apply (Hrec s sign (2 * m) (fun i => x i + x (i + 2 * m)%Z)%C); auto; [lia| |lia].
        intros j Hj. rewrite (array_in (2 * m)) by auto. apply (den_plus pheq env pheq_eq); apply Hin; lia.
      + fold T. pose proof (split_dif_even (2 * m) x (T * (k / 2)) ltac:(lia)) as P.
        replace (2 * (2 * m)) with (4 * m) in P by ring. rewrite <- P. f_equal.
        replace (2 * (T * (k / 2))) with (T * (2 * (k / 2))) by ring. f_equal. lia.
    - apply Z.eqb_neq in E2. set (k' := k mod 4) in *. rewrite (array_in 4) by lia. cbn [osig].
      replace (odiv (k - k') 4) with (k / 4) by (rewrite odiv_pos by lia; apply (Z.div_unique_pos _ _ _ 0); lia).
      assert (Hodd : exists h, T * k' = 2 * h + 1).
      { exists ((T * k') / 2). pose proof (Z.div_mod (T * k') 2 ltac:(lia)) as D. pose proof (Z.mod_pos_bound (T * k') 2 ltac:(lia)).
        assert ((T * k') mod 2 <> 0); [|lia]. intros F. destruct T_cases as [E|E]; rewrite E in *; lia. }
      destruct Hodd as (h & Hh).
      eapply den_eq.
      + apply (Hrec s sign m (fun i => W (4 * m)%Z (i * (2 * h + 1))%Z * ((x i - x (i + 2 * m)%Z) + W 4 (2 * h + 1)%Z * (x (i + m)%Z - x (i + 2 * m + m)%Z)))%C); auto; [lia| |lia].
        intros i Hi. rewrite !(array_in m) by auto.
        apply (den_times pheq M env pheq_eq).
        { rewrite <- Hh. eapply den_eq; [apply (dexp' (4 * m) (i * k')); [lia|ring]|f_equal; ring]. }
        apply (den_plus pheq env pheq_eq); [apply (den_minus pheq env pheq_eq); apply Hin; lia|].
        apply (den_times pheq M env pheq_eq); [|apply (den_minus pheq env pheq_eq); apply Hin; lia].
        rewrite <- Hh. apply dexp'; [lia|ring].
      + fold T. rewrite <- split_dif_odd by auto. f_equal. rewrite <- Hh.
        replace (4 * (T * (k / 4)) + T * k') with (T * (4 * (k / 4) + k')) by ring. f_equal. lia.
  Qed.

  (** ** dft_prime without Rader *)
  Lemma prime_sum_gen n x input filter i (w : Z -> C) :
    (forall j, 0 <= j < n -> den s (input j) (x j)) ->
    (forall j, 0 <= j < n -> den s (filter (oexp n (sign * i * j))) (w j)) ->
    den s (prime_sum pheq M sign n input filter i) (Csum n (fun j => x j * w j)%C).
  Proof.
    intros Hin Hw. unfold prime_sum. eapply den_eq.
    - apply (den_sigma pheq env pheq_eq) with (v := fun j => (w j * x j)%C). intros j Hj.
      apply (den_times pheq M env pheq_eq); [apply Hw; lia|apply Hin; lia].
    - rewrite Z.sub_0_r. apply Csum_ext. intros j Hj. rewrite Z.add_0_l. ring.
  Qed.
  Lemma computation_even_ok n x input k : 0 < n ->
    (forall j, 0 <= j < n -> den s (input j) (x j)) -> 0 <= k < n ->
    den s (computation_even pheq M sign n input k) (dft n x (T * k)).
  Proof.
    intros Hn Hin Hk. unfold computation_even. rewrite array_in by auto.
    eapply den_eq; [apply prime_sum_gen with (x := x) (w := fun j => W n (T * (k * j))); auto|].
    - intros j Hj. apply dexp'; [auto|ring].
    - unfold dft. apply Csum_ext. intros j Hj. do 2 f_equal. ring.
  Qed.
  Lemma half_sum a b : (Chalf * (a + b) + Chalf * (a - b))%C = a.
  Proof. replace (Chalf * (a + b) + Chalf * (a - b))%C with (Chalf * (a + a))%C by ring. apply Chalf2. Qed.
  Lemma half_diff a b : (Chalf * (a + b) - Chalf * (a - b))%C = b.
  Proof. replace (Chalf * (a + b) - Chalf * (a - b))%C with (Chalf * (b + b))%C by ring. apply Chalf2. Qed.
  Lemma sg_negb : sg (negb s) = - sg s. Proof. destruct s; reflexivity. Qed.
  Lemma dexpn n m e : 0 < n -> e = sign * m -> den (negb s) (oexp n e) (W n (- (T * m))).
  Proof.
    intros Hn ->. apply (den_eq env _ _ _ _ (den_exp env (negb s) n (sign * m) Hn)). f_equal. rewrite sg_negb. unfold T. ring.
  Qed.
  Lemma computation_odd_ok n x input k : 0 < n -> Z.odd n = true ->
    (forall j, 0 <= j < n -> den s (input j) (x j)) -> 0 <= k < n ->
    den s (computation_odd pheq M sign n input k) (dft n x (T * k)).
  Proof.
    intros Hn Ho Hin Hk. unfold computation_odd. rewrite array_in by auto. destruct (k =? 0) eqn:E0.
    - apply Z.eqb_eq in E0. subst k. rewrite odiv_pos by lia. eapply den_eq.
      + apply (den_plus pheq env pheq_eq); [apply Hin; lia|].
        apply (den_sigma pheq env pheq_eq) with (v := fun j => (x j + x (n - j)%Z)%C). intros j Hj.
        pose proof (Z.div_mod (n + 1) 2 ltac:(lia)). pose proof (Z.mod_pos_bound (n + 1) 2 ltac:(lia)).
        apply (den_plus pheq env pheq_eq); apply Hin; lia.
      + rewrite <- sum_pairs by auto. unfold dft. apply Csum_ext. intros j Hj. rewrite !Z.mul_0_r, W_0. ring.
    - apply Z.eqb_neq in E0. set (i' := Z.min k (n - k)). assert (Hi' : 0 <= i' < n) by lia.
      rewrite !(array_in n) by auto.
      assert (Dr : den s (prime_sum pheq M sign n input (o1 zreal) i') (Csum n (fun j => x j * (Chalf * (W n (T * (i' * j))%Z + W n (- (T * (i' * j)))%Z)))%C)).
      { apply prime_sum_gen; auto. intros j Hj. apply den_real; [apply dexp'; [auto|ring]|apply dexpn; [auto|ring]]. }
      assert (Di : den s (prime_sum pheq M sign n input (o1 (fun y => ztimes pheq M zi (zimag y))) i') (Csum n (fun j => x j * (Chalf * (W n (T * (i' * j))%Z - W n (- (T * (i' * j)))%Z)))%C)).
      { apply prime_sum_gen; auto. intros j Hj. apply (den_i_imag pheq M env pheq_eq); [apply dexp'; [auto|ring]|apply dexpn; [auto|ring]]. }
      destruct (k <? n - k) eqn:Ek.
      + eapply den_eq; [apply (den_plus pheq env pheq_eq); [exact Dr|exact Di]|]. rewrite <- Csum_add.
        apply Csum_ext. intros j Hj. cbn beta.
        rewrite <- (half_sum (W n (j * (T * k))) (W n (- (j * (T * k))))).
        replace (T * (i' * j)) with (j * (T * k)) by (replace i' with k by lia; ring). ring.
      + eapply den_eq; [apply (den_minus pheq env pheq_eq); [exact Dr|exact Di]|].
        replace (Csum n (fun j => x j * (Chalf * (W n (T * (i' * j))%Z + W n (- (T * (i' * j)))%Z)))%C - Csum n (fun j => x j * (Chalf * (W n (T * (i' * j))%Z - W n (- (T * (i' * j)))%Z)))%C)%C
          with (Csum n (fun j => x j * (Chalf * (W n (T * (i' * j))%Z + W n (- (T * (i' * j)))%Z)))%C + Csum n (fun j => - C1 * (x j * (Chalf * (W n (T * (i' * j))%Z - W n (- (T * (i' * j)))%Z))))%C)%C
          by (rewrite Csum_mul_l; ring).
        rewrite <- Csum_add. apply Csum_ext. intros j Hj. cbn beta.
        replace (W n (j * (T * k))) with (W n (- (T * (i' * j)))).
        * rewrite <- (half_diff (W n (T * (i' * j))) (W n (- (T * (i' * j))))) at 3. ring.
        * apply W_congr; [lia|]. exists (- (T * j)). replace i' with (n - k) by lia. ring.
  Qed.
End Pf.
