(** * Correctness of dft_rader (genfft/fft.ml:81-160) *)
From Coq Require Import Reals ZArith Znumtheory List Lia Lra Bool.
From Verif Require Import NumTheory Cplx DftMath GenExpr GenCplx GenNum GenFft GenMath GenProofs.
Import ListNotations.
Open Scope Z_scope.

(** circular convolution through transforms of either sign *)
Lemma circ_conv_t t n a b k : t = 1 \/ t = -1 -> 0 < n ->
  Csum n (fun l => dft n a (t * l)%Z * dft n b (t * l)%Z * W n (l * (- t * k))%Z)%C =
  (RtoC (IZR n) * Csum n (fun j => a j * b ((k - j) mod n)%Z)%C)%C.
Proof.
  intros Ht Hn. rewrite <- cscal_RtoC, <- (circ_conv n a b k Hn).
  rewrite <- (Csum_reindex n (fun l => (t * l) mod n) (fun l => (dft n a l * dft n b l * W n (- (k * l))%Z)%C)).
  - apply Csum_ext. intros l Hl. cbn beta.
    rewrite !(dft_congr n _ ((t * l) mod n) (t * l)) by (auto; apply mod_div_sub; lia).
    f_equal. apply W_congr; [lia|]. destruct (mod_div_sub (t * l) n Hn) as (q & E). exists (k * q).
    replace ((t * l) mod n) with (t * l + q * n) by lia. ring.
  - intros i Hi. apply Z.mod_pos_bound. lia.
  - intros i j Hi Hj E. apply mod_eq_divide in E; [|lia]. apply (small_divide_eq n); auto.
    replace (t * i - t * j) with (t * (i - j)) in E by ring. destruct Ht as [-> | ->].
    + now rewrite Z.mul_1_l in E.
    + apply Z.divide_opp_r in E. now replace (- (-1 * (i - j))) with (i - j) in E by ring.
Qed.

Section Rader.
  Variable pheq : expr -> expr -> bool.
  Variable M : magic.
  Variable env : variable -> C.
  Hypothesis pheq_eq : forall a b, pheq a b = true -> a = b.
  Notation den := (den env).
  Variable rec : Z -> Z -> signal -> signal.
  Variable N : Z.
  Hypothesis Hrec : rec_ok env rec N.
  Variable s : bool.

  (** the convolution a pair (sum, conv) is meant to hold *)
  Definition conv_ok (n : Z) (a b : Z -> C) (c : C) (r : option ce * signal) : Prop :=
    den s (fst r) (Csum n a) /\
    forall k, 0 <= k < n -> den s (snd r k) (Csum n (fun j => a j * b ((k - j) mod n)%Z) + c)%C.

  Lemma make_product_ok n a b x y k : den s (a k) x -> den s (b k) y -> 0 <= k < n ->
    den s (make_product pheq M n a b k) (RtoC (1 / IZR n) * (x * y))%C.
  Proof.
    intros Ha Hb Hk. unfold make_product. rewrite array_in by auto. eapply den_eq.
    - apply (den_times pheq M env pheq_eq); [exact Ha|]. apply (den_times pheq M env pheq_eq); [apply den_inverse_int|exact Hb].
    - ring.
  Qed.
  Lemma dc_ok c cv i : den s c cv -> den s (dc_term c i) (if i =? 0 then cv else C0).
  Proof. intros H. unfold dc_term. destruct (i =? 0); [exact H|apply den_zero]. Qed.
  Lemma dc_sum n c (g : Z -> C) : 0 < n -> (g 0 = C1) -> Csum n (fun l => (if l =? 0 then c else C0) * g l)%C = c.
  Proof.
    intros Hn Hg. rewrite (Csum_delta n 0); [|lia|].
    - cbn. rewrite Hg. ring.
    - intros i Hi Hne. replace (i =? 0) with false by lia. ring.
  Qed.
  Lemma scale_n n z : 0 < n -> (RtoC (1 / IZR n) * (RtoC (IZR n) * z))%C = z.
  Proof. intros Hn. assert (IZR n <> 0%R) by (apply not_0_IZR; lia). apply C_eq; cbn; field; auto. Qed.
  (** the inverse transform of the product, with the extra constant *)
  Lemma conv_inverse n a b c k : 0 < n ->
    dft n (fun l => RtoC (1 / IZR n) * (dft n a (- (sg s * 1) * l)%Z * dft n b (- (sg s * 1) * l)%Z) + (if l =? 0 then c else C0))%C (- (sg s * -1) * k)%Z =
    (Csum n (fun j => a j * b ((k - j) mod n)%Z) + c)%C.
  Proof.
    intros Hn. rewrite dft_add. f_equal.
    - unfold dft at 1. rewrite <- (scale_n n (Csum n (fun j => a j * b ((k - j) mod n))%C)) by auto.
      rewrite <- (circ_conv_t (- sg s)) by (auto; destruct s; cbn; lia). rewrite <- Csum_mul_l.
      apply Csum_ext. intros l Hl. cbn beta. rewrite Z.mul_1_r. replace (- (sg s * -1)) with (- - sg s) by ring. ring.
    - unfold dft. apply dc_sum; auto. apply W_0.
  Qed.

  Lemma conv_by_fft_ok n a b c x y cv : 0 < n < N ->
    (forall j, 0 <= j < n -> den s (a j) (x j)) -> (forall j, 0 <= j < n -> den s (b j) (y j)) -> den s c cv ->
    conv_ok n x y cv (gen_convolution_by_fft pheq M rec n a b c).
  Proof.
    intros Hn Ha Hb Hc. unfold gen_convolution_by_fft. split; cbn [fst snd].
    - eapply den_eq; [apply (Hrec s 1 n x); auto; lia|]. rewrite Z.mul_0_r. unfold dft. apply Csum_ext. intros. rewrite Z.mul_0_r, W_0. ring.
    - intros k Hk. eapply den_eq; [|apply (conv_inverse n x y cv k); lia].
      apply Hrec; [now right|auto| |auto]. intros l Hl. rewrite array_in by auto.
      apply (den_plus pheq env pheq_eq); [|now apply dc_ok].
      apply make_product_ok; auto; apply Hrec; auto.
  Qed.

  Definition evenp (n : Z) (x : Z -> C) (i : Z) : C := (Chalf * (x i + x ((n - i) mod n)%Z))%C.
  Definition oddp (n : Z) (x : Z -> C) (i : Z) : C := (Chalf * (x i - x ((n - i) mod n)%Z))%C.
  Lemma even_odd n x i : (evenp n x i + oddp n x i)%C = x i.
  Proof. apply half_sum. Qed.
  Lemma dft_even_odd n x k : dft n x k = (dft n (evenp n x) k + dft n (oddp n x) k)%C.
  Proof. rewrite <- dft_add. apply dft_ext. intros j Hj. symmetry. apply even_odd. Qed.
  Lemma den_evenp n a x i : 0 < n -> (forall j, 0 <= j < n -> den s (a j) (x j)) -> 0 <= i < n ->
    den s (rhalf pheq M (oplus2 pheq (a i) (a (omod (n - i) n)))) (evenp n x i).
  Proof.
    intros Hn Ha Hi. rewrite omod_pos by lia. apply (den_times pheq M env pheq_eq); [apply den_inverse_int|].
    apply (den_plus pheq env pheq_eq); apply Ha; auto. apply Z.mod_pos_bound. lia.
  Qed.
  Lemma den_oddp n a x i : 0 < n -> (forall j, 0 <= j < n -> den s (a j) (x j)) -> 0 <= i < n ->
    den s (rhalf pheq M (ominus2 pheq (a i) (a (omod (n - i) n)))) (oddp n x i).
  Proof.
    intros Hn Ha Hi. rewrite omod_pos by lia. apply (den_times pheq M env pheq_eq); [apply den_inverse_int|].
    apply (den_minus pheq env pheq_eq); apply Ha; auto. apply Z.mod_pos_bound. lia.
  Qed.
  Lemma conv_by_fft_alt_ok n a b c x y cv : 0 < n < N ->
    (forall j, 0 <= j < n -> den s (a j) (x j)) -> (forall j, 0 <= j < n -> den s (b j) (y j)) -> den s c cv ->
    conv_ok n x y cv (gen_convolution_by_fft_alt pheq M rec n a b c).
  Proof.
    intros Hn Ha Hb Hc. unfold gen_convolution_by_fft_alt.
    set (ap := array n (fun i => rhalf pheq M (oplus2 pheq (a i) (a (omod (n - i) n))))).
    set (am := array n (fun i => rhalf pheq M (ominus2 pheq (a i) (a (omod (n - i) n))))).
    set (bp := array n (fun i => rhalf pheq M (oplus2 pheq (b i) (b (omod (n - i) n))))).
    set (bm := array n (fun i => rhalf pheq M (ominus2 pheq (b i) (b (omod (n - i) n))))).
    assert (Dap : forall k, 0 <= k < n -> den s (rec 1 n ap k) (dft n (evenp n x) (- (sg s * 1) * k))).
    { intros k Hk. apply Hrec; auto. intros i Hi. unfold ap. rewrite array_in by auto. apply den_evenp; auto; lia. }
    assert (Dam : forall k, 0 <= k < n -> den s (rec 1 n am k) (dft n (oddp n x) (- (sg s * 1) * k))).
    { intros k Hk. apply Hrec; auto. intros i Hi. unfold am. rewrite array_in by auto. apply den_oddp; auto; lia. }
    assert (Dbp : forall k, 0 <= k < n -> den s (rec 1 n bp k) (dft n (evenp n y) (- (sg s * 1) * k))).
    { intros k Hk. apply Hrec; auto. intros i Hi. unfold bp. rewrite array_in by auto. apply den_evenp; auto; lia. }
    assert (Dbm : forall k, 0 <= k < n -> den s (rec 1 n bm k) (dft n (oddp n y) (- (sg s * 1) * k))).
    { intros k Hk. apply Hrec; auto. intros i Hi. unfold bm. rewrite array_in by auto. apply den_oddp; auto; lia. }
    split; cbn [fst snd].
    - eapply den_eq; [apply (den_plus pheq env pheq_eq); [apply Dap|apply Dam]; lia|].
      rewrite <- dft_even_odd, Z.mul_0_r. unfold dft. apply Csum_ext. intros. rewrite Z.mul_0_r, W_0. ring.
    - intros k Hk. rewrite array_in by auto. eapply den_eq.
      + apply (den_plus pheq env pheq_eq); (apply Hrec; [now right|auto| |auto]); intros l Hl; rewrite array_in by auto.
        * apply (den_plus pheq env pheq_eq); [|apply dc_ok, Hc].
          apply (den_plus pheq env pheq_eq); apply make_product_ok; auto.
        * apply (den_plus pheq env pheq_eq); apply make_product_ok; auto.
      + rewrite <- dft_add. rewrite <- (conv_inverse n x y cv k) by lia. apply dft_ext. intros l Hl. cbn beta.
        rewrite (dft_even_odd n x), (dft_even_odd n y). ring.
  Qed.

  Variable sign : Z.
  Hypothesis Hsign : sign = 1 \/ sign = -1.
  Let T := - (sg s * sign).

  Lemma dft_rader_ok p x input k : prime p -> p <= N ->
    (forall j, 0 <= j < p -> den s (input j) (x j)) -> 0 <= k < p ->
    den s (dft_rader pheq M rec sign p input k) (dft p x (T * k)).
  Proof.
    intros Hp HN Hin Hk. pose proof (prime_ge_2 p Hp) as H2. unfold dft_rader.
    destruct (find_generator_ok p Hp) as (g & -> & Hg). pose proof Hg as [Hg1 _].
    rewrite pow_mod_ok by lia. set (ginv := g ^ (p - 2) mod p).
    assert (Hgi : ginv = g ^ (p - 2) mod p) by reflexivity.
    assert (Hgr : 1 <= ginv < p) by (exact (ginv_range p g ginv Hp Hg Hgi)).
    set (ip := array p (fun i => oidx input (pow_mod g i p))).
    set (op := array p (fun i => match pow_mod ginv i p with Some e => oexp p (sign * e) | None => None end)).
    set (gc := if p <=? alternate_convolution M then _ else _).
    assert (CV : conv_ok (p - 1) (fun i => x (gp p g i)) (fun i => W p (T * hp p ginv i)) (x 0) (gc (p - 1) ip op (input 0))).
    { assert (Da : forall j, 0 <= j < p - 1 -> den s (ip j) (x (gp p g j))).
      { intros j Hj. unfold ip. rewrite array_in by lia. rewrite pow_mod_ok by lia. cbn [oidx]. apply Hin.
        pose proof (gp_range p g ginv Hp Hg Hgi j ltac:(lia)). unfold gp in *. lia. }
      assert (Db : forall j, 0 <= j < p - 1 -> den s (op j) (W p (T * hp p ginv j))).
      { intros j Hj. unfold op. rewrite array_in by lia. rewrite pow_mod_ok by lia. apply dexp. lia. }
      unfold gc. destruct (p <=? alternate_convolution M); [apply conv_by_fft_alt_ok|apply conv_by_fft_ok]; auto; try lia; apply Hin; lia. }
    destruct (gc (p - 1) ip op (input 0)) as [sum conv]. destruct CV as [Csm Ccv]. cbn [fst snd] in Csm, Ccv.
    cbn [osig]. rewrite array_in by auto. destruct (k =? 0) eqn:E0.
    - apply Z.eqb_eq in E0. subst k. eapply den_eq; [apply (den_plus pheq env pheq_eq); [apply Hin; lia|exact Csm]|].
      rewrite (dft_rader_sum p g ginv Hp Hg Hgi). f_equal. apply Csum_ext. intros j Hj. rewrite !Z.mul_0_r, W_0. ring.
    - apply Z.eqb_neq in E0. destruct (hp_surj p g ginv Hp Hg Hgi k ltac:(lia)) as (i & Hi & Ei).
      rewrite (suchthat_ok _ i).
      + cbn [oidx]. eapply den_eq; [apply Ccv; auto|]. rewrite (dft_rader_sum p g ginv Hp Hg Hgi).
        replace (Csum (p - 1) (fun j => x (gp p g j) * W p (T * hp p ginv ((i - j) mod (p - 1))))%C)
          with (Csum (p - 1) (fun j => x (gp p g j) * W p (gp p g j * (T * k))%Z)%C); [ring|].
        apply Csum_ext. intros j Hj. f_equal. rewrite (hp_conv p g ginv Hp Hg Hgi) by lia. rewrite Ei.
        apply W_congr; [lia|]. replace (gp p g j * (T * k)) with (T * (gp p g j * k)) by ring.
        apply divide_scale. destruct (mod_div_sub (gp p g j * k) p ltac:(lia)) as (q & E). exists (- q). lia.
      + rewrite array_in by lia. rewrite pow_mod_ok by lia. cbn [option_map]. unfold hp in Ei. rewrite Ei.
        now rewrite Z.eqb_refl.
      + lia.
      + intros j Hj. rewrite array_in by lia. rewrite pow_mod_ok by lia. cbn [option_map]. f_equal.
        apply Z.eqb_neq. intros F. assert (j = i); [|lia]. apply (hp_inj p g ginv Hp Hg Hgi); try lia.
        unfold hp in *. lia.
      + lia.
  Qed.
End Rader.
