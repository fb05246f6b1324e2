(** * The transforms of genfft/trig.ml are the documented ones *)
From Coq Require Import Reals ZArith List Lia Lra Bool.
From Verif Require Import NumTheory Cplx SpecR2R RSum RMath HcMath GenExpr GenCplx GenFft GenNum GenMain GenTrig GenTrigProofs.
Import ListNotations.
Open Scope Z_scope.

Section Rk.
  Variable pheq : expr -> expr -> bool.
  Variable M : magic.
  Variable env : variable -> C.
  Hypothesis pheq_eq : forall a b, pheq a b = true -> a = b.
  Hypothesis Hmagic : magic_ok M.
  Notation denr := (denr env).
  Variables (n : Z) (input : signal) (x y : Z -> R).
  Hypothesis Hn : 0 < n.
  Hypothesis Hin : forall j, 0 <= j < n -> denr (input j) (x j) (y j).
  Let zx (f : Z -> R) (i : Z) : R := if (i >=? 0) && (i <? n) then f i else 0%R.

  Lemma zx_in f i : 0 <= i < n -> zx f i = f i.
  Proof. intros H. unfold zx. destruct (Z.geb_spec i 0); [|lia]. destruct (Z.ltb_spec i n); [|lia]. reflexivity. Qed.
  Lemma zx_out f i : i < 0 \/ n <= i -> zx f i = 0%R.
  Proof. intros H. unfold zx. destruct (Z.geb_spec i 0); [|reflexivity]. destruct (Z.ltb_spec i n); [lia|reflexivity]. Qed.
  Lemma denr_zext i : denr (zero_extend n input i) (zx x i) (zx y i).
  Proof.
    unfold zero_extend, zx. destruct (Z.geb_spec i 0); cbn [andb]; [|apply denr_zero].
    destruct (Z.ltb_spec i n); [|apply denr_zero]. apply Hin. lia.
  Qed.
  Lemma ev_half : eval env (re zhalf) = RtoC (1 / 2) /\ eval env (im zhalf) = RtoC 0.
  Proof. split; reflexivity. Qed.
  Lemma ev_one : eval env (re zone) = RtoC 1 /\ eval env (im zone) = RtoC 0.
  Proof. split; reflexivity. Qed.

  Lemma dct_in sc c i : eval env (re sc) = RtoC c /\ eval env (im sc) = RtoC 0 ->
    denr (o1 zreal (o1 (ztimes pheq M sc) (zero_extend n input i))) (c * zx x i) 0.
  Proof. intros [H1 H2]. eapply denr_real. apply denr_times1; eauto. apply denr_zext. Qed.
  Lemma dst_in sc c ks i : eval env (re sc) = RtoC c /\ eval env (im sc) = RtoC 0 ->
    denr (o1 zuminus (o1 (ztimes pheq M zi) (o1 (ztimes pheq M sc) (o1 zreal (shift ks (zero_extend n input) i)))))
      0 (- (c * zx x (i - ks))).
  Proof.
    intros [H1 H2]. eapply denr_eq.
    - apply denr_uminus. apply (denr_times_i pheq M env pheq_eq). eapply denr_times1; eauto. eapply denr_real. apply denr_zext.
    - ring.
    - reflexivity.
  Qed.

  Lemma rdft_ok sign k : sign = 1 \/ sign = -1 -> 0 <= k < n ->
    denr (rdft pheq M sign n input k) (Rsum n (fun j => x j * cs n (j * k))%R) (IZR sign * Rsum n (fun j => x j * sn n (j * k)%Z)%R).
  Proof.
    intros Hs Hk. unfold rdft. eapply denr_eq.
    - apply (denr_fft pheq M env pheq_eq Hmagic sign n _ x (fun _ => 0%R)); auto. intros j Hj. eapply denr_real, Hin. lia.
    - apply Rsum_ext. intros j Hj. ring.
    - rewrite <- Rsum_mul_l. apply Rsum_ext. intros j Hj. ring.
  Qed.
  Lemma dht_ok k : 0 <= k < n -> denr (dht pheq M 1 n input k) (Rsum n (fun j => x j * rk DHT n j k)%R) 0.
  Proof.
    intros Hk. unfold dht. assert (H := rdft_ok 1 k (or_introl eq_refl) Hk). unfold rdft in H.
    eapply denr_eq; [apply (denr_plus pheq env pheq_eq); [eapply denr_real, H|eapply denr_imag, H]| |ring].
    rewrite Rmult_1_l, <- Rsum_add. apply Rsum_ext. intros j Hj. rewrite rk_dht by auto. ring.
  Qed.
  Lemma dctI_ok k : 1 < n -> 0 <= k < n -> exists z, denr (dctI pheq M n input k) (Rsum n (fun j => x j * rk REDFT00 n j k)%R) z.
  Proof.
    intros H1 Hk. unfold dctI, make_dct, trigI.
    destruct (denr_fft_hermitian pheq M env pheq_eq Hmagic (n - 1) (fun i => o1 zreal (o1 (ztimes pheq M zone) (zero_extend n input i)))
      (fun i => 1 * zx x i)%R (fun _ => 0%R) k ltac:(lia)) as (z & H); [|lia|].
    { intros j Hj. apply dct_in, ev_one. }
    exists z. eapply denr_eq; [exact H| |reflexivity]. cbn beta. rewrite !zx_in by lia.
    rewrite (Rsum_head n) by auto. rewrite (Rsum_last (n - 1)) by lia. replace (n - 1 - 1 + 1) with (n - 1) by ring.
    rewrite rk_redft00_0, (rk_redft00_n n) by lia. rewrite (cs_2_mul (n - 1)) by lia.
    rewrite <- Rsum_mul_l. rewrite (Rsum_ext (n - 1 - 1) _ (fun i => x (i + 1)%Z * rk REDFT00 n (i + 1) k)%R); [ring|].
    intros j Hj. rewrite zx_in by lia. rewrite rk_redft00 by lia. ring.
  Qed.
  Lemma dctII_ok k : 0 <= k < n -> exists z, denr (dctII pheq M n input k) (Rsum n (fun j => x j * rk REDFT10 n j k)%R) z.
  Proof.
    intros Hk. unfold dctII, make_dct. rewrite Z.sub_0_r.
    destruct (trigII_ok pheq M env pheq_eq Hmagic n (fun i => o1 zreal (o1 (ztimes pheq M zone) (zero_extend n input i)))
      (fun i => 1 * zx x i)%R (fun _ => 0%R) k Hn) as (z & H); [|lia|].
    { intros j Hj. apply dct_in, ev_one. }
    exists z. eapply denr_eq; [exact H| |reflexivity]. rewrite <- Rsum_mul_l. apply Rsum_ext. intros j Hj.
    unfold C4. rewrite zx_in by auto. rewrite rk_redft10 by auto. ring.
  Qed.
  Lemma dctIII_ok k : 0 <= k < n -> exists z, denr (dctIII pheq M n input k) (Rsum n (fun j => x j * rk REDFT01 n j k)%R) z.
  Proof.
    intros Hk. unfold dctIII, make_dct. rewrite Z.sub_0_r.
    destruct (trigIII_ok pheq M env pheq_eq Hmagic n (fun i => o1 zreal (o1 (ztimes pheq M zhalf) (zero_extend n input i)))
      (fun i => 1 / 2 * zx x i)%R (fun _ => 0%R) k Hn) as (z & H); [|lia|].
    { intros j Hj. apply dct_in, ev_half. }
    exists z. eapply denr_eq; [exact H| |reflexivity]. cbn beta. rewrite zx_in by lia.
    rewrite (Rsum_head n) by auto. rewrite rk_redft01_0.
    rewrite (Rsum_ext (n - 1) _ (fun j => / 4 * (x (j + 1)%Z * rk REDFT01 n (j + 1) k))%R).
    - rewrite Rsum_mul_l. field.
    - intros j Hj. unfold C4. rewrite zx_in by lia. rewrite rk_redft01 by lia. field.
  Qed.
  Lemma dctIV_ok k : 0 <= k < n -> exists z, denr (dctIV pheq M n input k) (Rsum n (fun j => x j * rk REDFT11 n j k)%R) z.
  Proof.
    intros Hk. unfold dctIV, make_dct. rewrite Z.sub_0_r.
    destruct (trigIV_ok pheq M env pheq_eq Hmagic n (fun i => o1 zreal (o1 (ztimes pheq M zhalf) (zero_extend n input i)))
      (fun i => 1 / 2 * zx x i)%R (fun _ => 0%R) k Hn) as (z & H); [|lia|].
    { intros j Hj. apply dct_in, ev_half. }
    exists z. eapply denr_eq; [exact H| |reflexivity]. rewrite <- Rsum_mul_l. apply Rsum_ext. intros j Hj.
    unfold C4. rewrite zx_in by auto. rewrite rk_redft11 by auto. field.
  Qed.
  Lemma dstI_ok k : 0 <= k < n -> denr (dstI pheq M n input k) (Rsum n (fun j => x j * rk RODFT00 n j k)%R) 0.
  Proof.
    intros Hk. unfold dstI, make_dst, trigI, shift at 1. replace (k - -1) with (k + 1) by ring.
    destruct (denr_fft_hermitian pheq M env pheq_eq Hmagic (n + 1) (fun i => o1 zuminus (o1 (ztimes pheq M zi) (o1 (ztimes pheq M zone)
       (o1 zreal (shift 1 (zero_extend n input) i))))) (fun i => 0%R) (fun i => - (1 * zx x (i - 1)%Z))%R (k + 1) ltac:(lia)) as (z & H); [|lia|].
    { intros j Hj. apply dst_in, ev_one. }
    eapply denr_eq; [eapply denr_real, H| |reflexivity]. cbn beta. replace (n + 1 - 1) with n by ring.
    rewrite <- Rsum_mul_l. rewrite Rmult_0_l, !Rplus_0_l. apply Rsum_ext. intros j Hj.
    replace (j + 1 - 1) with j by ring. rewrite zx_in by auto. rewrite rk_rodft00 by auto. ring.
  Qed.
  Lemma dstII_ok k : 0 <= k < n -> denr (dstII pheq M n input k) (Rsum n (fun j => x j * rk RODFT10 n j k)%R) 0.
  Proof.
    intros Hk. unfold dstII, make_dst, shift at 1. replace (k - -1) with (k + 1) by ring. rewrite Z.add_0_r.
    destruct (trigII_ok pheq M env pheq_eq Hmagic n (fun i => o1 zuminus (o1 (ztimes pheq M zi) (o1 (ztimes pheq M zone)
       (o1 zreal (shift 0 (zero_extend n input) i))))) (fun i => 0%R) (fun i => - (1 * zx x (i - 0)%Z))%R (k + 1) Hn) as (z & H); [|lia|].
    { intros j Hj. apply dst_in, ev_one. }
    eapply denr_eq; [eapply denr_real, H| |reflexivity]. rewrite <- Rsum_mul_l. apply Rsum_ext. intros j Hj.
    unfold C4. rewrite Z.sub_0_r, zx_in by auto. rewrite rk_rodft10 by auto. ring.
  Qed.
  Lemma rk_rodft01_last k : rk RODFT01 n (n - 1) k = sn (4 * n) (n * (2 * k + 1)).
  Proof.
    unfold rk. rewrite Z.eqb_refl. rewrite cos_PI_Z.
    replace (n * (2 * k + 1)) with (n + 2 * n * k) by ring. rewrite sn_add, cs_quarter, sn_quarter by lia.
    replace (4 * n) with (2 * n * 2) by ring. rewrite cs_scale by lia. ring.
  Qed.
  Lemma rk_rodft01 j k : j <> n - 1 -> rk RODFT01 n j k = (2 * sn (4 * n) ((j + 1) * (2 * k + 1)))%R.
  Proof.
    intros H. unfold rk. destruct (Z.eqb_spec j (n - 1)); [lia|]. f_equal. apply sn_eq. repeat rewrite ?mult_IZR, ?plus_IZR. field.
    apply not_0_IZR. lia.
  Qed.
  Lemma dstIII_ok k : 0 <= k < n -> denr (dstIII pheq M n input k) (Rsum n (fun j => x j * rk RODFT01 n j k)%R) 0.
  Proof.
    intros Hk. unfold dstIII, make_dst, shift at 1. replace (k - -0) with k by ring. rewrite Z.add_0_r.
    destruct (trigIII_ok pheq M env pheq_eq Hmagic n (fun i => o1 zuminus (o1 (ztimes pheq M zi) (o1 (ztimes pheq M zhalf)
       (o1 zreal (shift 1 (zero_extend n input) i))))) (fun i => 0%R) (fun i => - (1 / 2 * zx x (i - 1)%Z))%R k Hn) as (z & H); [|lia|].
    { intros j Hj. apply dst_in, ev_half. }
    eapply denr_eq; [eapply denr_real, H| |reflexivity]. cbn beta. rewrite (Rsum_last n) by auto.
    rewrite rk_rodft01_last. rewrite (zx_in x (n - 1)) by lia.
    rewrite (Rsum_ext (n - 1) _ (fun j => / 4 * (x j * rk RODFT01 n j k))%R).
    - rewrite Rsum_mul_l. field.
    - intros j Hj. unfold C4. replace (j + 1 - 1) with j by ring. rewrite zx_in by lia. rewrite rk_rodft01 by lia. field.
  Qed.
  Lemma dstIV_ok k : 0 <= k < n -> denr (dstIV pheq M n input k) (Rsum n (fun j => x j * rk RODFT11 n j k)%R) 0.
  Proof.
    intros Hk. unfold dstIV, make_dst, shift at 1. replace (k - -0) with k by ring. rewrite Z.add_0_r.
    destruct (trigIV_ok pheq M env pheq_eq Hmagic n (fun i => o1 zuminus (o1 (ztimes pheq M zi) (o1 (ztimes pheq M zhalf)
       (o1 zreal (shift 0 (zero_extend n input) i))))) (fun i => 0%R) (fun i => - (1 / 2 * zx x (i - 0)%Z))%R k Hn) as (z & H); [|lia|].
    { intros j Hj. apply dst_in, ev_half. }
    eapply denr_eq; [eapply denr_real, H| |reflexivity]. rewrite <- Rsum_mul_l. apply Rsum_ext. intros j Hj.
    unfold C4. rewrite Z.sub_0_r, zx_in by auto. rewrite rk_rodft11 by auto. field.
  Qed.
End Rk.

Section Hc.
  Variable pheq : expr -> expr -> bool.
  Variable M : magic.
  Variable env : variable -> C.
  Hypothesis pheq_eq : forall a b, pheq a b = true -> a = b.
  Hypothesis Hmagic : magic_ok M.
  Notation denr := (denr env).

  (** the halfcomplex array whose real parts are a and imaginary parts are b *)
  Definition hc_arr (n : Z) (a b : Z -> R) (j : Z) : R := if 2 * j <=? n then a j else b (n - j).
  Lemma hdft_ok n input a b k : 0 < n -> (forall j, 0 <= j -> 2 * j <= n -> denr (input j) (a j) (b j)) -> 0 <= k < n ->
    exists z, denr (hdft pheq M 1 n input k) (Rsum n (fun j => hc_arr n a b j * rk HC2R n j k)%R) z.
  Proof.
    intros Hn Hin Hk. unfold hdft. eexists. eapply denr_eq.
    - apply (denr_fft pheq M env pheq_eq Hmagic); [now left| |auto]. intros j Hj. apply denr_hermitian; eauto.
    - apply Rsum_pair_eq; auto.
      + cbn [Z.eqb orb]. unfold hc_arr. destruct (Z.leb_spec (2 * 0) n); [|lia]. rewrite rk_hc2r_0. change (0 * k) with 0. rewrite cs_0. ring.
      + intros i Hi H2. unfold hc_arr.
        destruct (Z.leb_spec (2 * i) n); [|lia]. destruct (Z.leb_spec (2 * (n - i)) n); [lia|].
        destruct (Z.eqb_spec i 0); [lia|]. destruct (Z.eqb_spec (2 * i) n); [lia|]. destruct (Z.ltb_spec (2 * i) n); [|lia].
        destruct (Z.eqb_spec (n - i) 0); [lia|]. destruct (Z.eqb_spec (2 * (n - i)) n); [lia|]. destruct (Z.ltb_spec (2 * (n - i)) n); [lia|].
        cbn [orb]. rewrite rk_hc2r_re, rk_hc2r_im by lia. replace (n - (n - i)) with i by ring.
        replace ((n - i) * k) with (- (i * k) + n * k) by ring. rewrite cs_period, sn_period, cs_neg, sn_neg by lia. ring.
      + intros i Hi H2. unfold hc_arr. destruct (Z.leb_spec (2 * i) n); [|lia]. destruct (Z.eqb_spec (2 * i) n); [|lia].
        rewrite orb_true_r. rewrite rk_hc2r_mid by lia. ring.
    - reflexivity.
  Qed.
  Definition hc3_arr (n : Z) (a b : Z -> R) (j : Z) : R := if 2 * j <=? n - 1 then a j else b (n - 1 - j).
  Lemma hcdftIII_ok n input a b k : 0 < n -> (forall j, 0 <= j -> 2 * j <= n - 1 -> denr (input j) (a j) (b j)) -> 0 <= k < n ->
    exists z, denr (hcdftIII pheq M 1 n input k) (Rsum n (fun j => hc3_arr n a b j * rk HC2RIII n j k)%R) z.
  Proof.
    intros Hn Hin Hk. unfold hcdftIII.
    set (A := fun i => if 2 * i <=? n - 1 then a i else a (n - 1 - i)).
    set (B := fun i => if 2 * i =? n - 1 then 0%R else if 2 * i <? n - 1 then b i else (- b (n - 1 - i)%Z)%R).
    eexists. eapply denr_eq.
    - apply (denr_fft pheq M env pheq_eq Hmagic 1 (2 * n) _ (fun i => if Z.even i then 0%R else A ((i - 1) / 2))
        (fun i => if Z.even i then 0%R else B ((i - 1) / 2))); [now left| |lia].
      intros i Hi. rewrite omod_pos by lia. rewrite Zmod_even.
      destruct (Z.even i) eqn:E; cbn [Z.eqb]; [apply denr_zero|].
      assert (O : Z.odd i = true) by (rewrite <- Z.negb_even, E; reflexivity). apply Z.odd_spec in O as (h & ->).
      replace (2 * h + 1 - 1) with (h * 2) by ring. rewrite odiv_pos by lia. rewrite Z.div_mul by lia. unfold A, B.
      destruct (Z.ltb_spec (2 * h) (n - 1)).
      { destruct (Z.leb_spec (2 * h) (n - 1)); [|lia]. destruct (Z.eqb_spec (2 * h) (n - 1)); [lia|]. apply Hin; lia. }
      destruct (Z.eqb_spec (2 * h) (n - 1)).
      { destruct (Z.leb_spec (2 * h) (n - 1)); [|lia]. eapply denr_real. apply Hin; lia. }
      destruct (Z.leb_spec (2 * h) (n - 1)); [lia|]. apply denr_conj. apply Hin; lia.
    - rewrite Rsum_even_odd by lia. rewrite (Rsum_zero n).
      2:{ intros i Hi. rewrite Z.even_mul. cbn [Z.even orb]. ring. }
      rewrite Rplus_0_l.
      rewrite (Rsum_ext n _ (fun i => A i * cs (2 * n) ((2 * i + 1) * k) - B i * sn (2 * n) ((2 * i + 1) * k)%Z)%R).
      2:{ intros i Hi. rewrite Z.even_add, Z.even_mul. cbn [Z.even orb Bool.eqb].
          replace (2 * i + 1 - 1) with (i * 2) by ring. rewrite Z.div_mul by lia. ring. }
      assert (P : forall f g, (forall i, 0 <= i < n -> (f i + f (n - 1 - i)%Z = g i + g (n - 1 - i)%Z)%R) -> Rsum n f = Rsum n g).
      { intros f g H. assert (E : forall h, Rsum n h = (/ 2 * Rsum n (fun i => h i + h (n - 1 - i)%Z))%R).
        { intros h. rewrite Rsum_add, Rsum_rev. lra. }
        rewrite (E f), (E g). f_equal. apply Rsum_ext. auto. }
      assert (Q : forall i, 0 <= i < n -> 2 * i <= n - 1 ->
        (A i * cs (2 * n) ((2 * i + 1) * k) - B i * sn (2 * n) ((2 * i + 1) * k)%Z +
          (A (n - 1 - i)%Z * cs (2 * n) ((2 * (n - 1 - i) + 1) * k) - B (n - 1 - i)%Z * sn (2 * n) ((2 * (n - 1 - i) + 1) * k)%Z) =
         hc3_arr n a b i * rk HC2RIII n i k + hc3_arr n a b (n - 1 - i)%Z * rk HC2RIII n (n - 1 - i) k)%R).
      { intros i Hi L. unfold A, B, hc3_arr.
        replace ((2 * (n - 1 - i) + 1) * k) with (- ((2 * i + 1) * k) + 2 * n * k) by ring.
        rewrite cs_period, sn_period, cs_neg, sn_neg by lia. replace (n - 1 - (n - 1 - i)) with i by ring.
        destruct (Z.leb_spec (2 * i) (n - 1)); [|lia].
        destruct (Z.eq_dec (2 * i) (n - 1)) as [E|E].
        - replace (n - 1 - i) with i by lia. destruct (Z.leb_spec (2 * i) (n - 1)); [|lia].
          destruct (Z.eqb_spec (2 * i) (n - 1)); [|lia]. rewrite rk_hc2riii_mid by lia. ring.
        - destruct (Z.leb_spec (2 * (n - 1 - i)) (n - 1)); [lia|].
          destruct (Z.eqb_spec (2 * i) (n - 1)); [lia|]. destruct (Z.ltb_spec (2 * i) (n - 1)); [|lia].
          destruct (Z.eqb_spec (2 * (n - 1 - i)) (n - 1)); [lia|]. destruct (Z.ltb_spec (2 * (n - 1 - i)) (n - 1)); [lia|].
          rewrite rk_hc2riii_re, rk_hc2riii_im by lia. replace (n - 1 - (n - 1 - i)) with i by ring. ring. }
      apply P. intros i Hi. destruct (Z_le_gt_dec (2 * i) (n - 1)) as [L|L]; [apply Q; auto|].
      assert (H := Q (n - 1 - i) ltac:(lia) ltac:(lia)). replace (n - 1 - (n - 1 - i)) with i in H by ring. lra.
    - reflexivity.
  Qed.
  Lemma rdftII_ok sign n input x k : sign = 1 \/ sign = -1 -> 0 < n -> (forall j, 0 <= j < n -> denr (input j) (x j) 0) -> 0 <= k -> 2 * k < n ->
    denr (rdftII pheq M sign n input k)
      (Rsum n (fun j => x j * cs (2 * n) ((2 * k + 1) * j))%R) (IZR sign * Rsum n (fun j => x j * sn (2 * n) ((2 * k + 1) * j)%Z)%R).
  Proof.
    intros Hs Hn Hin Hk Hk2. unfold rdftII. destruct (Z.ltb_spec k (n - k)); [|lia].
    eapply denr_eq.
    - apply (denr_fft pheq M env pheq_eq Hmagic sign (2 * n) _ (fun i => if i <? n then x i else 0%R) (fun _ => 0%R)); [auto| |lia].
      intros j Hj. destruct (Z.ltb_spec j n); [apply Hin; lia|apply denr_zero].
    - replace (2 * n) with (n + n) at 1 by ring. rewrite Rsum_app by lia. rewrite <- (Rplus_0_r (Rsum n (fun j => x j * _)%R)). f_equal.
      + apply Rsum_ext. intros j Hj. destruct (Z.ltb_spec j n); [|lia]. replace (j * (2 * k + 1)) with ((2 * k + 1) * j) by ring. ring.
      + apply Rsum_zero. intros i Hi. destruct (Z.ltb_spec (n + i) n); [lia|]. ring.
    - rewrite <- Rsum_mul_l. replace (2 * n) with (n + n) at 1 by ring. rewrite Rsum_app by lia.
      rewrite <- (Rplus_0_r (Rsum n (fun j => IZR sign * _)%R)). f_equal.
      + apply Rsum_ext. intros j Hj. destruct (Z.ltb_spec j n); [|lia]. replace (j * (2 * k + 1)) with ((2 * k + 1) * j) by ring. ring.
      + apply Rsum_zero. intros i Hi. destruct (Z.ltb_spec (n + i) n); [lia|]. ring.
  Qed.
End Hc.
