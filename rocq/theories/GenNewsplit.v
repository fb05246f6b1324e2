(** * Correctness of newsplit (genfft/fft.ml:165-239): the rescaled conjugate-pair split radix *)
From Coq Require Import Reals ZArith Znumtheory List Lia Lra Bool.
From Verif Require Import NumTheory Cplx DftMath GenExpr GenCplx GenNum GenFft GenMath GenProofs.
Import ListNotations.
Open Scope Z_scope.

Definition two (e : nat) : Z := 2 ^ Z.of_nat e.
Lemma two_S e : two (S e) = 2 * two e.
Proof. unfold two. rewrite Nat2Z.inj_succ, Z.pow_succ_r by lia. reflexivity. Qed.
Lemma two_SS e : two (S (S e)) = 4 * two e.
Proof. rewrite !two_S. ring. Qed.
Lemma two_pos e : 0 < two e.
Proof. unfold two. apply Z.pow_pos_nonneg; lia. Qed.
Lemma two_gt e : Z.of_nat e < two e.
Proof. unfold two. apply Z.pow_gt_lin_r; lia. Qed.

(** distance to the nearest multiple of q *)
Definition dist (q k : Z) : Z := Z.min (k mod q) (q - k mod q).
Lemma dist_cong q k l : (q | k - l) -> 0 < q -> dist q k = dist q l.
Proof. intros H Hq. unfold dist. apply mod_eq_divide in H; auto. now rewrite H. Qed.
Lemma dist_opp q k : 0 < q -> dist q (- k) = dist q k.
Proof.
  intros Hq. unfold dist. destruct (Z.eq_dec (k mod q) 0) as [E|E].
  - now rewrite Z.mod_opp_l_z by lia; rewrite E.
  - rewrite Z.mod_opp_l_nz by lia. lia.
Qed.
Lemma dist_range q k : 0 < q -> 0 <= dist q k /\ 2 * dist q k <= q.
Proof. intros Hq. unfold dist. pose proof (Z.mod_pos_bound k q Hq). lia. Qed.
Lemma dist_pm q k : 0 < q -> (q | dist q k - k) \/ (q | dist q k + k).
Proof.
  intros Hq. unfold dist. pose proof (Z.div_mod k q ltac:(lia)).
  destruct (Z.min_spec (k mod q) (q - k mod q)) as [[_ ->]|[_ ->]].
  - left. exists (- (k / q)). lia.
  - right. exists (k / q + 1). lia.
Qed.
Lemma dist_abs q k : 0 < q -> dist q (Z.abs k) = dist q k.
Proof. intros Hq. destruct (Z.abs_spec k) as [[_ ->]|[_ ->]]; auto. now apply dist_opp. Qed.
Lemma k4_dist q h k : 0 < q -> (q = 2 * h \/ (q = 1 /\ h = 0)) ->
  (let k4 := omod (Z.abs k) q in if k4 <=? h then k4 else q - k4) = dist q k.
Proof.
  intros Hq Hh. cbn zeta. rewrite omod_pos by lia. rewrite <- dist_abs by auto. unfold dist.
  pose proof (Z.mod_pos_bound (Z.abs k) q Hq). destruct Hh as [E|[E1 E2]].
  - destruct (Z.abs k mod q <=? h) eqn:El; lia.
  - destruct (Z.abs k mod q <=? h) eqn:El; lia.
Qed.
Lemma k4p_dist e k : k4p (4 * two e) k = dist (two e) k.
Proof.
  unfold k4p. pose proof (two_pos e).
  replace (odiv (4 * two e) 4) with (two e) by (rewrite odiv_pos by lia; apply (Z.div_unique_pos _ _ _ 0); lia).
  destruct e as [|e].
  - apply (k4_dist (two 0) (odiv (4 * two 0) 8)); [lia|]. right. split; reflexivity.
  - apply k4_dist; auto. left. rewrite two_S. pose proof (two_pos e). rewrite odiv_pos by lia.
    replace (4 * (2 * two e) / 8) with (two e); [reflexivity|]. apply (Z.div_unique_pos _ _ _ 0); lia.
Qed.

(** the factor s(4q,k) / s(q,k), q = 2^e *)
Definition cs (e : nat) (k : Z) : R := cos (2 * PI * IZR (dist (two e) k) / IZR (4 * two e)).
Lemma cs_pos e k : (0 < cs e k)%R.
Proof.
  unfold cs. pose proof (two_pos e) as H. destruct (dist_range (two e) k H) as [D1 D2].
  assert (Hq : (0 < IZR (two e))%R) by (apply IZR_lt; lia).
  assert (D1' : (0 <= IZR (dist (two e) k))%R) by (apply IZR_le; lia).
  assert (D2' : (2 * IZR (dist (two e) k) <= IZR (two e))%R) by (rewrite <- mult_IZR; apply IZR_le; lia).
  pose proof PI_RGT_0. rewrite mult_IZR.
  assert (X : (2 * PI * IZR (dist (two e) k) / (4 * IZR (two e)) = (PI / 4) * (2 * IZR (dist (two e) k) / IZR (two e)))%R) by (field; lra).
  rewrite X. assert (Y1 : (0 <= 2 * IZR (dist (two e) k) / IZR (two e))%R).
  { apply Rmult_le_pos; [lra|]. left. apply Rinv_0_lt_compat. exact Hq. }
  assert (Y2 : (2 * IZR (dist (two e) k) / IZR (two e) <= 1)%R).
  { apply (Rmult_le_reg_r (IZR (two e))); auto. unfold Rdiv. rewrite Rmult_assoc, Rinv_l by lra. lra. }
  set (y := (2 * IZR (dist (two e) k) / IZR (two e))%R) in *.
  apply cos_gt_0; nra.
Qed.
Lemma cs_pm e k l : (two e | k - l) \/ (two e | k + l) -> cs e k = cs e l.
Proof.
  intros H. unfold cs. replace (dist (two e) k) with (dist (two e) l); [reflexivity|].
  destruct H as [H|H]; pose proof (two_pos e).
  - symmetry. now apply dist_cong.
  - rewrite <- (dist_opp _ l) by auto. symmetry. apply dist_cong; auto. now replace (k - - l) with (k + l) by ring.
Qed.
(** the scale factor s(2^e, k) *)
Fixpoint sv (e : nat) (k : Z) : R :=
  match e with
  | S (S e') => (sv e' k * cs e' k)%R
  | _ => 1%R
  end.
Lemma sv_SS e k : sv (S (S e)) k = (sv e k * cs e k)%R. Proof. reflexivity. Qed.
Lemma nat_ind2 (P : nat -> Prop) : P 0%nat -> P 1%nat -> (forall e, P e -> P (S (S e))) -> forall e, P e.
Proof. intros H0 H1 HS. fix F 1. intros [|[|e]]; [exact H0|exact H1|exact (HS e (F e))]. Qed.
Lemma sv_pos e k : (0 < sv e k)%R.
Proof.
  revert e. apply nat_ind2; [cbn; lra|cbn; lra|]. intros e IH. rewrite sv_SS. apply Rmult_lt_0_compat; auto. apply cs_pos.
Qed.
Lemma cs_0 k : cs 0 k = 1%R.
Proof.
  unfold cs, dist. change (two 0) with 1. rewrite Z.mod_1_r. change (Z.min 0 (1 - 0)) with 0.
  replace (2 * PI * 0 / IZR (4 * 1))%R with 0%R; [apply cos_0|]. unfold Rdiv. ring.
Qed.
Lemma two_div d e : (d <= e)%nat -> (two d | two e).
Proof.
  intros H. unfold two. exists (2 ^ Z.of_nat (e - d)). rewrite <- Z.pow_add_r by lia. f_equal. lia.
Qed.
Lemma sv_pm e : forall d k l, (e <= d)%nat -> (two d | k - l) \/ (two d | k + l) -> sv e k = sv e l.
Proof.
  revert e. apply (nat_ind2 (fun e => forall d k l, (e <= d)%nat -> (two d | k - l) \/ (two d | k + l) -> sv e k = sv e l)); [reflexivity|reflexivity|].
  intros e IH d k l Hd H. rewrite !sv_SS. rewrite (IH d k l ltac:(lia) H). f_equal.
  apply cs_pm. destruct H as [H|H]; [left|right]; (eapply Z.divide_trans; [|exact H]); apply two_div; lia.
Qed.
(** s(4q,.) has period q *)
Lemma sv_period e d k l : (e <= d)%nat -> (two d | k - l) -> sv (S (S e)) k = sv (S (S e)) l.
Proof.
  intros Hd H. rewrite !sv_SS. assert (D : (two e | k - l)) by (eapply Z.divide_trans; [|exact H]; now apply two_div).
  rewrite (sv_pm e e k l) by auto. now rewrite (cs_pm e k l) by auto.
Qed.

Section Ns.
  Variable pheq : expr -> expr -> bool.
  Variable M : magic.
  Variable env : variable -> C.
  Hypothesis pheq_eq : forall a b, pheq a b = true -> a = b.
  Notation den := (den env).
  Notation dmul := (den_times pheq M env pheq_eq _ _ _ _ _).

  Lemma two_le4 e : (two (S (S (S e))) <=? 4) = false.
  Proof. rewrite !two_S. pose proof (two_pos e). lia. Qed.
  Lemma odiv4 e : odiv (two (S (S e))) 4 = two e.
  Proof. rewrite two_SS. pose proof (two_pos e). rewrite odiv_pos by lia. symmetry. apply (Z.div_unique_pos _ _ _ 0); lia. Qed.
  Lemma odiv2 e : odiv (two (S e)) 2 = two e.
  Proof. rewrite two_S. pose proof (two_pos e). rewrite odiv_pos by lia. symmetry. apply (Z.div_unique_pos _ _ _ 0); lia. Qed.
  Lemma scl_ok s e : forall f k, (e < f)%nat -> den s (scl pheq M f (two e) k) (RtoC (sv e k)).
  Proof.
    revert e. apply (nat_ind2 (fun e => forall f k, (e < f)%nat -> den s (scl pheq M f (two e) k) (RtoC (sv e k)))).
    - intros [|f] k Hf; [lia|]. apply den_one.
    - intros [|f] k Hf; [lia|]. apply den_one.
    - intros e IH [|f] k Hf; [lia|]. cbn [scl]. destruct e as [|e].
      + change (two 2 <=? 4) with true. cbn [sv]. rewrite cs_0, Rmult_1_r. apply den_one.
      + rewrite two_le4, odiv4. rewrite two_SS at 1 2. rewrite k4p_dist. pose proof (two_pos (S e)).
        eapply den_eq; [apply (den_times pheq M env pheq_eq); [apply IH; lia|]|].
        * rewrite two_SS, k4p_dist. apply den_real_exp. lia.
        * rewrite sv_SS, RtoC_mul. f_equal. f_equal. apply (sv_pm (S e) (S e)); auto. now apply dist_pm.
  Qed.
  Lemma sclinv_ok s e : forall f k, (e < f)%nat -> den s (sclinv pheq M f (two e) k) (RtoC (/ sv e k)).
  Proof.
    revert e. apply (nat_ind2 (fun e => forall f k, (e < f)%nat -> den s (sclinv pheq M f (two e) k) (RtoC (/ sv e k)))).
    - intros [|f] k Hf; [lia|]. cbn [sv]. rewrite Rinv_1. apply den_one.
    - intros [|f] k Hf; [lia|]. cbn [sv]. rewrite Rinv_1. apply den_one.
    - intros e IH [|f] k Hf; [lia|]. cbn [sclinv]. destruct e as [|e].
      + change (two 2 <=? 4) with true. cbn [sv]. rewrite cs_0, Rmult_1_r, Rinv_1. apply den_one.
      + rewrite two_le4, odiv4. pose proof (two_pos (S e)). pose proof (cs_pos (S e) k) as P.
        eapply den_eq; [apply (den_times pheq M env pheq_eq); [apply IH; lia|]|].
        * rewrite two_SS, k4p_dist. apply den_sec; [lia|]. unfold cs in P. lra.
        * rewrite two_SS, k4p_dist, sv_SS. fold (cs (S e) k). rewrite <- RtoC_mul. f_equal.
          rewrite (sv_pm (S e) (S e) (dist (two (S e)) k) k) by (auto; now apply dist_pm).
          pose proof (sv_pos (S e) k). field. lra.
  Qed.
  Lemma fuel_two e : (e < S (Z.to_nat (two e)))%nat.
  Proof. pose proof (two_gt e). lia. Qed.
  Lemma ns_s_ok s e k : den s (ns_s pheq M (two e) k) (RtoC (sv e k)).
  Proof. apply scl_ok, fuel_two. Qed.
  Lemma ns_sinv_ok s e k : den s (ns_sinv pheq M (two e) k) (RtoC (/ sv e k)).
  Proof. apply sclinv_ok, fuel_two. Qed.
  Lemma sdiv2_ok s e k : den s (sdiv2 pheq M (two e) k) (RtoC (sv e k / sv (S e) k)).
  Proof.
    unfold sdiv2. rewrite <- two_S. eapply den_eq; [apply (den_times pheq M env pheq_eq); [apply ns_s_ok|apply ns_sinv_ok]|].
    now rewrite <- RtoC_mul.
  Qed.
  Lemma sdiv4_ok s e k : den s (sdiv4 (two e) k) (RtoC (/ cs e k)).
  Proof.
    unfold sdiv4. pose proof (two_pos e).
    assert (K : two e = 2 * odiv (two e) 2 \/ (two e = 1 /\ odiv (two e) 2 = 0))
      by (destruct e as [|e']; [right; split; reflexivity|left; rewrite odiv2; apply two_S]).
    apply (k4_dist (two e) (odiv (two e) 2) k ltac:(auto)) in K. cbn zeta in K |- *. rewrite K.
    pose proof (cs_pos e k) as P. replace (/ cs e k)%R with (1 / cs e k)%R by (unfold Rdiv; ring).
    apply den_sec; [lia|]. unfold cs in P. lra.
  Qed.
  Lemma dft1_eq x k : dft 1 x k = x 0.
  Proof. unfold dft. rewrite Csum_1, Z.mul_0_l, W_0. ring. Qed.
  Lemma dft2_ok s x input t k : t = 1 \/ t = -1 -> (forall j, 0 <= j < 2 -> den s (input j) (x j)) -> 0 <= k < 2 ->
    den s (dft2 pheq M input k) (dft 2 x (t * k)).
  Proof.
    intros Ht Hin Hk. unfold dft2. rewrite array_in by auto. eapply den_eq.
    - apply (den_plus pheq env pheq_eq); [apply Hin; lia|]. apply (den_times pheq M env pheq_eq); [apply Hin; lia|apply den_exp; lia].
    - unfold dft. rewrite Csum_2, Z.mul_0_l, W_0, Z.mul_1_l.
      replace (W 2 (- (sg s * k))) with (W 2 (t * k)); [ring|]. apply W_congr; [lia|].
      destruct Ht as [-> | ->], s; cbn [sg]; [exists k|exists 0|exists 0|exists (- k)]; ring.
  Qed.

  Variable s : bool.
  Variable sign : Z.
  Hypothesis Hsign : sign = 1 \/ sign = -1.
  Let T := - (sg s * sign).
  Let HT : T = 1 \/ T = -1. Proof. apply (T_cases s sign Hsign). Qed.

  Lemma cs_T e k : cs e (sign * k) = cs e k.
  Proof. apply cs_pm. destruct Hsign as [-> | ->]; [left; exists 0|right; exists 0]; ring. Qed.
  Lemma ns_t_ok e k : den s (ns_t pheq M (two (S (S e))) (sign * k)) (W (two (S (S e))) (T * k) * RtoC (/ cs e k))%C.
  Proof.
    unfold ns_t. rewrite odiv4. apply (den_times pheq M env pheq_eq).
    - apply dexp; auto. apply two_pos.
    - rewrite <- cs_T. apply sdiv4_ok.
  Qed.
  Lemma ns_tc_ok e k : den s (o1 zconj (ns_t pheq M (two (S (S e))) (sign * k))) (W (two (S (S e))) (- (T * k)) * RtoC (/ cs e k))%C.
  Proof.
    apply den_conj. unfold ns_t. rewrite odiv4. apply (den_times pheq M env pheq_eq).
    - apply dexpn; auto. apply two_pos.
    - rewrite <- cs_T. apply sdiv4_ok.
  Qed.

  Definition kshift (kd : nsk) : nat := match kd with KS => 0 | KS2 => 1 | KS4 => 2 end.
  (** newsplitS, newsplitS2, newsplitS4 compute X_k / s(n,k), X_k / s(2n,k), X_k / s(4n,k) *)
  Lemma newsplitS_ok : forall f e kd x input k, (e < f)%nat ->
    (forall j, 0 <= j < two e -> den s (input j) (x j)) -> 0 <= k < two e ->
    den s (newsplitS pheq M f kd sign (two e) input k) (RtoC (/ sv (e + kshift kd) k) * dft (two e) x (T * k))%C.
  Proof.
    induction f as [|f IH]; intros e kd x input k Hf Hin Hk; [lia|]. cbn [newsplitS].
    destruct e as [|[|e]].
    - change (two 0 =? 1) with true. change (two 0) with 1 in *. assert (k = 0) by lia. subst k.
      eapply den_eq; [apply Hin; lia|]. rewrite dft1_eq. destruct kd; cbn [kshift Nat.add sv]; rewrite ?cs_0, ?Rmult_1_r, Rinv_1, RtoC_1; ring.
    - change (two 1 =? 1) with false. change (two 1 =? 2) with true. change (two 1) with 2 in *. cbn match.
      destruct kd; cbn [kshift Nat.add].
      + eapply den_eq; [apply (dft2_ok s x _ T); auto|]. cbn [sv]. rewrite Rinv_1, RtoC_1. ring.
      + eapply den_eq; [apply (dft2_ok s x _ T); auto|]. cbn [sv]. rewrite cs_0, Rmult_1_r, Rinv_1, RtoC_1. ring.
      + rewrite array_in by auto. eapply den_eq.
        * apply (den_times pheq M env pheq_eq); [apply (dft2_ok s x _ T); auto|]. change 8 with (two 3). apply ns_sinv_ok.
        * ring.
    - pose proof (two_pos e) as He. 
      replace (two (S (S e)) =? 1) with false by (rewrite two_SS; lia).
      replace (two (S (S e)) =? 2) with false by (rewrite two_SS; lia). rewrite odiv2, odiv4.
      set (n := two (S (S e))) in *. assert (En : n = 4 * two e) by apply two_SS. assert (En2 : n = 2 * two (S e)) by apply two_S.
      set (u := newsplitS pheq M f _ sign (two (S e)) _). set (z := newsplitS pheq M f KS sign (two e) (fun i => input (i * 4 + 1))).
      set (z' := newsplitS pheq M f KS sign (two e) _).
      pose proof (Z.mod_pos_bound k (two e) He) as B4. pose proof (Z.mod_pos_bound k (two (S e)) (two_pos _)) as B2.
      assert (Dz : den s (z (k mod two e)) (RtoC (/ sv e k) * dft (two e) (fun i => x (i * 4 + 1)%Z) (T * k)%Z)%C).
      { eapply den_eq; [apply (IH e KS (fun i => x (i * 4 + 1))); [lia| |auto]|].
        - intros j Hj. apply Hin. lia.
        - cbn [kshift]. rewrite Nat.add_0_r. f_equal.
          + f_equal. f_equal. apply (sv_pm e e); auto. left. now apply mod_div_sub.
          + apply dft_congr; auto. now apply divide_scale, mod_div_sub. }
      assert (Dz' : den s (z' (k mod two e)) (RtoC (/ sv e k) * dft (two e) (fun i => x ((n + i * 4 - 1) mod n)%Z) (T * k)%Z)%C).
      { eapply den_eq; [apply (IH e KS (fun i => x ((n + i * 4 - 1) mod n))); [lia| |auto]|].
        - intros j Hj. rewrite omod_pos by lia. apply Hin. apply Z.mod_pos_bound. lia.
        - cbn [kshift]. rewrite Nat.add_0_r. f_equal.
          + f_equal. f_equal. apply (sv_pm e e); auto. left. now apply mod_div_sub.
          + apply dft_congr; auto. now apply divide_scale, mod_div_sub. }
      assert (Du : den s (u (k mod two (S e))) (RtoC (/ sv (match kd with KS | KS4 => S (S e) | KS2 => S (S (S e)) end) k) * dft (two (S e)) (fun i => x (i * 2)%Z) (T * k)%Z)%C).
      { eapply den_eq; [apply (IH (S e) _ (fun i => x (i * 2))); [lia| |auto]|].
        - intros j Hj. apply Hin. lia.
        - f_equal.
          + f_equal. f_equal. 
            destruct kd; cbn [kshift]; rewrite ?Nat.add_succ_r, ?Nat.add_0_r;
              apply (sv_period _ (S e)); try lia; apply mod_div_sub; apply two_pos.
          + apply dft_congr; [apply two_pos|]. apply divide_scale, mod_div_sub, two_pos. }
      pose (A := (W n (T * k) * dft (two e) (fun i => x (i * 4 + 1)%Z) (T * k)%Z + W n (- (T * k)) * dft (two e) (fun i => x ((n + i * 4 - 1) mod n)%Z) (T * k)%Z)%C).
      assert (EX : dft n x (T * k) = (dft (two (S e)) (fun i => x (i * 2)%Z) (T * k)%Z + A)%C).
      { unfold A. rewrite En. rewrite two_S. rewrite split_dit by auto. reflexivity. }
      pose proof (cs_pos e k) as Pc. pose proof (sv_pos e k) as Ps. pose proof (sv_pos (S (S e)) k) as Ps2.
      assert (Dw : den s (ns_w pheq M sign n z z' k) (RtoC (/ sv (S (S e)) k) * A)%C).
      { unfold ns_w. unfold n. rewrite odiv4. fold n. rewrite !array_in by auto. rewrite !omod_pos by lia. eapply den_eq.
        - apply (den_plus pheq env pheq_eq); apply (den_times pheq M env pheq_eq); [apply ns_t_ok|exact Dz|apply ns_tc_ok|exact Dz'].
        - fold n. unfold A. rewrite sv_SS. replace (/ (sv e k * cs e k))%R with (/ cs e k * / sv e k)%R by (field; lra). rewrite RtoC_mul. ring. }
      destruct kd; cbn [kshift]; rewrite ?Nat.add_succ_r, ?Nat.add_0_r; rewrite !array_in by auto; rewrite omod_pos by lia.
      + eapply den_eq; [apply (den_plus pheq env pheq_eq); [exact Du|exact Dw]|]. rewrite EX. ring.
      + eapply den_eq.
        * apply (den_plus pheq env pheq_eq); [exact Du|]. apply (den_times pheq M env pheq_eq); [exact Dw|apply sdiv2_ok].
        * rewrite EX. pose proof (sv_pos (S (S (S e))) k).
          replace (/ sv (S (S (S e))) k)%R with (/ sv (S (S e)) k * (sv (S (S e)) k / sv (S (S (S e))) k))%R by (field; lra).
          rewrite RtoC_mul. ring.
      + eapply den_eq.
        * apply (den_times pheq M env pheq_eq); [|apply sdiv4_ok]. apply (den_plus pheq env pheq_eq); [exact Du|exact Dw].
        * rewrite EX. rewrite (sv_SS (S (S e))). pose proof (cs_pos (S (S e)) k).
          replace (/ (sv (S (S e)) k * cs (S (S e)) k))%R with (/ sv (S (S e)) k * / cs (S (S e)) k)%R by (field; lra).
          rewrite RtoC_mul. ring.
  Qed.

  Lemma newsplit0_ok : forall f e x input k, (e < f)%nat ->
    (forall j, 0 <= j < two e -> den s (input j) (x j)) -> 0 <= k < two e ->
    den s (newsplit0 pheq M f sign (two e) input k) (dft (two e) x (T * k)).
  Proof.
    induction f as [|f IH]; intros e x input k Hf Hin Hk; [lia|]. cbn [newsplit0].
    destruct e as [|[|e]].
    - change (two 0 =? 1) with true. change (two 0) with 1 in *. assert (k = 0) by lia. subst k.
      rewrite dft1_eq. apply Hin; lia.
    - change (two 1 =? 1) with false. change (two 1 =? 2) with true. change (two 1) with 2 in *. now apply dft2_ok.
    - pose proof (two_pos e) as He. 
      replace (two (S (S e)) =? 1) with false by (rewrite two_SS; lia).
      replace (two (S (S e)) =? 2) with false by (rewrite two_SS; lia). rewrite odiv2, odiv4.
      set (n := two (S (S e))) in *. assert (En : n = 4 * two e) by apply two_SS. assert (En2 : n = 2 * two (S e)) by apply two_S.
      pose proof (Z.mod_pos_bound k (two e) He) as B4. pose proof (Z.mod_pos_bound k (two (S e)) (two_pos _)) as B2.
      rewrite !array_in by auto. rewrite !omod_pos by lia. pose proof (sv_pos e k) as Ps.
      eapply den_eq.
      + apply (den_plus pheq env pheq_eq); [|apply (den_plus pheq env pheq_eq); apply (den_times pheq M env pheq_eq)].
        * apply (IH (S e) (fun i => x (i * 2))); [lia| |auto]. intros j Hj. apply Hin. lia.
        * apply (den_times pheq M env pheq_eq); [apply ns_s_ok|apply dexp; auto; lia].
        * apply (newsplitS_ok f e KS (fun i => x (i * 4 + 1))); [lia| |auto]. intros j Hj. apply Hin. lia.
        * apply den_conj. apply (den_times pheq M env pheq_eq); [apply ns_s_ok|apply dexpn; [lia|reflexivity]].
        * apply (newsplitS_ok f e KS (fun i => x ((n + i * 4 - 1) mod n))); [lia| |auto].
          intros j Hj. rewrite omod_pos by lia. apply Hin. apply Z.mod_pos_bound. lia.
      + cbn [kshift]. rewrite Nat.add_0_r. rewrite (sv_pm e e (k mod two e) k) by (auto; left; now apply mod_div_sub).
        rewrite !(dft_congr (two e) _ (T * (k mod two e)) (T * k)) by (auto; now apply divide_scale, mod_div_sub).
        rewrite (dft_congr (two (S e)) _ (T * (k mod two (S e))) (T * k)) by (try apply two_pos; apply divide_scale, mod_div_sub, two_pos).
        rewrite En. rewrite (split_dit (two e) x (T * k)) by auto. rewrite <- En. rewrite <- two_S.
        assert (R1 : forall z w, (RtoC (sv e k) * w * (RtoC (/ sv e k) * z))%C = (w * z)%C).
        { intros z w. replace (RtoC (sv e k) * w * (RtoC (/ sv e k) * z))%C with (RtoC (sv e k) * RtoC (/ sv e k) * (w * z))%C by ring.
          rewrite <- RtoC_mul. replace (sv e k * / sv e k)%R with 1%R by (field; lra). rewrite RtoC_1. ring. }
        rewrite !R1. reflexivity.
  Qed.
  Lemma newsplit_ok e x input k :
    (forall j, 0 <= j < two e -> den s (input j) (x j)) -> 0 <= k < two e ->
    den s (newsplit pheq M sign (two e) input k) (dft (two e) x (T * k)).
  Proof. apply newsplit0_ok, fuel_two. Qed.
End Ns.

(** ** is_power_of_two *)
Lemma pow2_land n : 0 < n -> Z.land (n - 1) n = 0 -> exists e, n = two e.
Proof.
  intros Hn. 
  assert (G : forall m, forall n, 0 < n <= Z.of_nat m -> Z.land (n - 1) n = 0 -> exists e, n = two e).
  { induction m as [|m IH]; intros k Hk E; [lia|].
    destruct (Z.eq_dec k 1) as [->|]; [exists 0%nat; reflexivity|].
    destruct (Z.Even_or_Odd k) as [(h & Hh)|(h & Hh)].
    - destruct (IH h) as (e & He).
      + lia.
      + apply Z.bits_inj'. intros i Hi. rewrite Z.bits_0, Z.land_spec.
        pose proof (f_equal (fun z => Z.testbit z (Z.succ i)) E) as B. cbn beta in B. rewrite Z.bits_0, Z.land_spec in B.
        rewrite Hh in B. rewrite Z.testbit_even_succ in B by lia. replace (2 * h - 1) with (2 * (h - 1) + 1) in B by ring.
        now rewrite Z.testbit_odd_succ in B by lia.
      + exists (S e). rewrite two_S. lia.
    - exfalso. assert (0 < h) by lia.
      pose proof (Z.log2_nonneg h) as L0.
      pose proof (f_equal (fun z => Z.testbit z (Z.succ (Z.log2 h))) E) as B. cbn beta in B. rewrite Z.bits_0, Z.land_spec in B.
      rewrite Hh in B. rewrite Z.testbit_odd_succ in B by lia. replace (2 * h + 1 - 1) with (2 * h) in B by ring.
      rewrite Z.testbit_even_succ in B by lia. rewrite Z.bit_log2 in B by lia. discriminate. }
  apply (G (Z.to_nat n)). lia.
Qed.
Lemma is_power_of_two_ok n : is_power_of_two n = true -> exists e, n = two e.
Proof.
  unfold is_power_of_two. intros H. apply andb_true_iff in H as [H1 H2]. apply Z.eqb_eq in H2. apply pow2_land; auto. lia.
Qed.
