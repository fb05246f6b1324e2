(** * reodft/reodft11e-r2hc-odd.c is correct (proof library) *)
From Coq Require Import Reals ZArith List Lia Lra Bool Permutation.
From Verif Require Import NumTheory Cplx Spec SpecR2R Base TensorModel Offs TensorProofs XForm XKern XSeq
  DftModel RdftModel DftTw DftTw2 DftPrime RSum RdftX RdftLib RdftLoop RMath RdftDht RdftGen RdftReo.
Import ListNotations.
Open Scope Z_scope.

Ltac par := Z.to_euclidean_division_equations; lia.

(** ** Loading *)
Lemma odd_run_ok cnt i0 m0 is sg src (nx : nat) I m : (fst I < nx)%nat ->
  (forall i, i0 <= i < i0 + cnt -> odd_run cnt i0 m0 is sg src (nx, 0) I m (sh (nx, 0) i) = (sg * m (sh I (src (m0 + 4 * (i - i0)) * is)%Z))%R) /\
  (forall l, (forall i, i0 <= i < i0 + cnt -> l <> sh (nx, 0) i) -> odd_run cnt i0 m0 is sg src (nx, 0) I m l = m l).
Proof.
  intros HI. unfold odd_run.
  destruct (loop_cells cnt (fun t m => upd m (sh (nx, 0) (i0 + t)) (sg * m (sh I (src (m0 + 4 * t) * is)%Z))%R) m
    (fun t i => i = i0 + t) (fun i => sh (nx, 0) i) (fun i => (sg * m (sh I (src (m0 + 4 * (i - i0)) * is)%Z))%R)) as [L1 L2].
  - intros t m' Ht Hm. split.
    + intros k ->. rewrite upd_same. replace (i0 + t - i0) with t by lia. rewrite Hm; [reflexivity|].
      intros j k Hj Hk E. apply (f_equal fst) in E. cbn in E. lia.
    + intros l Hl. apply upd_other. intros <-. now apply (Hl (i0 + t)).
  - intros i j k k' Hi Hj Ne -> -> E. apply sh_nx_inj in E. lia.
  - split.
    + intros i Hi. apply (L1 (i - i0)); lia.
    + intros l Hl. apply L2. intros i k Hi ->. apply Hl. lia.
Qed.

Section Odd.
  Variable n h : Z.
  Hypothesis Hh : 0 <= h.
  Hypothesis Hn : n = 2 * h + 1.
  Lemma Hq : Z.quot n 2 = h. Proof. par. Qed.

  Definition odx5 (f1 f2 f3 f4 f5 : Z -> Z) (x : Z -> R) (i : Z) : R :=
    let m := h + 4 * i in
    if m <? n then x (f1 m) else if m <? 2 * n then (- x (f2 m))%R else if m <? 3 * n then (- x (f3 m))%R
    else if m <? 4 * n then x (f4 m) else x (f5 (m - 4 * n)).
  Lemma odd_load_ok f1 f2 f3 f4 f5 is (nx : nat) I m : (fst I < nx)%nat ->
     (forall k, 0 <= k < n -> odd_load f1 f2 f3 f4 f5 n is (nx, 0) I m (sh (nx, 0) k) = odx5 f1 f2 f3 f4 f5 (fun j => m (sh I (j * is))) k) /\
     (forall l, (fst l < nx)%nat -> odd_load f1 f2 f3 f4 f5 n is (nx, 0) I m l = m l).
  Proof.
    intros HI. unfold odd_load. cbn zeta. rewrite Hq.
    set (c1 := nsteps h n 4). set (c2 := nsteps (h + 4 * c1) (2 * n) 4).
    set (c3 := nsteps (h + 4 * c1 + 4 * c2) (3 * n) 4). set (c4 := nsteps (h + 4 * c1 + 4 * c2 + 4 * c3) (4 * n) 4).
    pose proof (nsteps_spec h n 4 ltac:(lia)) as N1. fold c1 in N1. cbn zeta in N1.
    pose proof (nsteps_spec (h + 4 * c1) (2 * n) 4 ltac:(lia)) as N2. fold c2 in N2. cbn zeta in N2.
    pose proof (nsteps_spec (h + 4 * c1 + 4 * c2) (3 * n) 4 ltac:(lia)) as N3. fold c3 in N3. cbn zeta in N3.
    pose proof (nsteps_spec (h + 4 * c1 + 4 * c2 + 4 * c3) (4 * n) 4 ltac:(lia)) as N4. fold c4 in N4. cbn zeta in N4.
    clearbody c1 c2 c3 c4.
    destruct (odd_run_ok c1 0 h is 1 f1 nx I m HI) as [A1 B1]. set (m1 := odd_run c1 0 h is 1 f1 (nx, 0) I m) in *. clearbody m1.
    destruct (odd_run_ok c2 c1 (h + 4 * c1) is (-1) f2 nx I m1 HI) as [A2 B2]. set (m2 := odd_run c2 _ _ _ _ _ _ _ _) in *. clearbody m2.
    destruct (odd_run_ok c3 (c1 + c2) (h + 4 * c1 + 4 * c2) is (-1) f3 nx I m2 HI) as [A3 B3]. set (m3 := odd_run c3 _ _ _ _ _ _ _ _) in *. clearbody m3.
    destruct (odd_run_ok c4 (c1 + c2 + c3) (h + 4 * c1 + 4 * c2 + 4 * c3) is 1 f4 nx I m3 HI) as [A4 B4]. set (m4 := odd_run c4 _ _ _ _ _ _ _ _) in *. clearbody m4.
    destruct (odd_run_ok (n - (c1 + c2 + c3 + c4)) (c1 + c2 + c3 + c4) (h + 4 * c1 + 4 * c2 + 4 * c3 + 4 * c4 - 4 * n) is 1 f5 nx I m4 HI) as [A5 B5].
    set (m5 := odd_run (n - _) _ _ _ _ _ _ _ _) in *. clearbody m5.
    assert (F1 : forall l, fst l <> nx -> m1 l = m l) by (intros l Nl; apply B1; intros i _ ->; now apply Nl).
    assert (F2 : forall l, fst l <> nx -> m2 l = m l) by (intros l Nl; rewrite B2; auto; intros i _ ->; now apply Nl).
    assert (F3 : forall l, fst l <> nx -> m3 l = m l) by (intros l Nl; rewrite B3; auto; intros i _ ->; now apply Nl).
    assert (F4 : forall l, fst l <> nx -> m4 l = m l) by (intros l Nl; rewrite B4; auto; intros i _ ->; now apply Nl).
    assert (NI : forall o, fst (sh I o) <> nx) by (intros o; cbn; lia).
    split.
    2:{ intros l Hl. rewrite B5; [apply F4; lia|]. intros i _ ->. cbn in Hl. lia. }
    intros k Hk. unfold odx5. cbn zeta.
    assert (O : forall i0 c k, k < i0 \/ i0 + c <= k -> forall i, i0 <= i < i0 + c -> sh (nx, 0) k <> sh (nx, 0) i).
    { intros i0 c k' Hk' i Hi E. apply sh_nx_inj in E. lia. }
    destruct (Z.ltb_spec (h + 4 * k) n) as [G1|G1].
    { rewrite B5, B4, B3, B2, A1 by (try apply O; lia). replace (h + 4 * (k - 0)) with (h + 4 * k) by ring. ring. }
    destruct (Z.ltb_spec (h + 4 * k) (2 * n)) as [G2|G2].
    { rewrite B5, B4, B3, A2, F1 by (try apply O; try apply NI; lia). replace (h + 4 * c1 + 4 * (k - c1)) with (h + 4 * k) by ring. ring. }
    destruct (Z.ltb_spec (h + 4 * k) (3 * n)) as [G3|G3].
    { rewrite B5, B4, A3, F2 by (try apply O; try apply NI; lia). replace (h + 4 * c1 + 4 * c2 + 4 * (k - (c1 + c2))) with (h + 4 * k) by ring. ring. }
    destruct (Z.ltb_spec (h + 4 * k) (4 * n)) as [G4|G4].
    { rewrite B5, A4, F3 by (try apply O; try apply NI; lia).
      replace (h + 4 * c1 + 4 * c2 + 4 * c3 + 4 * (k - (c1 + c2 + c3))) with (h + 4 * k) by ring. ring. }
    { rewrite A5, F4 by (try apply NI; lia).
      replace (h + 4 * c1 + 4 * c2 + 4 * c3 + 4 * c4 - 4 * n + 4 * (k - (c1 + c2 + c3 + c4))) with (h + 4 * k - 4 * n) by ring. ring. }
  Qed.

  (** ** The sum over the samples h, h+4, h+8, ... of the antiperiodic extension *)
  Definition src5 (i : Z) : Z :=
    let m := h + 4 * i in
    if m <? n then m else if m <? 2 * n then 2 * n - m - 1 else if m <? 3 * n then m - 2 * n
    else if m <? 4 * n then 4 * n - m - 1 else m - 4 * n.
  Definition sg5 (i : Z) : R :=
    let m := h + 4 * i in
    if m <? n then 1%R else if m <? 2 * n then (-1)%R else if m <? 3 * n then (-1)%R else 1%R.
  Lemma src5_range i : 0 <= i < n -> 0 <= src5 i < n.
  Proof.
    intros H. unfold src5. cbn zeta.
    destruct (Z.ltb_spec (h + 4 * i) n), (Z.ltb_spec (h + 4 * i) (2 * n)), (Z.ltb_spec (h + 4 * i) (3 * n)), (Z.ltb_spec (h + 4 * i) (4 * n)); lia.
  Qed.
  Lemma src5_inj i j : 0 <= i < n -> 0 <= j < n -> src5 i = src5 j -> i = j.
  Proof.
    intros H1 H2. unfold src5. cbn zeta.
    destruct (Z.ltb_spec (h + 4 * i) n), (Z.ltb_spec (h + 4 * i) (2 * n)), (Z.ltb_spec (h + 4 * i) (3 * n)), (Z.ltb_spec (h + 4 * i) (4 * n));
    try lia;
    destruct (Z.ltb_spec (h + 4 * j) n), (Z.ltb_spec (h + 4 * j) (2 * n)), (Z.ltb_spec (h + 4 * j) (3 * n)), (Z.ltb_spec (h + 4 * j) (4 * n)); lia.
  Qed.
  Lemma half8 : cs (8 * n) (4 * n) = (-1)%R /\ sn (8 * n) (4 * n) = 0%R.
  Proof. replace (8 * n) with (2 * (4 * n)) by ring. split; [apply cs_half|apply sn_half]; lia. Qed.
  Lemma cs8_half q : cs (8 * n) (q + 4 * n) = (- cs (8 * n) q)%R.
  Proof. destruct half8 as [E F]. rewrite cs_add, E, F. ring. Qed.
  Lemma cs8_half' q k : cs (8 * n) (4 * n * (2 * k + 1) - q) = (- cs (8 * n) q)%R.
  Proof.
    replace (4 * n * (2 * k + 1) - q) with (- (q + 4 * n) + 8 * n * (k + 1)) by ring. rewrite cs_period by lia.
    now rewrite cs_neg, cs8_half.
  Qed.
  Lemma sg5_cs i k : 0 <= i < n ->
    cs (8 * n) ((2 * (h + 4 * i) + 1) * (2 * k + 1)) = (sg5 i * cs (8 * n) ((2 * src5 i + 1) * (2 * k + 1)))%R.
  Proof.
    intros Hi. unfold sg5, src5. cbn zeta. set (m := h + 4 * i).
    destruct (Z.ltb_spec m n); [ring|]. destruct (Z.ltb_spec m (2 * n)).
    { replace ((2 * (2 * n - m - 1) + 1) * (2 * k + 1)) with (4 * n * (2 * k + 1) - (2 * m + 1) * (2 * k + 1)) by ring.
      rewrite cs8_half'. ring. }
    destruct (Z.ltb_spec m (3 * n)).
    { replace ((2 * m + 1) * (2 * k + 1)) with ((2 * (m - 2 * n) + 1) * (2 * k + 1) + 4 * n + 8 * n * k) by ring.
      rewrite cs_period, cs8_half by lia. ring. }
    destruct (Z.ltb_spec m (4 * n)).
    { replace ((2 * (4 * n - m - 1) + 1) * (2 * k + 1)) with (- ((2 * m + 1) * (2 * k + 1)) + 8 * n * (2 * k + 1)) by ring.
      rewrite cs_period, cs_neg by lia. ring. }
    { replace ((2 * m + 1) * (2 * k + 1)) with ((2 * (m - 4 * n) + 1) * (2 * k + 1) + 8 * n * (2 * k + 1)) by ring.
      rewrite cs_period by lia. ring. }
  Qed.
  Lemma sg5_sq i : (sg5 i * sg5 i = 1)%R.
  Proof. unfold sg5. cbn zeta. repeat match goal with |- context[?a <? ?b] => destruct (a <? b) end; ring. Qed.

  Definition C (b : Z -> R) (q : Z) : R := Rsum n (fun i => b i * cs n (i * q)%Z)%R.
  Definition S' (b : Z -> R) (q : Z) : R := Rsum n (fun i => b i * sn n (i * q)%Z)%R.
  Lemma odd_sum x k :
    Rsum n (fun j => x j * rk REDFT11 n j k)%R =
    (2 * (cs 8 (2 * k + 1) * C (fun i => sg5 i * x (src5 i))%R (2 * k + 1)%Z - sn 8 (2 * k + 1) * S' (fun i => sg5 i * x (src5 i))%R (2 * k + 1)%Z))%R.
  Proof.
    rewrite <- (Rsum_reindex n src5 (fun j => x j * rk REDFT11 n j k)%R src5_range src5_inj).
    unfold C, S'. rewrite <- !Rsum_mul_l, <- Rsum_sub, <- Rsum_mul_l. apply Rsum_ext. intros i Hi.
    rewrite rk_redft11 by lia.
    transitivity (2 * (sg5 i * x (src5 i)) * cs (8 * n) ((2 * (h + 4 * i) + 1) * (2 * k + 1)))%R.
    { rewrite sg5_cs by auto. pose proof (sg5_sq i) as Q.
      replace (2 * (sg5 i * x (src5 i)) * (sg5 i * cs (8 * n) ((2 * src5 i + 1) * (2 * k + 1))))%R
        with (2 * x (src5 i) * (sg5 i * sg5 i) * cs (8 * n) ((2 * src5 i + 1) * (2 * k + 1)))%R by ring. rewrite Q. ring. }
    replace ((2 * (h + 4 * i) + 1) * (2 * k + 1)) with (n * (2 * k + 1) + 8 * (i * (2 * k + 1))) by (rewrite Hn; ring).
    rewrite cs_add. replace (8 * n) with (n * 8) at 1 3 by ring. rewrite cs_scale, sn_scale by lia.
    rewrite (cs_scale n 8), (sn_scale n 8) by lia. ring.
  Qed.

  (** ** Storing *)
  Definition qq (k : Z) : Z := if 2 * k + 1 <? n then 2 * k + 1 else 2 * k + 1 - n.
  Definition cv (y : Z -> R) (k : Z) : R := if 2 * qq k <? n then y (qq k) else y (n - qq k)%Z.
  Definition sv (y : Z -> R) (k : Z) : R := if qq k =? 0 then 0%R else if 2 * qq k <? n then (- y (n - qq k)%Z)%R else y (qq k).
  Definition op11 (e : Z) (y : Z -> R) (k : Z) : R :=
    (SQRT2 * (SGN_SET (cv y k) (Z.quot (k + 1) 2 + e * k)%Z - SGN_SET (sv y k) (Z.quot k 2 + e * k)%Z))%R.
  Lemma qq_C b k : C b (qq k) = C b (2 * k + 1).
  Proof.
    unfold qq. destruct (_ <? _); [reflexivity|]. apply Rsum_ext. intros i _. f_equal. apply cs_congr; [lia|]. exists (- i). ring.
  Qed.
  Lemma qq_S b k : S' b (qq k) = S' b (2 * k + 1).
  Proof.
    unfold qq. destruct (_ <? _); [reflexivity|]. apply Rsum_ext. intros i _. f_equal. apply sn_congr; [lia|]. exists (- i). ring.
  Qed.
  Lemma cv_hc b k : 0 <= k < n -> cv (hc n b) k = C b (2 * k + 1).
  Proof.
    intros Hk. rewrite <- qq_C. assert (Q : 0 <= qq k < n) by (unfold qq; destruct (Z.ltb_spec (2 * k + 1) n); lia).
    unfold cv, hc. destruct (Z.ltb_spec (2 * qq k) n).
    - rewrite hc_re by lia. reflexivity.
    - rewrite hc_re by lia. apply Rsum_ext. intros i _. now rewrite cs_ref by lia.
  Qed.
  Lemma sv_hc b k : 0 <= k < n -> sv (hc n b) k = S' b (2 * k + 1).
  Proof.
    intros Hk. rewrite <- qq_S. assert (Q : 0 <= qq k < n) by (unfold qq; destruct (Z.ltb_spec (2 * k + 1) n); lia).
    unfold sv, hc. destruct (Z.eqb_spec (qq k) 0) as [->|Nq].
    { unfold S'. rewrite Rsum_zero; [reflexivity|]. intros i _. rewrite Z.mul_0_r, sn_0. ring. }
    destruct (Z.ltb_spec (2 * qq k) n).
    - rewrite hc_im by lia. now rewrite Ropp_involutive.
    - assert (E : exists p, qq k = n - p /\ 2 * p < n) by (exists (n - qq k); lia). destruct E as (p & E & Hp). rewrite E.
      rewrite hc_im by lia. rewrite <- Rsum_opp. apply Rsum_ext. intros i _.
      rewrite sn_ref by lia. ring.
  Qed.
  (** the signs *)
  Lemma SGN_even x a b : 0 <= a -> 0 <= b -> (a - b) mod 2 = 0 -> SGN_SET x a = SGN_SET x b.
  Proof. intros Ha Hb H. unfold SGN_SET. destruct (Z.eqb_spec (Z.rem a 2) 0), (Z.eqb_spec (Z.rem b 2) 0); try reflexivity; exfalso; par. Qed.
  Lemma SGN_odd x a b : 0 <= a -> 0 <= b -> (a - b) mod 2 = 1 -> SGN_SET x a = (- SGN_SET x b)%R.
  Proof.
    intros Ha Hb H. unfold SGN_SET. destruct (Z.eqb_spec (Z.rem a 2) 0), (Z.eqb_spec (Z.rem b 2) 0); rewrite ?Ropp_involutive; try reflexivity; exfalso; par.
  Qed.
  Lemma SGN_opp x a : SGN_SET (- x) a = (- SGN_SET x a)%R.
  Proof. unfold SGN_SET. now destruct (_ =? _). Qed.
  Lemma SGN_0 a : SGN_SET 0 a = 0%R.
  Proof. unfold SGN_SET. destruct (_ =? _); ring. Qed.
  Lemma SGN_mul x y a : SGN_SET (x * y)%R a = (SGN_SET x a * y)%R.
  Proof. unfold SGN_SET. destruct (_ =? _); ring. Qed.
  Lemma c81 : (2 * cs 8 1 = SQRT2)%R /\ (2 * sn 8 1 = SQRT2)%R.
  Proof.
    assert (E : ang 8 1 = (PI / 4)%R) by (unfold ang; field).
    assert (Q : (sqrt 2 * sqrt 2 = 2)%R) by (apply sqrt_sqrt; lra). assert (P : (0 < sqrt 2)%R) by (apply sqrt_lt_R0; lra).
    unfold cs, sn, SQRT2. rewrite E, cos_PI4, sin_PI4.
    assert (2 * (1 / sqrt 2) = sqrt 2)%R; [|auto]. apply (Rmult_eq_reg_r (sqrt 2)); [|lra].
    rewrite Q. field. lra.
  Qed.
  Lemma c8 k : 0 <= k -> (2 * cs 8 (2 * k + 1)%Z = SGN_SET SQRT2 (Z.quot (k + 1) 2))%R /\ (2 * sn 8 (2 * k + 1)%Z = SGN_SET SQRT2 (Z.quot k 2))%R.
  Proof.
    intros Hk. pose proof (Z.div_mod k 4 ltac:(lia)) as D. pose proof (Z.mod_pos_bound k 4 ltac:(lia)) as M.
    set (q := k / 4) in *. set (r := k mod 4) in *. clearbody q r.
    assert (Hq' : 0 <= q) by lia.
    replace (2 * k + 1) with (2 * r + 1 + 8 * q) by lia. rewrite cs_period, sn_period by lia.
    rewrite (SGN_even SQRT2 (Z.quot (k + 1) 2) (Z.quot (r + 1) 2)) by par.
    rewrite (SGN_even SQRT2 (Z.quot k 2) (Z.quot r 2)) by par.
    destruct c81 as [E1 E2].
    assert (H1 : cs 8 4 = (-1)%R) by (change 8 with (2 * 4); apply cs_half; lia).
    assert (H2 : sn 8 4 = 0%R) by (change 8 with (2 * 4); apply sn_half; lia).
    assert (R : r = 0 \/ r = 1 \/ r = 2 \/ r = 3) by lia. destruct R as [->|[->|[->| ->]]]; unfold SGN_SET; cbn [Z.quot Z.rem Z.eqb].
    - auto.
    - change (2 * 1 + 1) with (4 - 1). rewrite cs_sub, sn_sub, H1, H2. change (Z.quot (1 + 1) 2) with 1. change (Z.quot 1 2) with 0. cbn. lra.
    - change (2 * 2 + 1) with (4 + 1). rewrite cs_add, sn_add, H1, H2. change (Z.quot (2 + 1) 2) with 1. change (Z.quot 2 2) with 1. cbn. lra.
    - change (2 * 3 + 1) with (4 + 4 - 1). rewrite cs_sub, sn_sub, cs_add, sn_add, H1, H2. change (Z.quot (3 + 1) 2) with 2. change (Z.quot 3 2) with 1. cbn. lra.
  Qed.
  Lemma op11_hc b k : 0 <= k < n -> op11 0 (hc n b) k = (2 * (cs 8 (2 * k + 1) * C b (2 * k + 1)%Z - sn 8 (2 * k + 1) * S' b (2 * k + 1)%Z))%R.
  Proof.
    intros Hk. unfold op11. rewrite cv_hc, sv_hc by auto. rewrite Z.mul_0_l, !Z.add_0_r. destruct (c8 k ltac:(lia)) as [E1 E2].
    rewrite <- (Rmult_1_l (C b _)), <- (Rmult_1_l (S' b _)), !SGN_mul.
    assert (G : forall a, (SQRT2 * SGN_SET 1 a = SGN_SET SQRT2 a)%R) by (intros a; rewrite <- (Rmult_1_l SQRT2) at 2; rewrite SGN_mul; ring).
    rewrite Rmult_minus_distr_l, <- !Rmult_assoc, !G, <- E1, <- E2. ring.
  Qed.
  Lemma op11_e y k : 0 <= k -> op11 1 y k = SGN_SET (op11 0 y k) k.
  Proof.
    intros Hk. unfold op11. rewrite Z.mul_0_l, !Z.add_0_r, Z.mul_1_l.
    pose proof (Z.quot_pos k 2 Hk ltac:(lia)). pose proof (Z.quot_pos (k + 1) 2 ltac:(lia) ltac:(lia)).
    pose proof (Z.rem_bound_pos k 2 Hk ltac:(lia)) as B.
    assert (K : Z.rem k 2 = 0 \/ Z.rem k 2 = 1) by lia. destruct K as [K|K].
    - rewrite (SGN_even _ (Z.quot (k + 1) 2 + k) (Z.quot (k + 1) 2)), (SGN_even _ (Z.quot k 2 + k) (Z.quot k 2)); try par.
      unfold SGN_SET at 3. now rewrite K.
    - rewrite (SGN_odd _ (Z.quot (k + 1) 2 + k) (Z.quot (k + 1) 2)), (SGN_odd _ (Z.quot k 2 + k) (Z.quot k 2)); try par.
      unfold SGN_SET at 3. rewrite K. cbn. ring.
  Qed.
  (** the four values of one iteration *)
  Lemma op11_a e y i : 0 <= e -> 0 <= i -> 2 * i + 1 <= h ->
    op11 e y i = (SQRT2 * (SGN_SET (y (2 * i + 1)%Z) (Z.quot (i + 1) 2 + e * i) + SGN_SET (y (n - (2 * i + 1))%Z) (Z.quot i 2 + e * i)))%R.
  Proof.
    intros He H1 H2. unfold op11, cv, sv. assert (Q : qq i = 2 * i + 1) by (unfold qq; destruct (Z.ltb_spec (2 * i + 1) n); lia). rewrite Q.
    destruct (Z.ltb_spec (2 * (2 * i + 1)) n); [|lia]. destruct (Z.eqb_spec (2 * i + 1) 0); [lia|]. rewrite SGN_opp. ring.
  Qed.
  Lemma op11_b e y i : 0 <= e -> 0 <= i -> 2 * i + 1 <= h ->
    op11 e y (n - (i + 1)) = (SQRT2 * (SGN_SET (y (2 * i + 1)%Z) (Z.quot (n - i) 2 + e * (n - (i + 1))) - SGN_SET (y (n - (2 * i + 1))%Z) (Z.quot (n - (i + 1)) 2 + e * (n - (i + 1)))))%R.
  Proof.
    intros He H1 H2. unfold op11, cv, sv. assert (Q : qq (n - (i + 1)) = n - (2 * i + 1)) by (unfold qq; destruct (Z.ltb_spec (2 * (n - (i + 1)) + 1) n); lia). rewrite Q.
    destruct (Z.ltb_spec (2 * (n - (2 * i + 1))) n); [lia|]. destruct (Z.eqb_spec (n - (2 * i + 1)) 0); [lia|].
    replace (n - (n - (2 * i + 1))) with (2 * i + 1) by lia. replace (n - (i + 1) + 1) with (n - i) by lia. reflexivity.
  Qed.
  Lemma op11_c e y i : 0 <= e -> 0 <= i -> 2 * i + 2 <= h ->
    op11 e y (h - (i + 1)) = (SQRT2 * (SGN_SET (y (2 * i + 1 + 1)%Z) (Z.quot (h - i) 2 + e * (h - (i + 1))) - SGN_SET (y (n - (2 * i + 1 + 1))%Z) (Z.quot (h - (i + 1)) 2 + e * (h - (i + 1)))))%R.
  Proof.
    intros He H1 H2. unfold op11, cv, sv. assert (Q : qq (h - (i + 1)) = n - (2 * i + 1 + 1)) by (unfold qq; destruct (Z.ltb_spec (2 * (h - (i + 1)) + 1) n); lia). rewrite Q.
    destruct (Z.ltb_spec (2 * (n - (2 * i + 1 + 1))) n); [lia|]. destruct (Z.eqb_spec (n - (2 * i + 1 + 1)) 0); [lia|].
    replace (n - (n - (2 * i + 1 + 1))) with (2 * i + 1 + 1) by lia. replace (h - (i + 1) + 1) with (h - i) by lia. reflexivity.
  Qed.
  Lemma op11_d e y i : 0 <= e -> 0 <= i -> 2 * i + 2 <= h ->
    op11 e y (h + (i + 1)) = (SQRT2 * (SGN_SET (y (2 * i + 1 + 1)%Z) (Z.quot (h + i + 2) 2 + e * (h + (i + 1))) + SGN_SET (y (n - (2 * i + 1 + 1))%Z) (Z.quot (h + (i + 1)) 2 + e * (h + (i + 1)))))%R.
  Proof.
    intros He H1 H2. unfold op11, cv, sv. assert (Q : qq (h + (i + 1)) = 2 * i + 1 + 1) by (unfold qq; destruct (Z.ltb_spec (2 * (h + (i + 1)) + 1) n); lia). rewrite Q.
    destruct (Z.ltb_spec (2 * (2 * i + 1 + 1)) n); [|lia]. destruct (Z.eqb_spec (2 * i + 1 + 1) 0); [lia|].
    replace (h + (i + 1) + 1) with (h + i + 2) by lia. rewrite SGN_opp. ring.
  Qed.
  Lemma op11_h e y : op11 e y h = (SQRT2 * SGN_SET (y 0%Z) (Z.quot (h + 1) 2 + e * h))%R.
  Proof.
    unfold op11, cv, sv. assert (Q : qq h = 0) by (unfold qq; destruct (Z.ltb_spec (2 * h + 1) n); lia). rewrite Q.
    destruct (Z.ltb_spec (2 * 0) n); [|lia]. change (0 =? 0) with true. cbn iota. rewrite SGN_0. ring.
  Qed.
  Lemma upd4 (m : mem) a b c d va vb vc vd : a <> b -> a <> c -> a <> d -> b <> c -> b <> d -> c <> d ->
    let m' := upd (upd (upd (upd m a va) b vb) c vc) d vd in
    m' a = va /\ m' b = vb /\ m' c = vc /\ m' d = vd /\ (forall l, l <> a -> l <> b -> l <> c -> l <> d -> m' l = m l).
  Proof.
    intros ab ac ad bc bd cd m'. unfold m'. repeat split.
    - rewrite !upd_other by congruence. apply upd_same.
    - rewrite !upd_other by congruence. apply upd_same.
    - rewrite !upd_other by congruence. apply upd_same.
    - apply upd_same.
    - intros l La Lb Lc Ld. now rewrite !upd_other by congruence.
  Qed.

  (** the generic store: [va i] ... are the four values of iteration i, [wa], [wb] those of the odd case *)
  Lemma odd_store_ok (nx : nat) O os m (v : Z -> R) body bmid bend : (fst O < nx)%nat -> inj1 n os ->
    (forall i m', 0 <= i -> 2 * i + 2 <= h -> (forall k, m' (sh (nx, 0) k) = m (sh (nx, 0) k)) ->
      body i m' = upd (upd (upd (upd m' (sh O (i * os)) (v i)) (sh O ((n - (i + 1)) * os)) (v (n - (i + 1))))
                  (sh O ((h - (i + 1)) * os)) (v (h - (i + 1)))) (sh O ((h + (i + 1)) * os)) (v (h + (i + 1)))) ->
    (forall i m', 2 * i + 1 = h -> (forall k, m' (sh (nx, 0) k) = m (sh (nx, 0) k)) ->
      bmid i m' = upd (upd m' (sh O (i * os)) (v i)) (sh O ((n - (i + 1)) * os)) (v (n - (i + 1)))) ->
    (forall m', (forall k, m' (sh (nx, 0) k) = m (sh (nx, 0) k)) -> bend m' = upd m' (sh O (h * os)) (v h)) ->
    let m1 := zfor (Z.quot h 2) body m in
    let i := Z.quot h 2 in
    let m2 := if i + i + 1 =? h then bmid i m1 else m1 in
    (forall k, 0 <= k < n -> bend m2 (sh O (k * os)) = v k) /\
    (forall l, (forall k, 0 <= k < n -> l <> sh O (k * os)) -> bend m2 l = m l).
  Proof.
    intros HO Jo Hb Hmid Hend m1 i m2.
    assert (Hi : 2 * i <= h < 2 * i + 2 /\ 0 <= i) by (unfold i; par).
    assert (NE : forall j k, 0 <= j < n -> 0 <= k < n -> j <> k -> sh O (j * os) <> sh O (k * os)).
    { intros j k Hj Hk N E. apply (sh_s _ n) in E; auto. }
    assert (NB : forall k k', sh (nx, 0) k <> sh O k') by (intros k k' E; apply (f_equal fst) in E; cbn in E; lia).
    destruct (loop_cells i body m (fun i k => k = i \/ k = n - (i + 1) \/ k = h - (i + 1) \/ k = h + (i + 1)) (fun k => sh O (k * os)) v) as [L1 L2].
    { intros t m' Ht Hm. rewrite Hb; try lia.
      2:{ intros k. apply Hm. intros. apply NB. }
      destruct (upd4 m' (sh O (t * os)) (sh O ((n - (t + 1)) * os)) (sh O ((h - (t + 1)) * os)) (sh O ((h + (t + 1)) * os))
        (v t) (v (n - (t + 1))) (v (h - (t + 1))) (v (h + (t + 1)))) as (U1 & U2 & U3 & U4 & U5); try (apply NE; lia).
      split.
      - intros k [->|[->|[->| ->]]]; auto.
      - intros l Hl. apply U5; apply Hl; auto. }
    { intros a b k k' Ha Hb' N Hk Hk'. apply NE; lia. }
    fold i in m1. fold m1 in L1, L2.
    assert (M1 : forall k, m1 (sh (nx, 0) k) = m (sh (nx, 0) k)) by (intros k; apply L2; intros; apply NB).
    clearbody m1.
    assert (Q : (forall k, 0 <= k < n -> k <> h -> m2 (sh O (k * os)) = v k) /\
                (forall l, (forall k, 0 <= k < n -> l <> sh O (k * os)) -> m2 l = m l)).
    { unfold m2. destruct (Z.eqb_spec (i + i + 1) h) as [E|E].
      - rewrite Hmid by (auto; lia).
        destruct (upd2 m1 (sh O (i * os)) (sh O ((n - (i + 1)) * os)) (v i) (v (n - (i + 1)))) as (U1 & U2 & U3); [apply NE; lia|].
        split.
        + intros k Hk Nk. destruct (Z.eq_dec k i) as [->|]; auto. destruct (Z.eq_dec k (n - (i + 1))) as [->|]; auto.
          rewrite U3 by (apply NE; lia).
          apply (L1 (if k <? i then k else if k <? h then h - k - 1 else if k <? n - (i + 1) then k - h - 1 else n - k - 1)).
          all: destruct (Z.ltb_spec k i), (Z.ltb_spec k h), (Z.ltb_spec k (n - (i + 1))); lia.
        + intros l Hl. rewrite U3 by (apply Hl; lia). apply L2. intros; apply Hl; lia.
      - split.
        + intros k Hk Nk.
          apply (L1 (if k <? i then k else if k <? h then h - k - 1 else if k <? n - i then k - h - 1 else n - k - 1)).
          all: destruct (Z.ltb_spec k i), (Z.ltb_spec k h), (Z.ltb_spec k (n - i)); lia.
        + intros l Hl. apply L2. intros; apply Hl; lia. }
    destruct Q as [Q1 Q2]. clearbody m2. rewrite Hend.
    2:{ intros k. apply Q2. intros. apply NB. }
    split.
    - intros k Hk. destruct (Z.eq_dec k h) as [->|]; [apply upd_same|]. rewrite upd_other by (apply NE; lia). now apply Q1.
    - intros l Hl. rewrite upd_other by (intros E; symmetry in E; revert E; apply Hl; lia). now apply Q2.
  Qed.
  Lemma re11o_store_ok os nx O m y : (fst O < nx)%nat -> inj1 n os -> (forall k, 0 <= k < n -> m (sh (nx, 0) k) = y k) ->
     (forall k, 0 <= k < n -> re11o_store n os (nx, 0) O m (sh O (k * os)) = op11 0 y k) /\
     (forall l, (forall k, 0 <= k < n -> l <> sh O (k * os)) -> re11o_store n os (nx, 0) O m l = m l).
  Proof.
    intros HO Jo Hy. unfold re11o_store. cbn zeta. rewrite Hq.
    refine (odd_store_ok nx O os m (op11 0 y) (re11o_iter n os (nx, 0) O) (re11o_mid n os (nx, 0) O) (re11o_last n os (nx, 0) O) HO Jo _ _ _);
      unfold re11o_iter, re11o_mid, re11o_last; cbn zeta; rewrite Hq.
    - intros i m' H1 H2 Hm. cbn beta.
      assert (NB : forall k k' v0 mm, upd mm (sh O k') v0 (sh (nx, 0) k) = mm (sh (nx, 0) k)).
      { intros k k' v0 mm. apply upd_other. intros E. apply (f_equal fst) in E. cbn in E. lia. }
      replace (i + i + 1) with (2 * i + 1) by lia. rewrite ?NB, !Hm, !Hy by lia.
      rewrite op11_a, op11_b, op11_c, op11_d by lia. now rewrite !Z.mul_0_l, !Z.add_0_r.
    - intros i m' H1 Hm. cbn beta.
      assert (NB : forall k k' v0 mm, upd mm (sh O k') v0 (sh (nx, 0) k) = mm (sh (nx, 0) k)).
      { intros k k' v0 mm. apply upd_other. intros E. apply (f_equal fst) in E. cbn in E. lia. }
      rewrite !Hm, !Hy by lia. rewrite op11_a, op11_b by lia. rewrite !Z.mul_0_l, !Z.add_0_r. rewrite H1.
      rewrite (SGN_even (y h) (Z.quot (n - i) 2) (Z.quot (i + 2) 2)) by par.
      rewrite (SGN_odd (y (n - h)) (Z.quot (n - (i + 1)) 2) (Z.quot (i + 1) 2)) by par. do 2 f_equal. ring.
    - intros m' Hm. rewrite Hm, Hy, op11_h by lia. now rewrite Z.mul_0_l, Z.add_0_r.
  Qed.
  Lemma ro11o_store_ok os nx O m y : (fst O < nx)%nat -> inj1 n os -> (forall k, 0 <= k < n -> m (sh (nx, 0) k) = y k) ->
     (forall k, 0 <= k < n -> ro11o_store n os (nx, 0) O m (sh O (k * os)) = op11 1 y k) /\
     (forall l, (forall k, 0 <= k < n -> l <> sh O (k * os)) -> ro11o_store n os (nx, 0) O m l = m l).
  Proof.
    intros HO Jo Hy. unfold ro11o_store. cbn zeta. rewrite Hq.
    refine (odd_store_ok nx O os m (op11 1 y) (ro11o_iter n os (nx, 0) O) (ro11o_mid n os (nx, 0) O) (ro11o_last n os (nx, 0) O) HO Jo _ _ _);
      unfold ro11o_iter, ro11o_mid, ro11o_last; cbn zeta; rewrite Hq.
    - intros i m' H1 H2 Hm. cbn beta.
      assert (NB : forall k k' v0 mm, upd mm (sh O k') v0 (sh (nx, 0) k) = mm (sh (nx, 0) k)).
      { intros k k' v0 mm. apply upd_other. intros E. apply (f_equal fst) in E. cbn in E. lia. }
      replace (i + i + 1) with (2 * i + 1) by lia. rewrite ?NB, !Hm, !Hy by lia.
      rewrite op11_a, op11_b, op11_c, op11_d by lia. rewrite !Z.mul_1_l.
      rewrite (SGN_even _ (Z.quot (n - i) 2 + (n - (i + 1))) (Z.quot (n - i) 2 + i)) by par.
      rewrite (SGN_even _ (Z.quot (n - (i + 1)) 2 + (n - (i + 1))) (Z.quot (n - (i + 1)) 2 + i)) by par.
      rewrite (SGN_even _ (Z.quot (h + i + 2) 2 + (h + (i + 1))) (Z.quot (h + i + 2) 2 + (h - (i + 1)))) by par.
      rewrite (SGN_even _ (Z.quot (h + (i + 1)) 2 + (h + (i + 1))) (Z.quot (h + (i + 1)) 2 + (h - (i + 1)))) by par. reflexivity.
    - intros i m' H1 Hm. cbn beta.
      assert (NB : forall k k' v0 mm, upd mm (sh O k') v0 (sh (nx, 0) k) = mm (sh (nx, 0) k)).
      { intros k k' v0 mm. apply upd_other. intros E. apply (f_equal fst) in E. cbn in E. lia. }
      rewrite !Hm, !Hy by lia. rewrite op11_a, op11_b by lia. rewrite !Z.mul_1_l. rewrite H1.
      rewrite (SGN_even (y h) (Z.quot (n - i) 2 + (n - (i + 1))) (Z.quot (i + 2) 2 + i)) by par.
      rewrite (SGN_odd (y (n - h)) (Z.quot (n - (i + 1)) 2 + (n - (i + 1))) (Z.quot (i + 1) 2 + i)) by par. do 2 f_equal. ring.
    - intros m' Hm. rewrite Hm, Hy, op11_h by lia. now rewrite Z.mul_1_l.
  Qed.

  Lemma re11o_src x i : 0 <= i < n -> odx5 (fun m => m) (fun m => 2 * n - m - 1) (fun m => m - 2 * n) (fun m => 4 * n - m - 1) (fun m => m) x i = (sg5 i * x (src5 i))%R.
  Proof.
    intros Hi. unfold odx5, sg5, src5. cbn zeta.
    destruct (Z.ltb_spec (h + 4 * i) n); [ring|]. destruct (Z.ltb_spec (h + 4 * i) (2 * n)); [ring|].
    destruct (Z.ltb_spec (h + 4 * i) (3 * n)); [ring|]. destruct (Z.ltb_spec (h + 4 * i) (4 * n)); ring.
  Qed.
  Lemma ro11o_src x i : 0 <= i < n -> odx5 (fun m => n - 1 - m) (fun m => m - n) (fun m => 3 * n - 1 - m) (fun m => m - 3 * n) (fun m => n - 1 - m) x i = (sg5 i * x (n - 1 - src5 i)%Z)%R.
  Proof.
    intros Hi. unfold odx5, sg5, src5. cbn zeta.
    destruct (Z.ltb_spec (h + 4 * i) n); [ring|]. destruct (Z.ltb_spec (h + 4 * i) (2 * n)).
    { replace (n - 1 - (2 * n - (h + 4 * i) - 1)) with (h + 4 * i - n) by ring. ring. }
    destruct (Z.ltb_spec (h + 4 * i) (3 * n)).
    { replace (n - 1 - (h + 4 * i - 2 * n)) with (3 * n - 1 - (h + 4 * i)) by ring. ring. }
    destruct (Z.ltb_spec (h + 4 * i) (4 * n)); [|ring].
    replace (n - 1 - (4 * n - (h + 4 * i) - 1)) with (h + 4 * i - 3 * n) by ring. ring.
  Qed.
  Lemma op11_ext e y y' k : (forall j, 0 <= j < n -> y j = y' j) -> 0 <= k < n -> op11 e y k = op11 e y' k.
  Proof.
    intros H Hk. assert (Q : 0 <= qq k < n) by (unfold qq; destruct (Z.ltb_spec (2 * k + 1) n); lia).
    unfold op11, cv, sv. destruct (Z.eqb_spec (qq k) 0), (Z.ltb_spec (2 * qq k) n); rewrite ?(H (qq k)), ?(H (n - qq k)) by lia; reflexivity.
  Qed.
  Lemma hc_ext b b' k : (forall j, 0 <= j < n -> b j = b' j) -> hc n b k = hc n b' k.
  Proof. intros H. apply Rsum_ext. intros j Hj. now rewrite H. Qed.
  Lemma re11o_correct nd nd2 ip is os f : Correct nd2 true (rx (x1 R2HC n 1 1)) [] f ->
    Correct nd ip (rx (x1 REDFT11 n is os)) [] (buf_apply re11o_load re11o_store n is os f).
  Proof.
    intros Cf. apply buf_apply_correct with
      (B := odx5 (fun m => m) (fun m => 2 * n - m - 1) (fun m => m - 2 * n) (fun m => 4 * n - m - 1) (fun m => m)) (G := hc n) (Op := op11 0).
    - intros nx I m HI. exact (odd_load_ok _ _ _ _ _ is nx I m HI).
    - intros. now apply (r2hc_buf nd2).
    - intros. now apply re11o_store_ok.
    - intros x k Hk. rewrite odd_sum by auto. rewrite <- op11_hc by auto. apply op11_ext; auto. intros j Hj. apply hc_ext. intros i Hi. now apply re11o_src.
  Qed.
  Lemma rk_rodft11_rev j k : rk RODFT11 n (n - 1 - j) k = (cs 2 k * rk REDFT11 n j k)%R.
  Proof.
    rewrite rk_rodft11, rk_redft11 by lia.
    replace ((2 * (n - 1 - j) + 1) * (2 * k + 1)) with (2 * n + 4 * n * k - (2 * j + 1) * (2 * k + 1)) by ring.
    rewrite sn_sub, sn_add, cs_add. replace (8 * n) with (4 * (2 * n)) by ring. rewrite cs_quarter, sn_quarter by lia.
    replace (cs (4 * (2 * n)) (4 * n * k)) with (cs 2 k).
    2:{ rewrite <- (cs_scale 2 (4 * n)) by lia. f_equal; ring. }
    replace (sn (4 * (2 * n)) (4 * n * k)) with 0%R; [ring|].
    rewrite <- (sn_2 k). rewrite <- (sn_scale 2 (4 * n)) by lia. f_equal; ring.
  Qed.
  Lemma SGN_cs x k : 0 <= k -> SGN_SET x k = (cs 2 k * x)%R.
  Proof.
    intros Hk. rewrite sign_k. unfold SGN_SET. rewrite Z.rem_mod_nonneg by lia. destruct (_ =? _); ring.
  Qed.
  Lemma ro11o_correct nd nd2 ip is os f : Correct nd2 true (rx (x1 R2HC n 1 1)) [] f ->
    Correct nd ip (rx (x1 RODFT11 n is os)) [] (buf_apply ro11o_load ro11o_store n is os f).
  Proof.
    intros Cf. apply buf_apply_correct with
      (B := odx5 (fun m => n - 1 - m) (fun m => m - n) (fun m => 3 * n - 1 - m) (fun m => m - 3 * n) (fun m => n - 1 - m)) (G := hc n) (Op := op11 1).
    - intros nx I m HI. exact (odd_load_ok _ _ _ _ _ is nx I m HI).
    - intros. now apply (r2hc_buf nd2).
    - intros. now apply ro11o_store_ok.
    - intros x k Hk. rewrite op11_e, SGN_cs by lia. rewrite <- (Rsum_rev n (fun j => x j * rk RODFT11 n j k)%R).
      rewrite (Rsum_ext n _ (fun j => cs 2 k * (x (n - 1 - j)%Z * rk REDFT11 n j k))%R) by (intros; rewrite rk_rodft11_rev; ring).
      rewrite Rsum_mul_l. f_equal. rewrite (odd_sum (fun j => x (n - 1 - j))) by auto. rewrite <- op11_hc by auto.
      apply op11_ext; auto. intros j Hj. apply hc_ext. intros i Hi. now apply ro11o_src.
  Qed.
End Odd.

Lemma reodft11_odd_correct nd nd2 ip kd n is os f : 0 < n -> Z.rem n 2 = 1 -> kd = REDFT11 \/ kd = RODFT11 ->
  Correct nd2 true (rx (x1 R2HC n 1 1)) [] f ->
  Correct nd ip (rx (x1 kd n is os)) []
    (buf_apply (if rkind_eqb kd REDFT11 then re11o_load else ro11o_load) (if rkind_eqb kd REDFT11 then re11o_store else ro11o_store) n is os f).
Proof.
  intros Hn H2 Hk C. assert (E : n = 2 * (Z.quot n 2) + 1) by par. assert (0 <= Z.quot n 2) by par.
  destruct Hk as [->| ->]; cbn [rkind_eqb].
  - eapply re11o_correct; eauto.
  - eapply ro11o_correct; eauto.
Qed.
