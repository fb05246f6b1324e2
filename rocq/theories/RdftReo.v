(** * reodft/reodft010e-r2hc.c is correct (proof library) *)
From Coq Require Import Reals ZArith List Lia Lra Bool Permutation.
From Verif Require Import NumTheory Cplx Spec SpecR2R Base TensorModel Offs TensorProofs XForm XKern XSeq
  DftModel RdftModel DftTw DftPrime RSum RdftX RdftLib RdftLoop RMath RdftDht RdftGen.
Import ListNotations.
Open Scope Z_scope.

Lemma tw_cs_c N v st i : tw_cs N v st (2 * i) = cs N (st * i + v).
Proof.
  unfold tw_cs. rewrite (Z.mul_comm 2 i), Z.div_mul, Z.mod_mul by lia. reflexivity.
Qed.
Lemma tw_cs_s N v st i : tw_cs N v st (2 * i + 1) = sn N (st * i + v).
Proof.
  unfold tw_cs. replace (2 * i + 1) with (1 + i * 2) by ring. rewrite Z.div_add, Z.mod_add by lia.
  change (1 / 2) with 0. change (1 mod 2) with 1. now rewrite Z.add_0_l.
Qed.

(** buf_apply: load, transform the buffer, store *)
Lemma buf_apply_correct nd ip kd n is os load store f (B G Op : (Z -> R) -> Z -> R) :
  (forall nx I m, (fst I < nx)%nat ->
     (forall k, 0 <= k < n -> load n is (nx, 0) I m (sh (nx, 0) k) = B (fun j => m (sh I (j * is))) k) /\
     (forall l, (fst l < nx)%nat -> load n is (nx, 0) I m l = m l)) ->
  (forall nx m y, (forall k, 0 <= k < n -> m (sh (nx, 0) k) = y k) ->
     (forall k, 0 <= k < n -> f (S nx) (nx, 0) (nx, 0) m (sh (nx, 0) k) = G y k) /\
     (forall l, (fst l < nx)%nat -> f (S nx) (nx, 0) (nx, 0) m l = m l)) ->
  (forall nx O m y, (fst O < nx)%nat -> inj1 n os -> (forall k, 0 <= k < n -> m (sh (nx, 0) k) = y k) ->
     (forall k, 0 <= k < n -> store n os (nx, 0) O m (sh O (k * os)) = Op y k) /\
     (forall l, (forall k, 0 <= k < n -> l <> sh O (k * os)) -> store n os (nx, 0) O m l = m l)) ->
  (forall x k, 0 <= k < n -> Op (G (B x)) k = Rsum n (fun j => x j * rk kd n j k)%R) ->
  Correct nd ip (rx (x1 kd n is os)) [] (buf_apply load store n is os f).
Proof.
  intros HL HF HS HM. apply prove_r1. intros nx I O m [HI HO Ji Jo _]. unfold buf_apply. cbn zeta.
  destruct (HL nx I m HI) as [L1 L2]. set (m1 := load n is (nx, 0) I m) in *. clearbody m1.
  destruct (HF nx m1 _ L1) as [F1 F2]. set (m2 := f (S nx) (nx, 0) (nx, 0) m1) in *. clearbody m2.
  destruct (HS nx O m2 _ HO Jo F1) as [S1 S2]. split.
  - intros k Hk. rewrite S1 by auto. now apply HM.
  - intros l Hl Ho _. rewrite S2, F2, L2; auto.
Qed.
(** the child: an in-place R2HC of the buffer *)
Lemma r2hc_buf nd n f nx m y : Correct nd true (rx (x1 R2HC n 1 1)) [] f ->
  (forall k, 0 <= k < n -> m (sh (nx, 0) k) = y k) ->
  (forall k, 0 <= k < n -> f (S nx) (nx, 0) (nx, 0) m (sh (nx, 0) k) = Rsum n (fun j => y j * rk R2HC n j k)%R) /\
  (forall l, (fst l < nx)%nat -> f (S nx) (nx, 0) (nx, 0) m l = m l).
Proof.
  intros C Hy. destruct (run_w1 _ _ _ _ _ _ _ _ _ _ m C (W1_same (S nx) n 1 (nx, 0) ltac:(cbn; lia) (inj1_1 n))) as [V F]. split.
  - intros k Hk. specialize (V k Hk). rewrite Z.mul_1_r in V. rewrite V. apply Rsum_ext. intros j Hj. now rewrite Z.mul_1_r, Hy.
  - intros l Hl. apply F; [lia| |right]; intros k _ ->; cbn in Hl; lia.
Qed.

Section K010.
  Variable n : Z.
  Hypothesis Hn : 0 < n.

  Lemma c_ref i : cs (4 * n) (n - i) = sn (4 * n) i.
  Proof. rewrite cs_sub, cs_quarter, sn_quarter by lia. ring. Qed.
  Lemma s_ref i : sn (4 * n) (n - i) = cs (4 * n) i.
  Proof. rewrite sn_sub, cs_quarter, sn_quarter by lia. ring. Qed.
  Lemma cs_4 q : cs n q = cs (4 * n) (4 * q).
  Proof. symmetry. apply cs_scale; lia. Qed.
  Lemma sn_4 q : sn n q = sn (4 * n) (4 * q).
  Proof. symmetry. apply sn_scale; lia. Qed.

  Lemma buf_ne (nx : nat) (I : loc) q k : (fst I < nx)%nat -> sh I q <> sh (nx, 0) k.
  Proof. intros H E. apply (f_equal fst) in E. cbn in E. lia. Qed.
  Ltac nxinj := let E := fresh in intros E; apply sh_nx_inj in E; lia.
  Ltac osinj := let E := fresh in intros E; apply (sh_s _ n) in E; auto; lia.

  (** a load into the buffer *)
  Lemma fill_load (nx : nat) (m : mem) (v : Z -> R) b0 body bm :
    b0 m = upd m (sh (nx, 0) 0) (v 0) ->
    (forall i m', 0 < i -> 2 * i < n -> (forall l, fst l <> nx -> m' l = m l) ->
      body i m' = upd (upd m' (sh (nx, 0) i) (v i)) (sh (nx, 0) (n - i)) (v (n - i)) \/
      body i m' = upd (upd m' (sh (nx, 0) (n - i)) (v (n - i))) (sh (nx, 0) i) (v i)) ->
    (forall i m', 0 < i -> 2 * i = n -> (forall l, fst l <> nx -> m' l = m l) -> bm i m' = upd m' (sh (nx, 0) i) (v i)) ->
    (forall k, 0 <= k < n -> middle n bm (pairs n body (b0 m)) (sh (nx, 0) k) = v k) /\
    (forall l, (fst l < nx)%nat -> middle n bm (pairs n body (b0 m)) l = m l).
  Proof.
    intros H0 Hp Hm.
    destruct (fill_cells n b0 body bm m (fun k => sh (nx, 0) k) v Hn) as [P1 P2].
    - rewrite H0. apply upd_same.
    - intros l Hl. rewrite H0. apply upd_other. congruence.
    - intros i m' Hi Hi2 Hl.
      destruct (Hp i m' Hi Hi2) as [->| ->].
      { intros l Nl. apply Hl. intros k _ ->. now apply Nl. }
      + apply upd2. nxinj.
      + destruct (upd2 m' (sh (nx, 0) (n - i)) (sh (nx, 0) i) (v (n - i)) (v i)) as (U1 & U2 & U3); [nxinj|]. auto.
    - intros i m' Hi Hi2 Hl. rewrite Hm; auto; [apply upd1|]. intros l Nl. apply Hl. intros k _ _ ->. now apply Nl.
    - intros j k _ _. apply sh_nx_inj.
    - split; auto. intros l Hl. apply P2. intros k _ ->. cbn in Hl. lia.
  Qed.
  (** a store from the buffer; the cells of O are numbered by [s] *)
  Lemma fill_store (nx : nat) O os (m : mem) (s : Z -> Z) (v : Z -> R) b0 body bm : (fst O < nx)%nat -> inj1 n os ->
    (forall k, 0 <= k < n -> 0 <= s k < n) -> (forall j k, 0 <= j < n -> 0 <= k < n -> s j = s k -> j = k) ->
    b0 m = upd m (sh O (s 0 * os)) (v (s 0)) ->
    (forall i m', 0 < i -> 2 * i < n -> (forall k, m' (sh (nx, 0) k) = m (sh (nx, 0) k)) ->
      body i m' = upd (upd m' (sh O (s i * os)) (v (s i))) (sh O (s (n - i) * os)) (v (s (n - i)))) ->
    (forall i m', 0 < i -> 2 * i = n -> (forall k, m' (sh (nx, 0) k) = m (sh (nx, 0) k)) -> bm i m' = upd m' (sh O (s i * os)) (v (s i))) ->
    (forall k, 0 <= k < n -> middle n bm (pairs n body (b0 m)) (sh O (k * os)) = v k) /\
    (forall l, (forall k, 0 <= k < n -> l <> sh O (k * os)) -> middle n bm (pairs n body (b0 m)) l = m l).
  Proof.
    intros HO Jo Sr Si H0 Hp Hm.
    assert (Jo' : forall j k, 0 <= j < n -> 0 <= k < n -> sh O (s j * os) = sh O (s k * os) -> j = k).
    { intros j k Hj Hk E. apply (sh_s _ n) in E; auto. }
    destruct (fill_cells n b0 body bm m (fun k => sh O (s k * os)) (fun k => v (s k)) Hn) as [P1 P2].
    - rewrite H0. apply upd_same.
    - intros l Hl. rewrite H0. apply upd_other. congruence.
    - intros i m' Hi Hi2 Hl. rewrite (Hp i m' Hi Hi2).
      + apply upd2. intros E. apply Jo' in E; lia.
      + intros k. apply Hl. intros k' _ E. symmetry in E. revert E. now apply buf_ne.
    - intros i m' Hi Hi2 Hl. rewrite Hm; auto; [apply upd1|]. intros k. apply Hl. intros k' _ _ E. symmetry in E. revert E. now apply buf_ne.
    - exact Jo'.
    - assert (Ss : forall k, 0 <= k < n -> exists j, 0 <= j < n /\ s j = k).
      { intros k Hk. assert (L : In k (map s (zr n))).
        { eapply (NoDup_length_incl (l := map s (zr n)) (l' := zr n)).
          - apply NoDup_map_inj; [|apply NoDup_zr]. intros a b Ha Hb. apply in_zr in Ha, Hb. now apply Si.
          - now rewrite map_length.
          - intros z Hz. apply in_map_iff in Hz as (j & <- & Hj). apply in_zr in Hj. apply in_zr. now apply Sr.
          - now apply in_zr. }
        apply in_map_iff in L as (j & E & Hj). apply in_zr in Hj. eauto. }
      split.
      + intros k Hk. destruct (Ss k Hk) as (j & Hj & <-). now apply P1.
      + intros l Hl. apply P2. intros k Hk. apply Hl. auto.
  Qed.

  (** *** REDFT10 *)
  Definition p10 (j : Z) : Z := if 2 * j <? n then 2 * j else 2 * (n - j) - 1.
  Lemma re10_load_ok is nx I m : (fst I < nx)%nat ->
     (forall k, 0 <= k < n -> re10_load n is (nx, 0) I m (sh (nx, 0) k) = m (sh I (p10 k * is))) /\
     (forall l, (fst l < nx)%nat -> re10_load n is (nx, 0) I m l = m l).
  Proof.
    intros HI. unfold re10_load. cbn zeta.
    apply (fill_load nx m (fun k => m (sh I (p10 k * is))) (fun m => upd m (sh (nx, 0) 0) (m (sh I 0)))).
    - unfold p10. destruct (Z.ltb_spec (2 * 0) n); [|lia]. now rewrite Z.mul_0_r, Z.mul_0_l.
    - intros i m' Hi Hi2 Hm. right. rewrite !Hm by (cbn; lia). unfold p10. destruct (Z.ltb_spec (2 * i) n); [|lia].
      destruct (Z.ltb_spec (2 * (n - i)) n); [lia|]. replace (2 * (n - (n - i)) - 1) with (i + i - 1) by lia. now replace (2 * i) with (i + i) by lia.
    - intros i m' Hi Hi2 Hm. rewrite !Hm by (cbn; lia). unfold p10. destruct (Z.ltb_spec (2 * i) n); [lia|]. now replace (2 * (n - i) - 1) with (n - 1) by lia.
  Qed.
  Lemma p10_range j : 0 <= j < n -> 0 <= p10 j < n.
  Proof. intros H. unfold p10. destruct (Z.ltb_spec (2 * j) n); lia. Qed.
  Lemma p10_inj i j : 0 <= i < n -> 0 <= j < n -> p10 i = p10 j -> i = j.
  Proof. intros Hi Hj. unfold p10. destruct (Z.ltb_spec (2 * i) n), (Z.ltb_spec (2 * j) n); lia. Qed.
  Lemma p10_sum f : Rsum n (fun j => f (p10 j)) = Rsum n f.
  Proof. apply Rsum_reindex; [apply p10_range|apply p10_inj]. Qed.

  Definition op10 (y : Z -> R) (k : Z) : R :=
    if k =? 0 then (2 * y 0%Z)%R
    else if 2 * k =? n then (2 * y k * cs (4 * n) k)%R
    else if 2 * k <? n then (cs (4 * n) k * (2 * y k) + sn (4 * n) k * (2 * y (n - k)%Z))%R
    else (sn (4 * n) (n - k) * (2 * y (n - k)%Z) - cs (4 * n) (n - k) * (2 * y k))%R.
  Lemma op10_0 y : op10 y 0 = (2 * y 0%Z)%R. Proof. reflexivity. Qed.
  Lemma op10_lo y i : 0 < i -> 2 * i < n -> op10 y i = (cs (4 * n) i * (2 * y i) + sn (4 * n) i * (2 * y (n - i)%Z))%R.
  Proof. intros. unfold op10. destruct (Z.eqb_spec i 0), (Z.eqb_spec (2 * i) n), (Z.ltb_spec (2 * i) n); try lia. reflexivity. Qed.
  Lemma op10_hi y i : 0 < i -> 2 * i < n -> op10 y (n - i) = (sn (4 * n) i * (2 * y i) - cs (4 * n) i * (2 * y (n - i)%Z))%R.
  Proof.
    intros. unfold op10. destruct (Z.eqb_spec (n - i) 0), (Z.eqb_spec (2 * (n - i)) n), (Z.ltb_spec (2 * (n - i)) n); try lia.
    now replace (n - (n - i)) with i by lia.
  Qed.
  Lemma op10_mid y i : 0 < i -> 2 * i = n -> op10 y i = (2 * y i * cs (4 * n) i)%R.
  Proof. intros. unfold op10. destruct (Z.eqb_spec i 0), (Z.eqb_spec (2 * i) n); try lia. reflexivity. Qed.
  Lemma tw0_c i : tw_cs (4 * n) 0 1 (2 * i) = cs (4 * n) i.
  Proof. rewrite tw_cs_c. f_equal. lia. Qed.
  Lemma tw0_s i : tw_cs (4 * n) 0 1 (2 * i + 1) = sn (4 * n) i.
  Proof. rewrite tw_cs_s. f_equal. lia. Qed.

  Lemma re10_store_ok os nx O m y : (fst O < nx)%nat -> inj1 n os -> (forall k, 0 <= k < n -> m (sh (nx, 0) k) = y k) ->
     (forall k, 0 <= k < n -> re10_store n os (nx, 0) O m (sh O (k * os)) = op10 y k) /\
     (forall l, (forall k, 0 <= k < n -> l <> sh O (k * os)) -> re10_store n os (nx, 0) O m l = m l).
  Proof.
    intros HO Jo Hy. unfold re10_store. cbn zeta.
    apply (fill_store nx O os m (fun k => k) (op10 y) (fun m => upd m (sh O 0) (2 * m (sh (nx, 0%Z) 0%Z))%R)); auto.
    - rewrite Z.mul_0_l, Hy, op10_0 by lia. reflexivity.
    - intros i m' Hi Hi2 Hm. rewrite !Hm, !Hy, tw0_c, tw0_s, op10_lo, op10_hi by lia. reflexivity.
    - intros i m' Hi Hi2 Hm. rewrite !Hm, !Hy, tw0_c, op10_mid by lia. reflexivity.
  Qed.
  Definition hc (b : Z -> R) (k : Z) : R := Rsum n (fun j => b j * rk R2HC n j k)%R.
  Lemma op10_hc b k : 0 <= k < n -> op10 (hc b) k = Rsum n (fun j => b j * (2 * cs (4 * n) (k * (4 * j + 1))))%R.
  Proof.
    intros Hk. destruct (Z.eq_dec k 0) as [->|N0].
    { rewrite op10_0. unfold hc. rewrite hc_re, <- Rsum_mul_l by lia. apply Rsum_ext. intros j _. rewrite Z.mul_0_r, Z.mul_0_l, !cs_0. ring. }
    destruct (Ztrichotomy (2 * k) n) as [L|[L|L]].
    - rewrite op10_lo by lia. unfold hc. rewrite hc_re, hc_im by lia.
      replace (2 * - Rsum n (fun j => b j * sn n (j * k)%Z))%R with (- 2 * Rsum n (fun j => b j * sn n (j * k)%Z))%R by ring.
      rewrite <- !Rsum_mul_l. rewrite <- Rsum_add. apply Rsum_ext. intros j _.
      replace (k * (4 * j + 1)) with (4 * (j * k) + k) by ring. rewrite cs_add, cs_4, sn_4. ring.
    - rewrite op10_mid by lia. unfold hc. rewrite hc_re by lia. 
      replace (2 * Rsum n (fun j => b j * cs n (j * k)%Z) * cs (4 * n) k)%R with (2 * cs (4 * n) k * Rsum n (fun j => b j * cs n (j * k)%Z))%R by ring.
      rewrite <- Rsum_mul_l. apply Rsum_ext. intros j _.
      replace (k * (4 * j + 1)) with (4 * (j * k) + k) by ring. rewrite cs_add, <- cs_4, <- sn_4, sn_mid by lia. ring.
    - replace k with (n - (n - k)) by lia. set (i := n - k). rewrite op10_hi by lia. unfold hc. rewrite hc_re, hc_im by lia.
      replace (cs (4 * n) i * (2 * - Rsum n (fun j => b j * sn n (j * i)%Z)))%R with (- (2 * cs (4 * n) i) * Rsum n (fun j => b j * sn n (j * i)%Z))%R by ring.
      rewrite <- !Rmult_assoc. rewrite <- !Rsum_mul_l. unfold Rminus. rewrite <- Rsum_opp, <- Rsum_add. apply Rsum_ext. intros j _.
      replace ((n - i) * (4 * j + 1)) with (n - (4 * (j * i) + i) + 4 * n * j) by ring. rewrite cs_period by lia.
      rewrite c_ref, sn_add, cs_4, sn_4. ring.
  Qed.
  Lemma re10_math x k : 0 <= k < n -> op10 (hc (fun j => x (p10 j))) k = Rsum n (fun j => x j * rk REDFT10 n j k)%R.
  Proof.
    intros Hk. rewrite op10_hc by auto. rewrite <- (p10_sum (fun j => x j * rk REDFT10 n j k)%R). apply Rsum_ext. intros j Hj. f_equal. rewrite rk_redft10 by lia. f_equal.
    unfold p10. destruct (Z.ltb_spec (2 * j) n); [f_equal; ring|].
    rewrite <- cs_neg. apply cs_congr; [lia|]. exists (- k). ring.
  Qed.
  Lemma re10_correct nd nd2 ip is os f : Correct nd2 true (rx (x1 R2HC n 1 1)) [] f ->
    Correct nd ip (rx (x1 REDFT10 n is os)) [] (buf_apply re10_load re10_store n is os f).
  Proof.
    intros C. apply buf_apply_correct with (B := fun x k => x (p10 k)) (G := hc) (Op := op10).
    - intros. now apply re10_load_ok.
    - intros. now apply (r2hc_buf nd2).
    - intros. now apply re10_store_ok.
    - intros. now apply re10_math.
  Qed.

  (** *** RODFT10 *)
  Definition b10o (x : Z -> R) (k : Z) : R := if 2 * k <? n then x (p10 k) else (- x (p10 k))%R.
  Lemma ro10_load_ok is nx I m : (fst I < nx)%nat ->
     (forall k, 0 <= k < n -> ro10_load n is (nx, 0) I m (sh (nx, 0) k) = b10o (fun j => m (sh I (j * is))) k) /\
     (forall l, (fst l < nx)%nat -> ro10_load n is (nx, 0) I m l = m l).
  Proof.
    intros HI. unfold ro10_load. cbn zeta.
    apply (fill_load nx m (b10o (fun j => m (sh I (j * is)))) (fun m => upd m (sh (nx, 0) 0) (m (sh I 0)))); unfold b10o, p10.
    - destruct (Z.ltb_spec (2 * 0) n); [|lia]. now rewrite Z.mul_0_r, Z.mul_0_l.
    - intros i m' Hi Hi2 Hm. right. rewrite !Hm by (cbn; lia). destruct (Z.ltb_spec (2 * i) n); [|lia].
      destruct (Z.ltb_spec (2 * (n - i)) n); [lia|]. replace (2 * (n - (n - i)) - 1) with (i + i - 1) by lia. now replace (2 * i) with (i + i) by lia.
    - intros i m' Hi Hi2 Hm. rewrite !Hm by (cbn; lia). destruct (Z.ltb_spec (2 * i) n); [lia|]. now replace (2 * (n - i) - 1) with (n - 1) by lia.
  Qed.
  Lemma ro10_store_ok os nx O m y : (fst O < nx)%nat -> inj1 n os -> (forall k, 0 <= k < n -> m (sh (nx, 0) k) = y k) ->
     (forall k, 0 <= k < n -> ro10_store n os (nx, 0) O m (sh O (k * os)) = op10 y (n - 1 - k)) /\
     (forall l, (forall k, 0 <= k < n -> l <> sh O (k * os)) -> ro10_store n os (nx, 0) O m l = m l).
  Proof.
    intros HO Jo Hy. unfold ro10_store. cbn zeta.
    apply (fill_store nx O os m (fun k => n - 1 - k) (fun k => op10 y (n - 1 - k)) (fun m => upd m (sh O ((n - 1) * os)) (2 * m (sh (nx, 0%Z) 0%Z))%R)); auto; try (intros; lia).
    - replace (n - 1 - (n - 1 - 0)) with 0 by lia. rewrite Hy, op10_0 by lia. now rewrite Z.sub_0_r.
    - intros i m' Hi Hi2 Hm. replace (n - 1 - (n - 1 - i)) with i by lia. replace (n - 1 - (n - 1 - (n - i))) with (n - i) by lia.
      rewrite !Hm, !Hy, tw0_c, tw0_s, op10_lo, op10_hi by lia. now replace (n - 1 - (n - i)) with (i - 1) by lia.
    - intros i m' Hi Hi2 Hm. replace (n - 1 - (n - 1 - i)) with i by lia. rewrite !Hm, !Hy, tw0_c, op10_mid by lia.
      now replace (n - 1 - i) with (i - 1) by lia.
  Qed.
  Lemma ro10_math x k : 0 <= k < n -> op10 (hc (b10o x)) (n - 1 - k) = Rsum n (fun j => x j * rk RODFT10 n j k)%R.
  Proof.
    intros Hk. rewrite op10_hc by lia. rewrite <- (p10_sum (fun j => x j * rk RODFT10 n j k)%R). apply Rsum_ext. intros j Hj. rewrite rk_rodft10 by lia.
    replace ((n - 1 - k) * (4 * j + 1)) with (n - (k + 1) * (4 * j + 1) + 4 * n * j) by ring. rewrite cs_period, c_ref by lia.
    unfold b10o, p10. destruct (Z.ltb_spec (2 * j) n).
    - replace ((2 * (2 * j) + 1) * (k + 1)) with ((k + 1) * (4 * j + 1)) by ring. ring.
    - replace ((2 * (2 * (n - j) - 1) + 1) * (k + 1)) with (- ((k + 1) * (4 * j + 1)) + 4 * n * (k + 1)) by ring.
      rewrite sn_period, sn_neg by lia. ring.
  Qed.
  Lemma ro10_correct nd nd2 ip is os f : Correct nd2 true (rx (x1 R2HC n 1 1)) [] f ->
    Correct nd ip (rx (x1 RODFT10 n is os)) [] (buf_apply ro10_load ro10_store n is os f).
  Proof.
    intros C. apply buf_apply_correct with (B := b10o) (G := hc) (Op := fun y k => op10 y (n - 1 - k)).
    - intros. now apply ro10_load_ok.
    - intros. now apply (r2hc_buf nd2).
    - intros. now apply ro10_store_ok.
    - intros. now apply ro10_math.
  Qed.

  (** *** REDFT01 *)
  Definition b01 (x : Z -> R) (k : Z) : R :=
    if k =? 0 then x 0 else (x k * (cs (4 * n) k + sn (4 * n) k) + x (n - k)%Z * (sn (4 * n) k - cs (4 * n) k))%R.
  Lemma mid_cs i : 2 * i = n -> sn (4 * n) i = cs (4 * n) i.
  Proof. intros H. rewrite <- c_ref. f_equal. lia. Qed.
  Lemma b01_load (nx : nat) (m : mem) I (g : Z -> Z) (e : Z -> Z) : (fst I < nx)%nat ->
    (forall i, 2 * i = n -> e i = g i) ->
    let W := tw_cs (4 * n) 0 1 in
    let m' := middle n (fun i m => upd m (sh (nx, 0) i) (2 * m (sh I (e i)) * W (2 * i)%Z)%R) (pairs n (fun i m =>
      upd (upd m (sh (nx, 0) i) (W (2 * i)%Z * (m (sh I (g i)) - m (sh I (g (n - i)%Z))) + W (2 * i + 1)%Z * (m (sh I (g i)) + m (sh I (g (n - i)%Z))))%R)
        (sh (nx, 0) (n - i)) (W (2 * i)%Z * (m (sh I (g i)) + m (sh I (g (n - i)%Z))) - W (2 * i + 1)%Z * (m (sh I (g i)) - m (sh I (g (n - i)%Z))))%R)
      (upd m (sh (nx, 0) 0) (m (sh I (g 0))))) in
    (forall k, 0 <= k < n -> m' (sh (nx, 0) k) = b01 (fun j => m (sh I (g j))) k) /\
    (forall l, (fst l < nx)%nat -> m' l = m l).
  Proof.
    intros HI He W m'.
    apply (fill_load nx m (b01 (fun j => m (sh I (g j)))) (fun m => upd m (sh (nx, 0) 0) (m (sh I (g 0))))).
    - reflexivity.
    - intros i m1 Hi Hi2 Hm. left. unfold W. rewrite !Hm, tw0_c, tw0_s by (cbn; lia). unfold b01.
      destruct (Z.eqb_spec i 0), (Z.eqb_spec (n - i) 0); try lia. rewrite c_ref, s_ref. replace (n - (n - i)) with i by lia.
      f_equal; [f_equal|]; ring.
    - intros i m1 Hi Hi2 Hm. unfold W. rewrite !Hm, tw0_c by (cbn; lia). unfold b01. destruct (Z.eqb_spec i 0); try lia.
      replace (n - i) with i by lia. rewrite mid_cs, He by lia. f_equal. ring.
  Qed.
  Lemma re01_load_ok is nx I m : (fst I < nx)%nat ->
     (forall k, 0 <= k < n -> re01_load n is (nx, 0) I m (sh (nx, 0) k) = b01 (fun j => m (sh I (j * is))) k) /\
     (forall l, (fst l < nx)%nat -> re01_load n is (nx, 0) I m l = m l).
  Proof. intros HI. exact (b01_load nx m I (fun j => j * is) (fun j => j * is) HI (fun _ _ => eq_refl)). Qed.

  Definition s01 (j : Z) : Z := if j =? 0 then 0 else if 2 * j <=? n then 2 * j - 1 else 2 * (n - j).
  Lemma s01_range k : 0 <= k < n -> 0 <= s01 k < n.
  Proof. intros H. unfold s01. destruct (Z.eqb_spec k 0), (Z.leb_spec (2 * k) n); lia. Qed.
  Lemma s01_inj j k : 0 <= j < n -> 0 <= k < n -> s01 j = s01 k -> j = k.
  Proof.
    intros Hj Hk. unfold s01.
    destruct (Z.eqb_spec j 0), (Z.leb_spec (2 * j) n), (Z.eqb_spec k 0), (Z.leb_spec (2 * k) n); lia.
  Qed.
  (** [e] = 1 for REDFT01, -1 for RODFT01 *)
  Definition op01 (e : R) (y : Z -> R) (k : Z) : R :=
    if k =? 0 then y 0
    else if k mod 2 =? 0 then (y (k / 2)%Z + y (n - k / 2)%Z)%R
    else if k =? n - 1 then (e * y ((k + 1) / 2)%Z)%R else (e * (y ((k + 1) / 2)%Z - y (n - (k + 1) / 2)%Z))%R.
  Lemma op01_even e y i : 0 < i -> op01 e y (2 * i) = (y i + y (n - i)%Z)%R.
  Proof.
    intros. unfold op01. destruct (Z.eqb_spec (2 * i) 0); [lia|]. rewrite (Z.mul_comm 2 i), Z.mod_mul, Z.div_mul by lia. reflexivity.
  Qed.
  Lemma op01_odd e y i : 0 < i -> 2 * i < n -> op01 e y (2 * i - 1) = (e * (y i - y (n - i)%Z))%R.
  Proof.
    intros. unfold op01. destruct (Z.eqb_spec (2 * i - 1) 0); [lia|].
    replace ((2 * i - 1) mod 2) with 1 by (replace (2 * i - 1) with (1 + (i - 1) * 2) by ring; rewrite Z.mod_add by lia; reflexivity).
    cbn [Z.eqb]. destruct (Z.eqb_spec (2 * i - 1) (n - 1)); [lia|]. replace (2 * i - 1 + 1) with (i * 2) by ring. now rewrite Z.div_mul by lia.
  Qed.
  Lemma op01_mid e y i : 0 < i -> 2 * i = n -> op01 e y (2 * i - 1) = (e * y i)%R.
  Proof.
    intros. unfold op01. destruct (Z.eqb_spec (2 * i - 1) 0); [lia|].
    replace ((2 * i - 1) mod 2) with 1 by (replace (2 * i - 1) with (1 + (i - 1) * 2) by ring; rewrite Z.mod_add by lia; reflexivity).
    cbn [Z.eqb]. destruct (Z.eqb_spec (2 * i - 1) (n - 1)); [|lia]. replace (2 * i - 1 + 1) with (i * 2) by ring. now rewrite Z.div_mul by lia.
  Qed.
  Lemma s01_lo i : 0 < i -> 2 * i <= n -> s01 i = 2 * i - 1.
  Proof. intros. unfold s01. destruct (Z.eqb_spec i 0), (Z.leb_spec (2 * i) n); lia. Qed.
  Lemma s01_hi i : 0 < i -> 2 * i < n -> s01 (n - i) = 2 * i.
  Proof. intros. unfold s01. destruct (Z.eqb_spec (n - i) 0), (Z.leb_spec (2 * (n - i)) n); lia. Qed.
  Lemma re01_store_ok os nx O m y : (fst O < nx)%nat -> inj1 n os -> (forall k, 0 <= k < n -> m (sh (nx, 0) k) = y k) ->
     (forall k, 0 <= k < n -> re01_store n os (nx, 0) O m (sh O (k * os)) = op01 1 y k) /\
     (forall l, (forall k, 0 <= k < n -> l <> sh O (k * os)) -> re01_store n os (nx, 0) O m l = m l).
  Proof.
    intros HO Jo Hy. unfold re01_store. cbn zeta.
    apply (fill_store nx O os m s01 (op01 1 y) (fun m => upd m (sh O 0) (m (sh (nx, 0) 0)))); auto.
    - apply s01_range.
    - apply s01_inj.
    - change (s01 0) with 0. now rewrite Z.mul_0_l, Hy by lia.
    - intros i m' Hi Hi2 Hm. rewrite s01_lo, s01_hi, op01_odd, op01_even by lia. rewrite !Hm, !Hy by lia. replace (i + i) with (2 * i) by lia.
      f_equal. f_equal. ring.
    - intros i m' Hi Hi2 Hm. rewrite s01_lo, op01_mid by lia. rewrite Hm, Hy by lia. replace (n - 1) with (2 * i - 1) by lia. f_equal. ring.
  Qed.
  Lemma ro01_store_ok os nx O m y : (fst O < nx)%nat -> inj1 n os -> (forall k, 0 <= k < n -> m (sh (nx, 0) k) = y k) ->
     (forall k, 0 <= k < n -> ro01_store n os (nx, 0) O m (sh O (k * os)) = op01 (-1) y k) /\
     (forall l, (forall k, 0 <= k < n -> l <> sh O (k * os)) -> ro01_store n os (nx, 0) O m l = m l).
  Proof.
    intros HO Jo Hy. unfold ro01_store. cbn zeta.
    apply (fill_store nx O os m s01 (op01 (-1) y) (fun m => upd m (sh O 0) (m (sh (nx, 0) 0)))); auto.
    - apply s01_range.
    - apply s01_inj.
    - change (s01 0) with 0. now rewrite Z.mul_0_l, Hy by lia.
    - intros i m' Hi Hi2 Hm. rewrite s01_lo, s01_hi, op01_odd, op01_even by lia. rewrite !Hm, !Hy by lia. replace (i + i) with (2 * i) by lia.
      f_equal. f_equal. ring.
    - intros i m' Hi Hi2 Hm. rewrite s01_lo, op01_mid by lia. rewrite Hm, Hy by lia. replace (n - 1) with (2 * i - 1) by lia. f_equal. ring.
  Qed.
  (** output 2i is sum b (cos - sin), output 2i-1 is sum b (cos + sin), at i *)
  Lemma op01_hc_even e b i : 0 <= i -> 2 * i < n -> op01 e (hc b) (2 * i) = Rsum n (fun j => b j * (cs n (j * i)%Z - sn n (j * i)%Z))%R.
  Proof.
    intros Hi Hi2. destruct (Z.eq_dec i 0) as [->|N0].
    - change (op01 e (hc b) (2 * 0)) with (hc b 0). unfold hc. rewrite hc_re by lia. apply Rsum_ext. intros j _. rewrite Z.mul_0_r, sn_0. ring.
    - rewrite op01_even by lia. unfold hc. rewrite hc_re, hc_im by lia. rewrite <- Rsum_opp, <- Rsum_add. apply Rsum_ext. intros j _. ring.
  Qed.
  Lemma op01_hc_odd e b i : 0 < i -> 2 * i <= n -> op01 e (hc b) (2 * i - 1) = (e * Rsum n (fun j => b j * (cs n (j * i)%Z + sn n (j * i)%Z)))%R.
  Proof.
    intros Hi Hi2. destruct (Z.eq_dec (2 * i) n) as [E|N0].
    - rewrite op01_mid by lia. f_equal. unfold hc. rewrite hc_re by lia. apply Rsum_ext. intros j _. rewrite sn_mid by lia. ring.
    - rewrite op01_odd by lia. f_equal. unfold hc. rewrite hc_re, hc_im by lia. unfold Rminus. rewrite Ropp_involutive, <- Rsum_add. apply Rsum_ext. intros j _. ring.
  Qed.
  Lemma b01_0 x : b01 x 0 = x 0. Proof. reflexivity. Qed.
  Lemma b01_S x k : 0 < k -> b01 x k = (x k * (cs (4 * n) k + sn (4 * n) k) + x (n - k)%Z * (sn (4 * n) k - cs (4 * n) k))%R.
  Proof. intros. unfold b01. now destruct (Z.eqb_spec k 0); [lia|]. Qed.
  Lemma m01_even x i : 0 <= i -> Rsum n (fun j => b01 x j * (cs n (j * i)%Z - sn n (j * i)%Z))%R = Rsum n (fun j => x j * rk REDFT01 n j (2 * i)%Z)%R.
  Proof.
    intros Hi. apply Rsum_pair_eq; auto.
    - rewrite b01_0, rk_redft01_0, Z.mul_0_l, cs_0, sn_0. ring.
    - intros j Hj Hj2. rewrite !b01_S, !rk_redft01 by lia. rewrite cs_ref', sn_ref', c_ref, s_ref by lia. replace (n - (n - j)) with j by lia.
      replace (j * (2 * (2 * i) + 1)) with (j + 4 * (j * i)) by ring.
      replace ((n - j) * (2 * (2 * i) + 1)) with (n - (j + 4 * (j * i)) + 4 * n * i) by ring. rewrite cs_period, c_ref by lia.
      rewrite cs_add, sn_add, <- !cs_4, <- !sn_4. ring.
    - intros j Hj Hj2. rewrite b01_S, rk_redft01 by lia. replace (n - j) with j by lia. replace (j * (2 * (2 * i) + 1)) with (j + 4 * (j * i)) by ring.
      rewrite cs_add, <- !cs_4, <- !sn_4. rewrite mid_cs by lia. rewrite (Z.mul_comm j i), sn_mid by lia. ring.
  Qed.
  Lemma m01_odd x i : Rsum n (fun j => b01 x j * (cs n (j * i)%Z + sn n (j * i)%Z))%R = Rsum n (fun j => x j * rk REDFT01 n j (2 * i - 1)%Z)%R.
  Proof.
    apply Rsum_pair_eq; auto.
    - rewrite b01_0, rk_redft01_0, Z.mul_0_l, cs_0, sn_0. ring.
    - intros j Hj Hj2. rewrite !b01_S, !rk_redft01 by lia. rewrite cs_ref', sn_ref', c_ref, s_ref by lia. replace (n - (n - j)) with j by lia.
      replace (j * (2 * (2 * i - 1) + 1)) with (4 * (j * i) - j) by ring.
      replace ((n - j) * (2 * (2 * i - 1) + 1)) with (- (n - (j - 4 * (j * i))) + 4 * n * i) by ring. rewrite cs_period, cs_neg, c_ref by lia.
      rewrite cs_sub, sn_sub, <- !cs_4, <- !sn_4. ring.
    - intros j Hj Hj2. rewrite b01_S, rk_redft01 by lia. replace (n - j) with j by lia. replace (j * (2 * (2 * i - 1) + 1)) with (4 * (j * i) - j) by ring.
      rewrite cs_sub, <- !cs_4, <- !sn_4. rewrite mid_cs by lia. rewrite (Z.mul_comm j i), sn_mid by lia. ring.
  Qed.
  Lemma op01_b01 e x k : 0 <= k < n -> 
    op01 e (hc (b01 x)) k = ((if k mod 2 =? 0 then 1 else e) * Rsum n (fun j => x j * rk REDFT01 n j k))%R.
  Proof.
    intros Hk. pose proof (Z.div_mod k 2 ltac:(lia)) as D. pose proof (Z.mod_pos_bound k 2 ltac:(lia)) as M.
    destruct (Z.eqb_spec (k mod 2) 0) as [E|E].
    - rewrite E, Z.add_0_r in D. rewrite D at 1. rewrite op01_hc_even, m01_even by lia. rewrite <- D. ring.
    - assert (D' : k = 2 * (k / 2 + 1) - 1) by lia. rewrite D' at 1. rewrite op01_hc_odd, m01_odd by lia. now rewrite <- D'.
  Qed.
  Lemma re01_correct nd nd2 ip is os f : Correct nd2 true (rx (x1 R2HC n 1 1)) [] f ->
    Correct nd ip (rx (x1 REDFT01 n is os)) [] (buf_apply re01_load re01_store n is os f).
  Proof.
    intros C. apply buf_apply_correct with (B := b01) (G := hc) (Op := op01 1).
    - intros. now apply re01_load_ok.
    - intros. now apply (r2hc_buf nd2).
    - intros. now apply re01_store_ok.
    - intros x k Hk. rewrite op01_b01 by auto. destruct (_ =? _); ring.
  Qed.

  (** *** RODFT01 *)
  Lemma ro01_load_ok is nx I m : (fst I < nx)%nat ->
     (forall k, 0 <= k < n -> ro01_load n is (nx, 0) I m (sh (nx, 0) k) = b01 (fun j => m (sh I ((n - 1 - j) * is))) k) /\
     (forall l, (fst l < nx)%nat -> ro01_load n is (nx, 0) I m l = m l).
  Proof.
    intros HI. pose proof (b01_load nx m I (fun j => (n - 1 - j) * is) (fun j => (j - 1) * is) HI) as L. cbn zeta in L.
    unfold ro01_load. cbn zeta.
    match goal with |- (forall k, _ -> ?M _ = _) /\ _ => match type of L with _ -> (forall k, _ -> ?M' _ = _) /\ _ => replace M with M' end end.
    - apply L. intros i Hi. f_equal. lia.
    - f_equal. replace (n - 1 - 0) with (n - 1) by lia. unfold pairs. apply CopyProofs.zfor_ext. intros i m0 _. replace (n - 1 - (n - (i + 1))) with (i + 1 - 1) by lia. reflexivity.
  Qed.
  Lemma rk_rodft01_rev j k : 0 <= j < n -> rk RODFT01 n (n - 1 - j) k = (cs 2 k * rk REDFT01 n j k)%R.
  Proof.
    intros Hj. unfold rk at 1. destruct (Z.eqb_spec (n - 1 - j) (n - 1)) as [E|E].
    - assert (j = 0) by lia. subst j. rewrite rk_redft01_0, cos_PI_Z. ring.
    - rewrite rk_redft01 by lia.
      rewrite (sn_eq (4 * n) ((n - j) * (2 * k + 1))).
      + replace ((n - j) * (2 * k + 1)) with (n * (2 * k + 1) - j * (2 * k + 1)) by ring. rewrite sn_sub.
        replace (n * (2 * k + 1)) with (n + 2 * n * k) by ring. rewrite sn_add, cs_add, cs_quarter, sn_quarter by lia.
        replace (cs (4 * n) (2 * n * k)) with (cs 2 k).
        2:{ rewrite <- (cs_scale 2 (2 * n)) by lia. f_equal; ring. }
        replace (sn (4 * n) (2 * n * k)) with 0%R; [ring|].
        rewrite <- (sn_2 k). rewrite <- (sn_scale 2 (2 * n)) by lia. f_equal; ring.
      + repeat rewrite ?mult_IZR, ?plus_IZR, ?minus_IZR. field. apply not_0_IZR. lia.
  Qed.
  Lemma sign_k k : cs 2 k = (if k mod 2 =? 0 then 1 else -1)%R.
  Proof.
    rewrite <- (cs_mod 2) by lia. pose proof (Z.mod_pos_bound k 2 ltac:(lia)).
    assert (E : k mod 2 = 0 \/ k mod 2 = 1) by lia. destruct E as [->| ->]; cbn [Z.eqb Pos.eqb].
    - apply cs_0.
    - change 2 with (2 * 1). rewrite cs_half by lia. reflexivity.
  Qed.
  Lemma ro01_correct nd nd2 ip is os f : Correct nd2 true (rx (x1 R2HC n 1 1)) [] f ->
    Correct nd ip (rx (x1 RODFT01 n is os)) [] (buf_apply ro01_load ro01_store n is os f).
  Proof.
    intros C. apply buf_apply_correct with (B := fun x => b01 (fun j => x (n - 1 - j))) (G := hc) (Op := op01 (-1)).
    - intros. now apply ro01_load_ok.
    - intros. now apply (r2hc_buf nd2).
    - intros. now apply ro01_store_ok.
    - intros x k Hk. rewrite op01_b01 by auto. rewrite <- sign_k, <- Rsum_mul_l.
      rewrite <- (Rsum_rev n (fun j => x j * rk RODFT01 n j k)%R). apply Rsum_ext. intros j Hj. rewrite rk_rodft01_rev by lia. ring.
  Qed.
End K010.

Lemma reodft010_correct nd nd2 ip kd n is os f : 0 < n -> kd = REDFT01 \/ kd = REDFT10 \/ kd = RODFT01 \/ kd = RODFT10 ->
  Correct nd2 true (rx (x1 R2HC n 1 1)) [] f ->
  Correct nd ip (rx (x1 kd n is os)) [] (buf_apply (load010 kd) (store010 kd) n is os f).
Proof.
  intros Hn [->|[->|[->| ->]]] C; cbn [load010 store010].
  - now apply re01_correct with (nd2 := nd2).
  - now apply re10_correct with (nd2 := nd2).
  - now apply ro01_correct with (nd2 := nd2).
  - now apply ro10_correct with (nd2 := nd2).
Qed.
