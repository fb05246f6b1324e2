(** * rdft/generic.c is correct (proof library) *)
From Coq Require Import Reals ZArith List Lia Lra Bool Permutation.
From Verif Require Import NumTheory Cplx Spec SpecR2R Base TensorModel Offs TensorProofs XForm XKern XSeq
  DftModel RdftModel DftTw DftPrime RSum RdftX RdftLib RdftLoop RMath RdftDht.
Import ListNotations.
Open Scope Z_scope.

Lemma hart_load (nx : nat) h (m0 : mem) x0 (p q : Z -> R) body : 0 <= h ->
  (forall i m sr, 0 <= i < h -> (forall l, fst l <> nx -> m l = m0 l) ->
     body i (m, sr) = (upd (upd m (sh (nx, 0) (1 + 2 * i)) (p i)) (sh (nx, 0) (1 + 2 * i + 1)) (q i), (sr + p i)%R)) ->
  let '(m', sr) := zforS h body (upd m0 (sh (nx, 0) 0) x0, x0) in
  (forall l, fst l <> nx -> m' l = m0 l) /\ m' (sh (nx, 0) 0) = x0 /\
  (forall i, 0 <= i < h -> m' (sh (nx, 0) (1 + 2 * i)) = p i /\ m' (sh (nx, 0) (1 + 2 * i + 1)) = q i) /\
  sr = (x0 + Rsum h p)%R.
Proof.
  intros Hh Hb.
  assert (G : (fun k s => let '(m', sr) := s in
    (forall l, fst l <> nx -> m' l = m0 l) /\ m' (sh (nx, 0) 0) = x0 /\
    (forall i, 0 <= i < k -> m' (sh (nx, 0) (1 + 2 * i)) = p i /\ m' (sh (nx, 0) (1 + 2 * i + 1)) = q i) /\
    sr = (x0 + Rsum k p)%R) h (zforS h body (upd m0 (sh (nx, 0) 0) x0, x0))); [|exact G].
  apply zforS_inv; auto.
  - split; [|split; [|split]].
    + intros l Hl. apply upd_other. intros <-. now apply Hl.
    + apply upd_same.
    + lia.
    + rewrite Rsum_0. ring.
  - intros k [m sr] Hk (F & F0 & Fi & Fs). rewrite Hb by auto. split; [|split; [|split]].
    + intros l Hl. rewrite !upd_other; [now apply F| |]; intros <-; now apply Hl.
    + rewrite !upd_other; auto; intros E; apply sh_nx_inj in E; lia.
    + intros i Hi. destruct (Z.eq_dec i k) as [->|Ne].
      * split; [|now rewrite upd_same]. rewrite upd_other; [apply upd_same|]. intros E; apply sh_nx_inj in E; lia.
      * rewrite !upd_other by (intros E; apply sh_nx_inj in E; lia). apply Fi. lia.
    + rewrite Rsum_succ, Fs by lia. ring.
Qed.
Lemma zforS_dot h (p u q v : Z -> R) x0 : 0 <= h ->
  zforS h (fun i s => let '(rr, ri) := s in ((rr + p i * u i)%R, (ri + q i * v i)%R)) (x0, 0%R)
  = ((x0 + Rsum h (fun i => p i * u i))%R, Rsum h (fun i => q i * v i)%R).
Proof.
  intros Hh.
  assert (G : (fun k s => s = ((x0 + Rsum k (fun i => p i * u i))%R, Rsum k (fun i => q i * v i)%R)) h
     (zforS h (fun i s => let '(rr, ri) := s in ((rr + p i * u i)%R, (ri + q i * v i)%R)) (x0, 0%R))); [|exact G].
  apply zforS_inv; auto.
  - rewrite !Rsum_0. f_equal. ring.
  - intros k s Hk ->. rewrite !Rsum_succ by lia. f_equal. ring.
Qed.

Lemma cexp_cs n q : cexp n q = (cs n q, sn n q).
Proof. reflexivity. Qed.
Lemma cs_mod n q : 0 < n -> cs n (q mod n) = cs n q.
Proof. intros H. apply cs_congr; [lia|]. exists (- (q / n)). pose proof (Z.div_mod q n ltac:(lia)). lia. Qed.
Lemma sn_mod n q : 0 < n -> sn n (q mod n) = sn n q.
Proof. intros H. apply sn_congr; [lia|]. exists (- (q / n)). pose proof (Z.div_mod q n ltac:(lia)). lia. Qed.
Lemma tw_cos n i k : 1 < n -> 0 <= k -> 0 <= i -> 2 * i + 1 < n -> 
  tw_half n (k * (n - 1) + 2 * i) = cs n ((i + 1) * (k + 1)).
Proof.
  intros. replace (2 * i) with (2 * i + 0) by ring. rewrite tw_half_val by lia. rewrite cexp_cs. cbn [part fst Z.eqb]. apply cs_mod. lia.
Qed.
Lemma tw_sin n i k : 1 < n -> 0 <= k -> 0 <= i -> 2 * i + 1 < n - 1 -> 
  tw_half n (k * (n - 1) + (2 * i + 1)) = sn n ((i + 1) * (k + 1)).
Proof. intros. rewrite tw_half_val by lia. rewrite cexp_cs. cbn [part snd Z.eqb]. apply sn_mod. lia. Qed.

Section Gen.
  Variables (n is os h : Z).
  Hypothesis Hh : 0 < h.
  Hypothesis Hn : n = 2 * h + 1.
  Let Hn0 : 0 < n. Proof. lia. Qed.
  Let Hc : hcnt n = h. Proof. destruct (hcnt_spec n); lia. Qed.

  Lemma Rsum_odd f : Rsum n f = (f 0%Z + Rsum h (fun i => f (i + 1)%Z + f (n - (i + 1))%Z))%R.
  Proof. rewrite (Rsum_pairs n h f) by lia. reflexivity. Qed.

  (** the cdot loop, both directions *)
  Lemma gen_store (nx : nat) O (m : mem) (v : Z -> R) body : (fst O < nx)%nat -> inj1 n os ->
    m (sh O 0) = v 0 ->
    (forall i m', 0 < i <= h -> (forall l, fst l = nx -> m' l = m l) ->
       body (i - 1) m' = upd (upd m' (sh O (i * os)) (v i)) (sh O ((n - i) * os)) (v (n - i))) ->
    (forall k, 0 <= k < n -> zfor h body m (sh O (k * os)) = v k) /\
    (forall l, (forall k, 0 <= k < n -> l <> sh O (k * os)) -> zfor h body m l = m l).
  Proof.
    intros HO Jo H0 Hb.
    destruct (loop_cells h body m (fun i k => k = i + 1 \/ k = n - (i + 1)) (fun k => sh O (k * os)) v) as [L1 L2].
    - intros i m' Hi Hm. pose proof (Hb (i + 1) m' ltac:(lia)) as Eb. replace (i + 1 - 1) with i in Eb by lia. rewrite Eb.
      + destruct (upd2 m' (sh O ((i + 1) * os)) (sh O ((n - (i + 1)) * os)) (v (i + 1)) (v (n - (i + 1)))) as (U1 & U2 & U3).
        { intros E. apply (sh_s _ n) in E; auto; lia. }
        split; [intros k [->| ->]; auto|]. intros l Hl. apply U3; apply Hl; auto.
      + intros l Hl. apply Hm. intros j k _ _ ->. cbn in Hl. lia.
    - intros i j k k' Hi Hj Ne Hk Hk' E. apply (sh_s _ n) in E; auto; lia.
    - split.
      + intros k Hk. destruct (Z.eq_dec k 0) as [->|N0].
        * rewrite L2; [now rewrite Z.mul_0_l|]. intros i k Hi Hk' E. apply (sh_s _ n) in E; auto; lia.
        * apply (L1 (if k <=? h then k - 1 else n - k - 1)); destruct (Z.leb_spec k h); lia.
      + intros l Hl. apply L2. intros i k Hi Hk. apply Hl. lia.
  Qed.

  Lemma rgeneric_r2hc_correct nd ip : Correct nd ip (rx (x1 R2HC n is os)) [] (rgeneric_r2hc n is os).
  Proof.
    apply prove_r1. intros nx I O m [HI HO Ji Jo _]. unfold rgeneric_r2hc, hartley_r2hc. cbn zeta. rewrite Hc.
    set (x := fun j => m (sh I (j * is))).
    pose proof (hart_load nx h m (m (sh I 0)) (fun i => x (i + 1)%Z + x (n - (i + 1))%Z)%R (fun i => x (n - (i + 1))%Z - x (i + 1)%Z)%R
      (fun i' s => let '(m, sr) := s in
       (upd (upd m (sh (nx, 0) (1 + 2 * i')) (m (sh I ((i' + 1) * is)) + m (sh I ((n - (i' + 1)) * is)))%R) (sh (nx, 0) (1 + 2 * i' + 1))
         (m (sh I ((n - (i' + 1)) * is)) - m (sh I ((i' + 1) * is)))%R, (sr + (m (sh I ((i' + 1) * is)) + m (sh I ((n - (i' + 1)) * is))))%R)) ltac:(lia)) as L.
    match type of L with ?P -> _ => assert (A : P) end.
    { intros i m' sr Hi Hm. rewrite !Hm by (cbn; lia). reflexivity. }
    specialize (L A). clear A. destruct (zforS h _ _) as [m1 sr]. destruct L as (L1 & L2 & L3 & L4). cbn beta in L3, L4.
    assert (Es : sr = Rsum n x). { rewrite L4, Rsum_odd. unfold x at 3. now rewrite Z.mul_0_l. }
    destruct (gen_store nx O (upd m1 (sh O 0) sr) (fun k => Rsum n (fun j => x j * rk R2HC n j k)%R)
      (fun i' => cdot_r2hc n (nx, 0) (fun o => tw_half n (i' * (n - 1) + o)) (sh O ((i' + 1) * os)) (sh O ((n - (i' + 1)) * os))) HO Jo) as [S1 S2].
    - rewrite upd_same, Es. apply Rsum_ext. intros j _. rewrite rk_r2hc_re, Z.mul_0_r, cs_0 by lia. ring.
    - intros i m' Hi Hm. unfold cdot_r2hc. rewrite Hc. rewrite (zforS_dot h (fun i' => m' (sh (nx, 0) (1 + 2 * i'))) _ (fun i' => m' (sh (nx, 0) (1 + 2 * i' + 1)))) by lia.
      replace (i - 1 + 1) with i by lia.
      assert (B : forall o, m' (sh (nx, 0) o) = m1 (sh (nx, 0) o)).
      { intros o. rewrite Hm by reflexivity. apply upd_other. intros E. apply (f_equal fst) in E. cbn in E. lia. }
      f_equal; [f_equal|].
      + rewrite hc_re by lia. rewrite Rsum_odd. rewrite B, L2. f_equal.
        * rewrite Z.mul_0_l, cs_0. unfold x. rewrite Z.mul_0_l. ring.
        * apply Rsum_ext. intros i0 Hi0. rewrite B. destruct (L3 i0 Hi0) as [-> _]. rewrite tw_cos by lia. replace (i - 1 + 1) with i by lia.
          rewrite cs_ref' by lia. ring.
      + rewrite hc_im by lia. rewrite Rsum_odd. rewrite Z.mul_0_l, sn_0, Rmult_0_r, Rplus_0_l, <- Rsum_opp.
        apply Rsum_ext. intros i0 Hi0. rewrite B. destruct (L3 i0 Hi0) as [_ ->]. rewrite tw_sin by lia. replace (i - 1 + 1) with i by lia.
        rewrite sn_ref' by lia. ring.
    - split; [exact S1|]. intros l Hl Ho _. rewrite S2 by exact Ho. rewrite upd_other.
      + apply L1. lia.
      + rewrite <- (Z.mul_0_l os). intros E. symmetry in E. revert E. apply Ho. lia.
  Qed.

  Lemma rgeneric_hc2r_correct nd ip : Correct nd ip (rx (x1 HC2R n is os)) [] (rgeneric_hc2r n is os).
  Proof.
    apply prove_r1. intros nx I O m [HI HO Ji Jo _]. unfold rgeneric_hc2r, hartley_hc2r. cbn zeta. rewrite Hc.
    set (x := fun j => m (sh I (j * is))).
    pose proof (hart_load nx h m (m (sh I 0)) (fun i => x (i + 1)%Z + x (i + 1)%Z)%R (fun i => x (n - (i + 1))%Z + x (n - (i + 1))%Z)%R
      (fun i' s => let '(m, sr) := s in
       (upd (upd m (sh (nx, 0) (1 + 2 * i')) (m (sh I ((i' + 1) * is)) + m (sh I ((i' + 1) * is)))%R) (sh (nx, 0) (1 + 2 * i' + 1))
         (upd m (sh (nx, 0%Z) (1 + 2 * i')%Z) (m (sh I ((i' + 1) * is)) + m (sh I ((i' + 1) * is)))%R (sh I ((n - (i' + 1)) * is)%Z)
         + upd m (sh (nx, 0%Z) (1 + 2 * i')%Z) (m (sh I ((i' + 1) * is)) + m (sh I ((i' + 1) * is)))%R (sh I ((n - (i' + 1)) * is)%Z))%R,
         (sr + (m (sh I ((i' + 1) * is)) + m (sh I ((i' + 1) * is))))%R)) ltac:(lia)) as L.
    match type of L with ?P -> _ => assert (A : P) end.
    { intros i m' sr Hi Hm. rewrite !(upd_other m' _ _ (sh I _)) by (apply sh_nx_ne; lia). rewrite !Hm by (cbn; lia). reflexivity. }
    specialize (L A). clear A. destruct (zforS h _ _) as [m1 sr]. destruct L as (L1 & L2 & L3 & L4). cbn beta in L3, L4.
    destruct (gen_store nx O (upd m1 (sh O 0) sr) (fun k => Rsum n (fun j => x j * rk HC2R n j k)%R)
      (fun i' => cdot_hc2r n (nx, 0) (fun o => tw_half n (i' * (n - 1) + o)) (sh O ((i' + 1) * os)) (sh O ((n - (i' + 1)) * os))) HO Jo) as [S1 S2].
    - rewrite upd_same, L4. rewrite Rsum_odd. f_equal.
      + rewrite rk_hc2r_0. unfold x. rewrite Z.mul_0_l. ring.
      + apply Rsum_ext. intros i Hi. rewrite rk_hc2r_re, rk_hc2r_im by lia. rewrite !Z.mul_0_r, cs_0, sn_0. ring.
    - intros i m' Hi Hm. unfold cdot_hc2r. rewrite Hc. rewrite (zforS_dot h (fun i' => m' (sh (nx, 0) (1 + 2 * i'))) _ (fun i' => m' (sh (nx, 0) (1 + 2 * i' + 1)))) by lia.
      replace (i - 1 + 1) with i by lia.
      assert (B : forall o, m' (sh (nx, 0) o) = m1 (sh (nx, 0) o)).
      { intros o. rewrite Hm by reflexivity. apply upd_other. intros E. apply (f_equal fst) in E. cbn in E. lia. }
      assert (X0 : m' (sh (nx, 0) 0) = x 0) by (rewrite B, L2; unfold x; now rewrite Z.mul_0_l).
      f_equal; [f_equal|].
      + rewrite Rsum_odd, X0, rk_hc2r_0. unfold Rminus. rewrite <- Rsum_opp, Rplus_assoc, <- Rsum_add, Rmult_1_r. f_equal.
        apply Rsum_ext. intros i0 Hi0. rewrite !B. destruct (L3 i0 Hi0) as [-> ->]. rewrite tw_cos, tw_sin by lia. replace (i - 1 + 1) with i by lia.
        rewrite rk_hc2r_re, rk_hc2r_im by lia. replace (n - (n - (i0 + 1))) with (i0 + 1) by lia. ring.
      + rewrite Rsum_odd, X0, rk_hc2r_0. rewrite Rplus_assoc, <- Rsum_add, Rmult_1_r. f_equal.
        apply Rsum_ext. intros i0 Hi0. rewrite !B. destruct (L3 i0 Hi0) as [-> ->]. rewrite tw_cos, tw_sin by lia. replace (i - 1 + 1) with i by lia.
        rewrite rk_hc2r_re, rk_hc2r_im by lia. replace (n - (n - (i0 + 1))) with (i0 + 1) by lia.
        rewrite cs_ref, sn_ref by lia. ring.
    - split; [exact S1|]. intros l Hl Ho _. rewrite S2 by exact Ho. rewrite upd_other.
      + apply L1. lia.
      + rewrite <- (Z.mul_0_l os). intros E. symmetry in E. revert E. apply Ho. lia.
  Qed.
End Gen.
