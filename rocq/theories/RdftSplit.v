(** * reodft/reodft00e-splitradix.c is correct (proof library) *)
From Coq Require Import Reals ZArith List Lia Lra Bool Permutation.
From Verif Require Import NumTheory Cplx Spec SpecR2R Base TensorModel Offs TensorProofs XForm XKern XSeq
  DftModel RdftModel DftTw DftTw2 DftPrime RSum RdftX RdftLib RdftLoop RMath RdftDht RdftGen RdftReo RdftOdd RdftRad.
Import ListNotations.
Open Scope Z_scope.

(** as quad_fill, but an iteration may also read the cells it writes, and some cells
    (g k < 0) are not written *)
Lemma quad_fill2 h N (A : Z -> loc) (v : Z -> R) m m0 body bm p1 p2 p3 p4 q1 q2 g (Src : loc -> Prop) : 0 < h ->
  (forall j k, 0 <= j < N -> 0 <= k < N -> A j = A k -> j = k) ->
  (forall k, 0 <= k < N -> ~ Src (A k)) ->
  (forall k, 0 <= k < N -> g k = 0 -> m0 (A k) = v k) ->
  (forall l, (forall k, 0 <= k < N -> g k = 0 -> l <> A k) -> m0 l = m l) ->
  (forall i, 0 < i -> 2 * i < h -> 0 <= p1 i < N /\ 0 <= p2 i < N /\ 0 <= p3 i < N /\ 0 <= p4 i < N /\
     p1 i <> p2 i /\ p1 i <> p3 i /\ p1 i <> p4 i /\ p2 i <> p3 i /\ p2 i <> p4 i /\ p3 i <> p4 i /\
     g (p1 i) = i /\ g (p2 i) = i /\ g (p3 i) = i /\ g (p4 i) = i) ->
  (forall i, 0 < i -> 2 * i = h -> 0 <= q1 i < N /\ 0 <= q2 i < N /\ q1 i <> q2 i /\ g (q1 i) = i /\ g (q2 i) = i) ->
  (forall k, 0 <= k < N -> g k = 0 \/ (g k < 0 /\ m (A k) = v k) \/
     (0 < g k /\ 2 * g k < h /\ (k = p1 (g k) \/ k = p2 (g k) \/ k = p3 (g k) \/ k = p4 (g k))) \/
     (0 < g k /\ 2 * g k = h /\ (k = q1 (g k) \/ k = q2 (g k)))) ->
  (forall i m', 0 < i -> 2 * i < h -> (forall l, Src l -> m' l = m l) -> (forall k, 0 <= k < N -> g k = i -> m' (A k) = m (A k)) ->
     body i m' = upd (upd (upd (upd m' (A (p1 i)) (v (p1 i))) (A (p2 i)) (v (p2 i))) (A (p3 i)) (v (p3 i))) (A (p4 i)) (v (p4 i))) ->
  (forall i m', 0 < i -> i = hcnt h + 1 -> 2 * i = h -> (forall l, Src l -> m' l = m l) -> (forall k, 0 <= k < N -> g k = i -> m' (A k) = m (A k)) ->
     bm i m' = upd (upd m' (A (q1 i)) (v (q1 i))) (A (q2 i)) (v (q2 i))) ->
  (forall k, 0 <= k < N -> middle h bm (pairs h body m0) (A k) = v k) /\
  (forall l, (forall k, 0 <= k < N -> l <> A k) -> middle h bm (pairs h body m0) l = m l).
Proof.
  intros Hh Ji HS U1 U3 Hp Hq Hc Hb Hm. destruct (hcnt_spec h Hh) as [C0 C1].
  assert (NE : forall j k, 0 <= j < N -> 0 <= k < N -> j <> k -> A j <> A k) by (intros j k Hj Hk N' E; now apply Ji in E).
  assert (S0 : forall l, Src l -> m0 l = m l).
  { intros l Hl. apply U3; intros k Hk _ ->. now apply (HS k). }
  assert (A0 : forall k, 0 <= k < N -> g k <> 0 -> m0 (A k) = m (A k)).
  { intros k Hk Nk. apply U3. intros k' Hk' G. apply NE; auto. intros ->. lia. }
  destruct (loop_cells (hcnt h) (fun i' => body (i' + 1)) m0
    (fun i k => k = p1 (i + 1) \/ k = p2 (i + 1) \/ k = p3 (i + 1) \/ k = p4 (i + 1)) A v) as [L1 L2].
  { intros i m' Hi Hl. destruct (Hp (i + 1) ltac:(lia) ltac:(lia)) as (R1 & R2 & R3 & R4 & D1 & D2 & D3 & D4 & D5 & D6 & _).
    rewrite Hb; try lia.
    2:{ intros l Sl. rewrite Hl; [now apply S0|]. intros j k Hj Hk ->.
        destruct (Hp (j + 1) ltac:(lia) ltac:(lia)) as (T1 & T2 & T3 & T4 & _).
        revert Sl. apply HS. destruct Hk as [->|[->|[->| ->]]]; lia. }
    2:{ intros k Hk G. rewrite Hl; [apply A0; auto; lia|]. intros j k' Hj Hk'.
        destruct (Hp (j + 1) ltac:(lia) ltac:(lia)) as (T1 & T2 & T3 & T4 & _ & _ & _ & _ & _ & _ & F1 & F2 & F3 & F4).
        apply NE; auto; destruct Hk' as [->|[->|[->| ->]]]; try lia; intros E; apply (f_equal g) in E; lia. }
    destruct (upd4 m' (A (p1 (i + 1))) (A (p2 (i + 1))) (A (p3 (i + 1))) (A (p4 (i + 1)))
      (v (p1 (i + 1))) (v (p2 (i + 1))) (v (p3 (i + 1))) (v (p4 (i + 1)))) as (V1 & V2 & V3 & V4 & V5); try (apply NE; lia).
    split.
    - intros k [->|[->|[->| ->]]]; auto.
    - intros l Hl'. apply V5; apply Hl'; auto. }
  { intros i j k k' Hi Hj N' Hk Hk'.
    destruct (Hp (i + 1) ltac:(lia) ltac:(lia)) as (R1 & R2 & R3 & R4 & _ & _ & _ & _ & _ & _ & G1 & G2 & G3 & G4).
    destruct (Hp (j + 1) ltac:(lia) ltac:(lia)) as (T1 & T2 & T3 & T4 & _ & _ & _ & _ & _ & _ & F1 & F2 & F3 & F4).
    apply NE; destruct Hk as [->|[->|[->| ->]]]; destruct Hk' as [->|[->|[->| ->]]]; try lia; intros E; apply (f_equal g) in E; lia. }
  unfold pairs. set (m1 := zfor (hcnt h) _ m0) in *. clearbody m1.
  assert (Q0 : forall k, 0 <= k < N -> (g k <= 0 \/ h <= 2 * g k) -> m1 (A k) = m0 (A k)).
  { intros k Hk Gk. apply L2. intros i k' Hi Hk2. destruct (Hp (i + 1) ltac:(lia) ltac:(lia)) as (T1 & T2 & T3 & T4 & _ & _ & _ & _ & _ & _ & F1 & F2 & F3 & F4).
    apply NE; auto; destruct Hk2 as [->|[->|[->| ->]]]; try lia; intros E; apply (f_equal g) in E; lia. }
  assert (Q1 : forall k, 0 <= k < N -> 2 * g k <> h -> m1 (A k) = v k).
  { intros k Hk Nk. destruct (Hc k Hk) as [Gk|[(Gk & Hv)|[(G1 & G2 & G3)|(G1 & G2 & G3)]]]; [| | |lia].
    - rewrite Q0 by lia. now apply U1.
    - rewrite Q0, A0 by lia. exact Hv.
    - apply (L1 (g k - 1)); [lia|]. now replace (g k - 1 + 1) with (g k) by lia. }
  assert (Q2 : forall l, (forall k, 0 <= k < N -> 2 * g k <> h -> l <> A k) -> m1 l = m l).
  { intros l Hl. rewrite L2.
    - apply U3. intros k Hk G. apply Hl; lia.
    - intros i k Hi Hk. destruct (Hp (i + 1) ltac:(lia) ltac:(lia)) as (T1 & T2 & T3 & T4 & _ & _ & _ & _ & _ & _ & F1 & F2 & F3 & F4).
      apply Hl; destruct Hk as [->|[->|[->| ->]]]; lia. }
  unfold middle. cbn zeta. destruct (Z.eqb_spec (hcnt h + 1) (h - (hcnt h + 1))) as [E|E].
  - destruct (Hq (hcnt h + 1) ltac:(lia) ltac:(lia)) as (R1 & R2 & R3 & R4 & R5).
    rewrite Hm; try lia.
    2:{ intros l Sl. apply Q2. intros k Hk _ ->. now apply (HS k). }
    2:{ intros k Hk G. rewrite Q0, A0 by lia. reflexivity. }
    destruct (upd2 m1 (A (q1 (hcnt h + 1))) (A (q2 (hcnt h + 1))) (v (q1 (hcnt h + 1))) (v (q2 (hcnt h + 1))) (NE _ _ R1 R2 R3)) as (V1 & V2 & V3).
    split.
    + intros k Hk. destruct (Z.eq_dec (2 * g k) h) as [Ek|Ek].
      * destruct (Hc k Hk) as [?|[?|[?|(G1 & G2 & G3)]]]; try lia. assert (g k = hcnt h + 1) as Eg by lia. rewrite Eg in G3. destruct G3 as [->| ->]; auto.
      * rewrite V3; [now apply Q1| |]; apply NE; auto; intros ->; lia.
    + intros l Hl. rewrite V3 by (apply Hl; auto). apply Q2. intros k Hk _. now apply Hl.
  - split.
    + intros k Hk. apply Q1; auto. intros Ek. destruct (Hc k Hk) as [?|[?|[?|(G1 & G2 & G3)]]]; lia.
    + intros l Hl. apply Q2. intros k Hk _. now apply Hl.
Qed.

Section Split.
  Variable n h : Z.
  Hypothesis Hh : 0 < h.
  Hypothesis Hn : n = 2 * h.
  Lemma Hq3 : Z.quot n 2 = h. Proof. par. Qed.
  Ltac dec := repeat match goal with |- context[?a <? ?b] => destruct (Z.ltb_spec a b) | |- context[?a <=? ?b] => destruct (Z.leb_spec a b)
    | |- context[?a =? ?b] => destruct (Z.eqb_spec a b) end.
  Lemma tws_c i : tw_cs (2 * n) 0 1 (2 * i) = cs (4 * h) i.
  Proof. rewrite tw_cs_c. f_equal; lia. Qed.
  Lemma tws_s i : tw_cs (2 * n) 0 1 (2 * i + 1) = sn (4 * h) i.
  Proof. rewrite tw_cs_s. f_equal; lia. Qed.

  (** real and (negated) imaginary parts from a halfcomplex array of size h *)
  Definition Cy (y : Z -> R) (r : Z) : R := if r =? h then y 0 else if 2 * r <=? h then y r else y (h - r)%Z.
  Definition Sy (y : Z -> R) (r : Z) : R :=
    if (r =? 0) || (r =? h) || (2 * r =? h) then 0%R else if 2 * r <? h then (- y (h - r)%Z)%R else y r.
  Lemma Cy_hc b r : 0 <= r <= h -> Cy (hc h b) r = Rsum h (fun i => b i * cs h (i * r)%Z)%R.
  Proof.
    intros Hr. unfold Cy, hc. destruct (Z.eqb_spec r h) as [->|N].
    - rewrite hc_re by lia. apply Rsum_ext. intros i _. f_equal. apply cs_congr; [lia|]. exists (- i). ring.
    - destruct (Z.leb_spec (2 * r) h).
      + now rewrite hc_re by lia.
      + rewrite hc_re by lia. apply Rsum_ext. intros i _. now rewrite cs_ref by lia.
  Qed.
  Lemma Sy_hc b r : 0 <= r <= h -> Sy (hc h b) r = Rsum h (fun i => b i * sn h (i * r)%Z)%R.
  Proof.
    intros Hr. unfold Sy, hc. destruct (Z.eqb_spec r 0) as [->|N0]; cbn [orb].
    { rewrite Rsum_zero; [reflexivity|]. intros i _. rewrite Z.mul_0_r, sn_0. ring. }
    destruct (Z.eqb_spec r h) as [->|N1]; cbn [orb].
    { rewrite Rsum_zero; [reflexivity|]. intros i _. replace (sn h (i * h)) with (sn h 0); [rewrite sn_0; ring|]. apply sn_congr; [lia|]. exists (- i). ring. }
    destruct (Z.eqb_spec (2 * r) h) as [E|N2].
    { rewrite Rsum_zero; [reflexivity|]. intros i _. rewrite sn_mid by lia. ring. }
    destruct (Z.ltb_spec (2 * r) h).
    - rewrite hc_im by lia. now rewrite Ropp_involutive.
    - assert (E : exists p, r = h - p /\ 2 * p < h) by (exists (h - r); lia). destruct E as (p & -> & Hp).
      rewrite hc_im by lia. rewrite <- Rsum_opp. apply Rsum_ext. intros i _. rewrite sn_ref by lia. ring.
  Qed.
  (** the odd-numbered elements, in the order 1, 5, 9, ... of the extension *)
  Definition sg4 (t : Z) : Z := if 1 + 4 * t <=? n then 2 * t else n - 1 - 2 * t.
  Lemma sg4_range t : 0 <= t < h -> 0 <= sg4 t < h.
  Proof. intros H. unfold sg4. dec; lia. Qed.
  Lemma sg4_inj s t : 0 <= s < h -> 0 <= t < h -> sg4 s = sg4 t -> s = t.
  Proof. intros H1 H2. unfold sg4. dec; lia. Qed.
  Definition rr (k : Z) : Z := if k <=? h then k else n - k.
  Definition ss (k : Z) : R := if k <=? h then 1%R else (-1)%R.
  Lemma cs2n_odd p k : 0 <= k <= n -> cs (2 * n) ((2 * p + 1) * k) = (ss k * cs (2 * n) ((2 * p + 1) * rr k))%R.
  Proof.
    intros Hk. unfold ss, rr. destruct (Z.leb_spec k h); [ring|].
    replace ((2 * p + 1) * (n - k)) with (n - (2 * p + 1) * k + 2 * n * p) by ring. rewrite cs_period, cs_sub, cs_half, sn_half by lia. ring.
  Qed.
  Lemma sn2n_odd p k : 0 <= k <= n -> sn (2 * n) ((2 * p + 1) * k) = sn (2 * n) ((2 * p + 1) * rr k).
  Proof.
    intros Hk. unfold rr. destruct (Z.leb_spec k h); [ring|].
    replace ((2 * p + 1) * (n - k)) with (n - (2 * p + 1) * k + 2 * n * p) by ring. rewrite sn_period, sn_sub, cs_half, sn_half by lia. ring.
  Qed.
  Lemma cs_h4 t r : cs h (t * r) = cs (2 * n) (4 * t * r).
  Proof. replace (2 * n) with (4 * h) by lia. rewrite <- Z.mul_assoc. symmetry. apply cs_scale; lia. Qed.
  Lemma sn_h4 t r : sn h (t * r) = sn (2 * n) (4 * t * r).
  Proof. replace (2 * n) with (4 * h) by lia. rewrite <- Z.mul_assoc. symmetry. apply sn_scale; lia. Qed.

  (** ** REDFT00, size n+1 *)
  Definition be (x : Z -> R) (t : Z) : R := if 1 + 4 * t <=? n then x (1 + 4 * t)%Z else x (2 * n - 1 - 4 * t)%Z.
  Lemma load_e_ok is (nx : nat) I m : (fst I < nx)%nat ->
     (forall k, 0 <= k < h -> split_load_e n is (nx, 0) I m (sh (nx, 0) k) = be (fun j => m (sh I (j * is))) k) /\
     (forall l, (fst l < nx)%nat -> split_load_e n is (nx, 0) I m l = m l).
  Proof.
    intros HI. unfold split_load_e. cbn zeta.
    set (c1 := nsteps 1 (n + 1) 4). set (i2 := 2 * (n + 1) - 2 - (1 + 4 * c1)). set (c2 := nsteps 0 i2 4).
    pose proof (nsteps_spec 1 (n + 1) 4 ltac:(lia)) as N1. fold c1 in N1. cbn zeta in N1.
    pose proof (nsteps_spec 0 i2 4 ltac:(lia)) as N2. fold c2 in N2. cbn zeta in N2. clearbody c1 c2.
    destruct (loop_cells c1 (fun t m => upd m (sh (nx, 0) t) (m (sh I ((1 + 4 * t) * is)))) m (fun t k => k = t) (fun k => sh (nx, 0) k)
      (fun k => m (sh I ((1 + 4 * k) * is)))) as [L1 L2].
    { intros t m' Ht Hm. split.
      - intros k ->. rewrite upd_same. apply Hm. intros j k _ _ E. apply (f_equal fst) in E. cbn in E. lia.
      - intros l Hl. apply upd_other. intros <-. now apply (Hl t). }
    { intros i j k k' _ _ Ne -> -> E. now apply sh_nx_inj in E. }
    set (m1 := zfor c1 _ m) in *. clearbody m1.
    destruct (loop_cells c2 (fun t m => upd m (sh (nx, 0) (c1 + t)) (m (sh I ((i2 - 4 * t) * is)))) m1 (fun t k => k = c1 + t) (fun k => sh (nx, 0) k)
      (fun k => m (sh I ((i2 - 4 * (k - c1)) * is)))) as [L3 L4].
    { intros t m' Ht Hm. split.
      - intros k ->. rewrite upd_same. replace (c1 + t - c1) with t by lia. rewrite Hm.
        + apply L2. intros j k _ _ E. apply (f_equal fst) in E. cbn in E. lia.
        + intros j k _ _ E. apply (f_equal fst) in E. cbn in E. lia.
      - intros l Hl. apply upd_other. intros <-. now apply (Hl (c1 + t)). }
    { intros i j k k' _ _ Ne -> -> E. apply sh_nx_inj in E. lia. }
    set (m2 := zfor c2 _ m1) in *. clearbody m2. split.
    - intros k Hk. unfold be. destruct (Z.leb_spec (1 + 4 * k) n).
      + rewrite L4; [apply (L1 k); lia|]. intros i k' Hi -> E. apply sh_nx_inj in E. lia.
      + rewrite (L3 (k - c1)) by (unfold i2 in *; lia). do 3 f_equal. unfold i2. lia.
    - intros l Hl. rewrite L4, L2; auto; intros i k _ _ ->; cbn in Hl; lia.
  Qed.
  Definition ve (E y : Z -> R) (k : Z) : R :=
    (E (rr k) + ss k * (2 * (cs (4 * h) (rr k) * Cy y (rr k) - sn (4 * h) (rr k) * Sy y (rr k))))%R.
  Definition ge (k : Z) : Z := let r := rr k in if r =? h then -1 else if 2 * r <=? h then r else h - r.
  Lemma rr_lo k : k <= h -> rr k = k. Proof. intros. unfold rr. dec; lia. Qed.
  Lemma rr_hi k : h < k -> rr k = n - k. Proof. intros. unfold rr. dec; lia. Qed.
  Lemma ss_lo k : k <= h -> ss k = 1%R. Proof. intros. unfold ss. destruct (Z.leb_spec k h); [reflexivity|lia]. Qed.
  Lemma ss_hi k : h < k -> ss k = (-1)%R. Proof. intros. unfold ss. destruct (Z.leb_spec k h); [lia|reflexivity]. Qed.
  Lemma Cy_0 y : Cy y 0 = y 0. Proof. unfold Cy. dec; try lia; reflexivity. Qed.
  Lemma Cy_h y : Cy y h = y 0. Proof. unfold Cy. rewrite Z.eqb_refl. reflexivity. Qed.
  Lemma Sy_0 y : Sy y 0 = 0%R. Proof. reflexivity. Qed.
  Lemma Sy_h y : Sy y h = 0%R. Proof. unfold Sy. rewrite Z.eqb_refl, orb_true_r. reflexivity. Qed.
  Lemma Cy_lo y i : 0 < i -> 2 * i <= h -> Cy y i = y i.
  Proof. intros. unfold Cy. dec; try lia. reflexivity. Qed.
  Lemma Cy_hi y i : 0 < i -> 2 * i < h -> Cy y (h - i) = y i.
  Proof. intros. unfold Cy. dec; try lia. f_equal. lia. Qed.
  Lemma Sy_lo y i : 0 < i -> 2 * i < h -> Sy y i = (- y (h - i)%Z)%R.
  Proof. intros. unfold Sy. dec; try lia. reflexivity. Qed.
  Lemma Sy_hi y i : 0 < i -> 2 * i < h -> Sy y (h - i) = y (h - i).
  Proof. intros. unfold Sy. dec; try lia. reflexivity. Qed.
  Lemma Sy_mid y i : 2 * i = h -> Sy y i = 0%R.
  Proof. intros. unfold Sy. destruct (Z.eqb_spec (2 * i) h); [|lia]. now rewrite orb_true_r. Qed.

  Lemma store_e_ok (nx : nat) O os m E y : (fst O < nx)%nat -> inj1 (n + 1) os -> (forall k, 0 <= k < h -> m (sh (nx, 0) k) = y k) ->
    (forall k, 0 <= k <= h -> m (sh O (k * os)) = E k) ->
     (forall k, 0 <= k < n + 1 -> split_store_e n os (nx, 0) O m (sh O (k * os)) = ve E y k) /\
     (forall l, (forall k, 0 <= k < n + 1 -> l <> sh O (k * os)) -> split_store_e n os (nx, 0) O m l = m l).
  Proof.
    intros HO Jo Hy HE. unfold split_store_e. cbn zeta. rewrite Hq3.
    assert (NB : forall k k' v0 mm, upd mm (sh O k') v0 (sh (nx, 0) k) = mm (sh (nx, 0) k)).
    { intros k k' v0 mm. apply upd_other. intros F. apply (f_equal fst) in F. cbn in F. lia. }
    assert (JJ : forall j k, 0 <= j < n + 1 -> 0 <= k < n + 1 -> sh O (j * os) = sh O (k * os) -> j = k).
    { intros j k Hj Hk F. now apply (sh_s _ (n + 1)) in F. }
    apply (quad_fill2 h (n + 1) (fun k => sh O (k * os)) (ve E y) m _ _ _ (fun i => i) (fun i => 2 * h - i) (fun i => h - i) (fun i => h + i)
      (fun i => i) (fun i => 2 * h - i) ge (fun l => exists k, l = sh (nx, 0) k)); auto.
    - intros k _ (k' & F). apply (f_equal fst) in F. cbn in F. lia.
    - intros k Hk G. assert (Kk : k = 0 \/ k = n) by (unfold ge, rr in G; revert G; cbn zeta; dec; lia).
      change (sh O 0) with (sh O (0 * os)).
      destruct (upd2 m (sh O (0 * os)) (sh O (2 * h * os)) (m (sh O (0 * os)) + 2 * m (sh (nx, 0%Z) 0%Z))%R (m (sh O (0 * os)) - 2 * m (sh (nx, 0%Z) 0%Z))%R) as (U1 & U2 & _).
      { intros F. apply JJ in F; lia. }
      destruct Kk as [->| ->].
      + rewrite U1, HE, Hy by lia. unfold ve. rewrite rr_lo, ss_lo, cs_0, sn_0, Cy_0 by lia. ring.
      + replace (n * os) with (2 * h * os) by (rewrite Hn; ring). rewrite U2, HE, Hy by lia. unfold ve. rewrite rr_hi, ss_hi by lia. rewrite Z.sub_diag, cs_0, sn_0, Cy_0. ring.
    - intros l Hl. rewrite !upd_other; [reflexivity| |]; intros F; symmetry in F; revert F.
      + change (sh O 0) with (sh O (0 * os)). apply Hl; [lia|]. unfold ge, rr. cbn zeta. dec; lia.
      + apply Hl; [lia|]. unfold ge, rr. cbn zeta. dec; lia.
    - intros i Hi Hi2. unfold ge, rr. cbn zeta. dec; lia.
    - intros i Hi Hi2. unfold ge, rr. cbn zeta. dec; lia.
    - intros k Hk. destruct (Z.eq_dec k h) as [->|Nk].
      + right. left. split; [unfold ge, rr; cbn zeta; dec; lia|]. rewrite HE by lia. unfold ve. rewrite rr_lo, ss_lo, cs_quarter, Sy_h by lia. ring.
      + unfold ge, rr. cbn zeta. dec; lia.
    - intros i m' Hi Hi2 Hs Ho.
      assert (Hb : forall k, 0 <= k < h -> m' (sh (nx, 0) k) = y k) by (intros k Hk; rewrite Hs, Hy by eauto; reflexivity).
      rewrite !Hb by lia. rewrite tws_c, tws_s.
      rewrite (upd_other _ _ _ (sh O ((h - i) * os))) by (intros F; apply JJ in F; lia).
      rewrite (upd_other _ _ _ (sh O ((h - i) * os))) by (intros F; apply JJ in F; lia).
      rewrite (Ho i), (Ho (h - i)) by (unfold ge, rr; cbn zeta; dec; lia). rewrite !HE by lia.
      unfold ve. rewrite (rr_lo i), (rr_hi (2 * h - i)), (rr_lo (h - i)), (rr_hi (h + i)), (ss_lo i), (ss_hi (2 * h - i)), (ss_lo (h - i)), (ss_hi (h + i)) by lia.
      replace (n - (2 * h - i)) with i by lia. replace (n - (h + i)) with (h - i) by lia.
      rewrite Cy_lo, Cy_hi, Sy_lo, Sy_hi by lia. rewrite c_ref, s_ref by lia. updeq.
    - intros i m' Hi Hi1 Hi2 Hs Ho.
      assert (Hb : forall k, 0 <= k < h -> m' (sh (nx, 0) k) = y k) by (intros k Hk; rewrite Hs, Hy by eauto; reflexivity).
      rewrite !Hb by lia. rewrite tws_c. rewrite (Ho i) by (unfold ge, rr; cbn zeta; dec; lia). rewrite !HE by lia.
      unfold ve. rewrite (rr_lo i), (rr_hi (2 * h - i)), (ss_lo i), (ss_hi (2 * h - i)) by lia.
      replace (n - (2 * h - i)) with i by lia. rewrite Cy_lo, Sy_mid by lia. updeq.
  Qed.
  Lemma re00_even j k : 0 <= j <= h -> 0 <= k <= n -> rk REDFT00 (n + 1) (2 * j) k = rk REDFT00 (h + 1) j (rr k).
  Proof.
    intros Hj Hk. destruct (Z.eq_dec j 0) as [->|N0]; [reflexivity|].
    assert (G : cs (2 * n) (2 * j * k) = cs (2 * h) (j * rr k)).
    { rewrite <- Z.mul_assoc, cs_scale by lia. rewrite <- Hn. unfold rr. destruct (_ <=? _); [reflexivity|].
      rewrite cs_ref by lia. reflexivity. }
    destruct (Z.eq_dec j h) as [->|N1].
    - pose proof (rk_redft00_n (n + 1) k ltac:(lia)) as R1. pose proof (rk_redft00_n (h + 1) (rr k) ltac:(lia)) as R2.
      replace (n + 1 - 1) with n in R1 by lia. replace (h + 1 - 1) with h in R2 by lia. rewrite <- Hn, R1, R2. rewrite <- Hn in G. rewrite <- Hn. exact G.
    - rewrite !rk_redft00 by lia. replace (n + 1 - 1) with n by lia. replace (h + 1 - 1) with h by lia. now rewrite G.
  Qed.
  Lemma Rsum_eo f : Rsum (n + 1) f = (Rsum (h + 1) (fun j => f (2 * j)%Z) + Rsum h (fun j => f (2 * j + 1)%Z))%R.
  Proof. rewrite !Rsum_succ by lia. rewrite Hn, Rsum_even_odd by lia. ring. Qed.
  Lemma split_e_math x k : 0 <= k <= n ->
    ve (fun r => Rsum (h + 1) (fun j => x (2 * j)%Z * rk REDFT00 (h + 1) j r)%R) (hc h (be x)) k = Rsum (n + 1) (fun j => x j * rk REDFT00 (n + 1) j k)%R.
  Proof.
    intros Hk. assert (Hr : 0 <= rr k <= h) by (unfold rr; dec; lia). unfold ve. rewrite Rsum_eo. f_equal.
    - apply Rsum_ext. intros j Hj. now rewrite re00_even by lia.
    - rewrite Cy_hc, Sy_hc by auto. rewrite <- (Rsum_reindex h sg4 (fun j => x (2 * j + 1)%Z * rk REDFT00 (n + 1) (2 * j + 1) k)%R sg4_range sg4_inj).
      rewrite <- !Rsum_mul_l, <- Rsum_sub, <- !Rsum_mul_l. apply Rsum_ext. intros t Ht.
      rewrite rk_redft00 by (unfold sg4; dec; lia). replace (n + 1 - 1) with n by lia. rewrite cs2n_odd by auto.
      replace (cs (2 * n) ((2 * sg4 t + 1) * rr k)) with (cs (2 * n) ((1 + 4 * t) * rr k)).
      2:{ unfold sg4. destruct (_ <=? _); [f_equal; ring|].
          replace ((2 * (n - 1 - 2 * t) + 1) * rr k) with (- ((1 + 4 * t) * rr k) + 2 * n * rr k) by ring. now rewrite cs_period, cs_neg by lia. }
      replace (x (2 * sg4 t + 1)%Z) with (be x t).
      2:{ unfold be, sg4. destruct (_ <=? _); f_equal; lia. }
      replace ((1 + 4 * t) * rr k) with (rr k + 4 * t * rr k) by ring. rewrite cs_add, <- cs_h4, <- sn_h4.
      replace (4 * h) with (2 * n) by lia. ring.
  Qed.
  Lemma split_e_correct nd nd2 is os fe fo : Correct nd false (rx (x1 REDFT00 (h + 1) (2 * is) os)) [] fe ->
    Correct nd2 true (rx (x1 R2HC h 1 1)) [] fo ->
    Correct nd false (rx (x1 REDFT00 (n + 1) is os)) [] (split_apply_e n is os fe fo).
  Proof.
    intros Ce Co. apply prove_r1. intros nx I O m [HI HO Ji Jo Jx]. unfold split_apply_e. cbn zeta.
    destruct (load_e_ok is nx I m HI) as [L1 L2]. set (m1 := split_load_e n is (nx, 0) I m) in *. clearbody m1.
    destruct (r2hc_buf nd2 h fo nx m1 _ Co L1) as [F1 F2]. set (m2 := fo (S nx) (nx, 0) (nx, 0) m1) in *. clearbody m2.
    destruct (run_w1 nd false REDFT00 (h + 1) (2 * is) os fe (S nx) I O m2 Ce) as [G1 G2].
    { constructor; try lia.
      - intros i j Hi Hj F. assert (2 * i = 2 * j); [|lia]. apply Ji; lia.
      - now apply (inj1_le (n + 1)); [lia|].
      - intros j k Hj Hk. replace (j * (2 * is)) with (2 * j * is) by ring. apply Jx; lia. }
    set (m3 := fe (S nx) I O m2) in *. clearbody m3.
    destruct (store_e_ok nx O os m3 (fun r => Rsum (h + 1) (fun j => m (sh I (2 * j * is)%Z) * rk REDFT00 (h + 1) j r)%R)
      (hc h (be (fun j => m (sh I (j * is)))))) as [S1 S2]; auto.
    { intros k Hk. rewrite G2; [now apply F1|cbn; lia| |right]; intros k' _ F; apply (f_equal fst) in F; cbn in F; lia. }
    { intros k Hk. rewrite G1 by lia. apply Rsum_ext. intros j Hj. rewrite F2, L2 by (cbn; lia). now replace (j * (2 * is)) with (2 * j * is) by ring. }
    split.
    - intros k Hk. rewrite S1 by auto. apply (split_e_math (fun j => m (sh I (j * is)))). lia.
    - intros l Hl Ho Hi. rewrite S2 by auto. rewrite G2; [now rewrite F2, L2 by auto|lia| |].
      + intros k Hk. apply Ho. lia.
      + destruct Hi as [Hi|Hi]; [now left|right]. intros k Hk. replace (k * (2 * is)) with (2 * k * is) by ring. apply Hi. lia.
  Qed.

  (** ** RODFT00, size n-1 *)
  Definition bo (x : Z -> R) (t : Z) : R := if 1 + 4 * t <=? n then x (4 * t)%Z else (- x (2 * n - 2 - 4 * t)%Z)%R.
  Lemma load_o_ok is (nx : nat) I m : 1 < h -> (fst I < nx)%nat ->
     (forall k, 0 <= k < h -> split_load_o n is (nx, 0) I m (sh (nx, 0) k) = bo (fun j => m (sh I (j * is))) k) /\
     (forall l, (fst l < nx)%nat -> split_load_o n is (nx, 0) I m l = m l).
  Proof.
    intros H2 HI. unfold split_load_o. cbn zeta.
    set (c1 := nsteps 0 (n - 1) 4). set (i2 := 2 * (n - 1) - 4 * c1). set (c2 := nsteps 0 i2 4).
    pose proof (nsteps_spec 0 (n - 1) 4 ltac:(lia)) as N1. fold c1 in N1. cbn zeta in N1.
    pose proof (nsteps_spec 0 i2 4 ltac:(lia)) as N2. fold c2 in N2. cbn zeta in N2. clearbody c1 c2.
    destruct (loop_cells c1 (fun t m => upd m (sh (nx, 0) t) (m (sh I (4 * t * is)))) m (fun t k => k = t) (fun k => sh (nx, 0) k)
      (fun k => m (sh I (4 * k * is)))) as [L1 L2].
    { intros t m' Ht Hm. split.
      - intros k ->. rewrite upd_same. apply Hm. intros j k _ _ E. apply (f_equal fst) in E. cbn in E. lia.
      - intros l Hl. apply upd_other. intros <-. now apply (Hl t). }
    { intros i j k k' _ _ Ne -> -> E. now apply sh_nx_inj in E. }
    set (m1 := zfor c1 _ m) in *. clearbody m1.
    destruct (loop_cells c2 (fun t m => upd m (sh (nx, 0) (c1 + t)) (- m (sh I ((i2 - 4 * t) * is)%Z))%R) m1 (fun t k => k = c1 + t) (fun k => sh (nx, 0) k)
      (fun k => (- m (sh I ((i2 - 4 * (k - c1)) * is)%Z))%R)) as [L3 L4].
    { intros t m' Ht Hm. split.
      - intros k ->. rewrite upd_same. replace (c1 + t - c1) with t by lia. f_equal. rewrite Hm.
        + apply L2. intros j k _ _ E. apply (f_equal fst) in E. cbn in E. lia.
        + intros j k _ _ E. apply (f_equal fst) in E. cbn in E. lia.
      - intros l Hl. apply upd_other. intros <-. now apply (Hl (c1 + t)). }
    { intros i j k k' _ _ Ne -> -> E. apply sh_nx_inj in E. lia. }
    set (m2 := zfor c2 _ m1) in *. clearbody m2. split.
    - intros k Hk. unfold bo. destruct (Z.leb_spec (1 + 4 * k) n).
      + rewrite L4; [apply (L1 k); lia|]. intros i k' Hi -> E. apply sh_nx_inj in E. lia.
      + rewrite (L3 (k - c1)) by (unfold i2 in *; lia). do 4 f_equal. unfold i2. lia.
    - intros l Hl. rewrite L4, L2; auto; intros i k _ _ ->; cbn in Hl; lia.
  Qed.
  Definition vo (E y : Z -> R) (k : Z) : R :=
    let r := rr (k + 1) in
    (ss (k + 1) * (if (r =? h)%Z then 0 else E r) + 2 * (sn (4 * h) r * Cy y r + cs (4 * h) r * Sy y r))%R.
  Definition go (k : Z) : Z := let r := rr (k + 1) in if 2 * r <=? h then r else h - r.
  Lemma store_o_ok (nx : nat) O os m E y : 1 < h -> (fst O < nx)%nat -> inj1 (n - 1) os -> (forall k, 0 <= k < h -> m (sh (nx, 0) k) = y k) ->
    (forall k, 0 <= k < h - 1 -> m (sh O (k * os)) = E (k + 1)) ->
     (forall k, 0 <= k < n - 1 -> split_store_o n os (nx, 0) O m (sh O (k * os)) = vo E y k) /\
     (forall l, (forall k, 0 <= k < n - 1 -> l <> sh O (k * os)) -> split_store_o n os (nx, 0) O m l = m l).
  Proof.
    intros H2 HO Jo Hy HE. unfold split_store_o. cbn zeta. rewrite Hq3.
    assert (JJ : forall j k, 0 <= j < n - 1 -> 0 <= k < n - 1 -> sh O (j * os) = sh O (k * os) -> j = k).
    { intros j k Hj Hk F. now apply (sh_s _ (n - 1)) in F. }
    apply (quad_fill2 h (n - 1) (fun k => sh O (k * os)) (vo E y) m _ _ _ (fun i => i - 1) (fun i => 2 * h - 1 - i) (fun i => h - 1 - i) (fun i => h - 1 + i)
      (fun i => i - 1) (fun i => 2 * h - 1 - i) go (fun l => exists k, l = sh (nx, 0) k)); auto.
    - intros k _ (k' & F). apply (f_equal fst) in F. cbn in F. lia.
    - intros k Hk G. assert (Kk : k = h - 1) by (unfold go, rr in G; revert G; cbn zeta; dec; lia). subst k.
      rewrite upd_same, Hy by lia. unfold vo. cbn zeta. replace (h - 1 + 1) with h by lia. rewrite rr_lo, ss_lo, cs_quarter, sn_quarter, Cy_h, Sy_h, Z.eqb_refl by lia. ring.
    - intros l Hl. rewrite !upd_other; [reflexivity|]; intros F; symmetry in F; revert F.
      apply Hl; [lia|]. unfold go, rr. cbn zeta. dec; lia.
    - intros i Hi Hi2. unfold go, rr. cbn zeta. dec; lia.
    - intros i Hi Hi2. unfold go, rr. cbn zeta. dec; lia.
    - intros k Hk. unfold go, rr. cbn zeta. dec; lia.
    - intros i m' Hi Hi2 Hs Ho.
      assert (Hb : forall k, 0 <= k < h -> m' (sh (nx, 0) k) = y k) by (intros k Hk; rewrite Hs, Hy by eauto; reflexivity).
      rewrite !Hb by lia. rewrite tws_c, tws_s.
      rewrite (upd_other _ _ _ (sh O ((h - 1 - i) * os))) by (intros F; apply JJ in F; lia).
      rewrite (upd_other _ _ _ (sh O ((h - 1 - i) * os))) by (intros F; apply JJ in F; lia).
      rewrite (Ho (i - 1)), (Ho (h - 1 - i)) by (unfold go, rr; cbn zeta; dec; lia). rewrite !HE by lia.
      unfold vo. cbn zeta. replace (i - 1 + 1) with i by lia. replace (2 * h - 1 - i + 1) with (2 * h - i) by lia.
      replace (h - 1 - i + 1) with (h - i) by lia. replace (h - 1 + i + 1) with (h + i) by lia.
      rewrite (rr_lo i), (rr_hi (2 * h - i)), (rr_lo (h - i)), (rr_hi (h + i)), (ss_lo i), (ss_hi (2 * h - i)), (ss_lo (h - i)), (ss_hi (h + i)) by lia.
      replace (n - (2 * h - i)) with i by lia. replace (n - (h + i)) with (h - i) by lia.
      destruct (Z.eqb_spec i h); [lia|]. destruct (Z.eqb_spec (h - i) h); [lia|].
      rewrite Cy_lo, Cy_hi, Sy_lo, Sy_hi by lia. rewrite c_ref, s_ref by lia. updeq.
    - intros i m' Hi Hi1 Hi2 Hs Ho.
      assert (Hb : forall k, 0 <= k < h -> m' (sh (nx, 0) k) = y k) by (intros k Hk; rewrite Hs, Hy by eauto; reflexivity).
      rewrite !Hb by lia. rewrite tws_s. rewrite (Ho (i - 1)) by (unfold go, rr; cbn zeta; dec; lia). rewrite !HE by lia.
      unfold vo. cbn zeta. replace (i - 1 + 1) with i by lia. replace (2 * h - 1 - i + 1) with (2 * h - i) by lia.
      rewrite (rr_lo i), (rr_hi (2 * h - i)), (ss_lo i), (ss_hi (2 * h - i)) by lia.
      replace (n - (2 * h - i)) with i by lia. destruct (Z.eqb_spec i h); [lia|]. rewrite Cy_lo, Sy_mid by lia. updeq.
  Qed.
  Lemma ro00_odd j k : 0 <= k < n - 1 -> 1 < h ->
    rk RODFT00 (n - 1) (2 * j + 1) k = (ss (k + 1) * (if (rr (k + 1) =? h)%Z then 0 else rk RODFT00 (h - 1) j (rr (k + 1) - 1)))%R.
  Proof.
    intros Hk H2. rewrite !rk_rodft00 by lia. replace (n - 1 + 1) with n by lia. replace (h - 1 + 1) with h by lia.
    replace ((2 * j + 1 + 1) * (k + 1)) with (2 * ((j + 1) * (k + 1))) by ring. rewrite sn_scale by lia.
    replace (rr (k + 1) - 1 + 1) with (rr (k + 1)) by lia. rewrite <- Hn.
    assert (G : sn n ((j + 1) * (k + 1)) = (ss (k + 1) * sn n ((j + 1) * rr (k + 1)))%R).
    { unfold ss, rr. destruct (_ <=? _); [ring|]. rewrite sn_ref by lia. ring. }
    rewrite G. destruct (Z.eqb_spec (rr (k + 1)) h) as [->|]; [rewrite sn_mid by lia|]; ring.
  Qed.
  Lemma Rsum_oe f : 1 < h -> Rsum (n - 1) f = (Rsum (h - 1) (fun j => f (2 * j + 1)%Z) + Rsum h (fun j => f (2 * j)%Z))%R.
  Proof.
    intros H2. replace (n - 1) with (2 * (h - 1) + 1) by lia. rewrite Rsum_succ, Rsum_even_odd by lia.
    replace h with (h - 1 + 1) at 5 by lia. rewrite Rsum_succ by lia. ring.
  Qed.
  Lemma split_o_math x k : 1 < h -> 0 <= k < n - 1 ->
    vo (fun r => Rsum (h - 1) (fun j => x (2 * j + 1)%Z * rk RODFT00 (h - 1) j (r - 1)%Z)%R) (hc h (bo x)) k = Rsum (n - 1) (fun j => x j * rk RODFT00 (n - 1) j k)%R.
  Proof.
    intros H2 Hk. assert (Hr : 0 <= rr (k + 1) <= h) by (unfold rr; dec; lia). unfold vo. cbn zeta. rewrite Rsum_oe by auto. f_equal.
    - rewrite (Rsum_ext (h - 1) (fun j => x (2 * j + 1)%Z * rk RODFT00 (n - 1) (2 * j + 1) k)%R
        (fun j => ss (k + 1) * (x (2 * j + 1)%Z * (if (rr (k + 1) =? h)%Z then 0 else rk RODFT00 (h - 1) j (rr (k + 1) - 1)%Z)))%R).
      2:{ intros j Hj. rewrite ro00_odd by auto. ring. }
      rewrite Rsum_mul_l. f_equal. destruct (_ =? _); [|reflexivity]. rewrite Rsum_zero; [reflexivity|]. intros; ring.
    - rewrite Cy_hc, Sy_hc by auto. rewrite <- (Rsum_reindex h sg4 (fun j => x (2 * j)%Z * rk RODFT00 (n - 1) (2 * j) k)%R sg4_range sg4_inj).
      rewrite <- !Rsum_mul_l, <- Rsum_add, <- !Rsum_mul_l. apply Rsum_ext. intros t Ht.
      rewrite rk_rodft00 by lia. replace (n - 1 + 1) with n by lia. rewrite sn2n_odd by lia.
      replace (x (2 * sg4 t)%Z * (2 * sn (2 * n) ((2 * sg4 t + 1) * rr (k + 1))))%R with (bo x t * (2 * sn (2 * n) ((1 + 4 * t) * rr (k + 1))))%R.
      2:{ unfold bo, sg4. destruct (_ <=? _).
          - replace (2 * (2 * t) + 1) with (1 + 4 * t) by ring. now replace (2 * (2 * t)) with (4 * t) by ring.
          - replace ((2 * (n - 1 - 2 * t) + 1) * rr (k + 1)) with (- ((1 + 4 * t) * rr (k + 1)) + 2 * n * rr (k + 1)) by ring.
            rewrite sn_period, sn_neg by lia. replace (2 * (n - 1 - 2 * t)) with (2 * n - 2 - 4 * t) by ring. ring. }
      replace ((1 + 4 * t) * rr (k + 1)) with (rr (k + 1) + 4 * t * rr (k + 1)) by ring. rewrite sn_add, <- cs_h4, <- sn_h4.
      replace (4 * h) with (2 * n) by lia. ring.
  Qed.
  Lemma split_o_correct nd nd2 is os fe fo : 1 < h -> Correct nd false (rx (x1 RODFT00 (h - 1) (2 * is) os)) [] fe ->
    Correct nd2 true (rx (x1 R2HC h 1 1)) [] fo ->
    Correct nd false (rx (x1 RODFT00 (n - 1) is os)) [] (split_apply_o false n is os fe fo).
  Proof.
    intros H2 Ce Co. apply prove_r1. intros nx I O m [HI HO Ji Jo Jx]. unfold split_apply_o. cbn zeta.
    destruct (load_o_ok is nx I m H2 HI) as [L1 L2]. set (m1 := split_load_o n is (nx, 0) I m) in *. clearbody m1.
    destruct (r2hc_buf nd2 h fo nx m1 _ Co L1) as [F1 F2]. set (m2 := fo (S nx) (nx, 0) (nx, 0) m1) in *. clearbody m2.
    destruct (run_w1 nd false RODFT00 (h - 1) (2 * is) os fe (S nx) (sh I is) O m2 Ce) as [G1 G2].
    { constructor; try (cbn; lia).
      - intros i j Hi Hj F. assert (2 * i = 2 * j); [|lia]. apply Ji; lia.
      - now apply (inj1_le (n - 1)); [lia|].
      - intros j k Hj Hk. rewrite sh_sh. replace (is + j * (2 * is)) with ((2 * j + 1) * is) by ring. apply Jx; lia. }
    set (m3 := fe (S nx) (sh I is) O m2) in *. clearbody m3.
    destruct (store_o_ok nx O os m3 (fun r => Rsum (h - 1) (fun j => m (sh I ((2 * j + 1) * is)%Z) * rk RODFT00 (h - 1) j (r - 1)%Z)%R)
      (hc h (bo (fun j => m (sh I (j * is)))))) as [S1 S2]; auto.
    { intros k Hk. rewrite G2; [now apply F1|cbn; lia| |right]; intros k' _ F; apply (f_equal fst) in F; cbn in F; lia. }
    { intros k Hk. rewrite G1 by lia. replace (k + 1 - 1) with k by lia. apply Rsum_ext. intros j Hj. rewrite F2, L2 by (cbn; lia). rewrite sh_sh. now replace (is + j * (2 * is)) with ((2 * j + 1) * is) by ring. }
    split.
    - intros k Hk. rewrite S1 by auto. apply (split_o_math (fun j => m (sh I (j * is)))); lia.
    - intros l Hl Ho Hi. rewrite S2 by auto. rewrite G2; [now rewrite F2, L2 by auto|lia| |].
      + intros k Hk. apply Ho. lia.
      + destruct Hi as [Hi|Hi]; [now left|right]. intros k Hk. rewrite sh_sh. replace (is + k * (2 * is)) with ((2 * k + 1) * is) by ring. apply Hi. lia.
  Qed.
  (** in place only the size 3 occurs *)
  Lemma split_o_ip_correct nd nd2 is os fe fo : h = 2 -> Correct nd true (rx (x1 RODFT00 (h - 1) (2 * is) is)) [] fe ->
    Correct nd2 true (rx (x1 R2HC h 1 1)) [] fo ->
    Correct nd true (rx (x1 RODFT00 (n - 1) is os)) [] (split_apply_o true n is os fe fo).
  Proof.
    intros H2 Ce Co. apply prove_r1. intros nx I O m HW. destruct (W1_ip_strides _ _ _ _ _ _ HW) as [?|E]; [lia|]. subst os.
    destruct HW as [HI HO Ji Jo [<- _]]. unfold split_apply_o. cbn zeta. rewrite Hq3.
    destruct (load_o_ok is nx I m ltac:(lia) HI) as [L1 L2]. set (m1 := split_load_o n is (nx, 0) I m) in *. clearbody m1.
    destruct (r2hc_buf nd2 h fo nx m1 _ Co L1) as [F1 F2]. set (m2 := fo (S nx) (nx, 0) (nx, 0) m1) in *. clearbody m2.
    destruct (run_w1 nd true RODFT00 (h - 1) (2 * is) is fe (S nx) (sh I is) (sh I is) m2 Ce) as [G1 G2].
    { constructor; try (cbn; lia).
      - intros i j Hi Hj _. lia.
      - intros i j Hi Hj _. lia.
      - split; auto. intros o. split; intros (j & Hj & ->); exists 0; (split; [lia|]); assert (j = 0) by lia; subst j; ring. }
    set (m3 := fe (S nx) (sh I is) (sh I is) m2) in *. clearbody m3.
    replace (h - 1) with 1 by lia. rewrite zfor_1.
    set (m4 := upd m3 (sh I (0 * is)) (m3 (sh I ((0 + 1) * is)))).
    assert (Ne : forall a b, 0 <= a < n - 1 -> 0 <= b < n - 1 -> a <> b -> sh I (a * is) <> sh I (b * is)).
    { intros a b Ha Hb N F. apply (sh_s _ (n - 1)) in F; auto. }
    destruct (store_o_ok nx I is m4 (fun r => Rsum (h - 1) (fun j => m (sh I ((2 * j + 1) * is)%Z) * rk RODFT00 (h - 1) j (r - 1)%Z)%R)
      (hc h (bo (fun j => m (sh I (j * is)))))) as [S1 S2]; auto; try lia.
    { intros k Hk. unfold m4. rewrite upd_other by (intros F; apply (f_equal fst) in F; cbn in F; lia).
      rewrite G2; [now apply F1|cbn; lia| |right]; intros k' _ F; apply (f_equal fst) in F; cbn in F; lia. }
    { intros k Hk. assert (k = 0) by lia. subst k. unfold m4. rewrite upd_same. specialize (G1 0 ltac:(lia)). rewrite Z.mul_0_l, sh_0 in G1.
      replace ((0 + 1) * is) with is by ring. rewrite G1. apply Rsum_ext. intros j Hj. rewrite F2, L2 by (cbn; lia). rewrite sh_sh. now replace (is + j * (2 * is)) with ((2 * j + 1) * is) by ring. }
    split.
    - intros k Hk. rewrite S1 by auto. apply (split_o_math (fun j => m (sh I (j * is)))); lia.
    - intros l Hl Ho _. rewrite S2 by auto. unfold m4. rewrite upd_other by (intros F; symmetry in F; revert F; apply Ho; lia).
      rewrite G2; [now rewrite F2, L2 by auto|lia| |].
      + intros k Hk. rewrite sh_sh. replace (is + k * is) with ((k + 1) * is) by ring. apply Ho. lia.
      + right. intros k Hk. rewrite sh_sh. assert (k = 0) by lia. subst k. replace (is + 0 * (2 * is)) with (1 * is) by ring. apply Ho. lia.
  Qed.
End Split.
