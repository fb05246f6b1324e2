(** * reodft/reodft11e-radix2.c is correct (proof library) *)
From Coq Require Import Reals ZArith List Lia Lra Bool Permutation.
From Verif Require Import NumTheory Cplx Spec SpecR2R Base TensorModel Offs TensorProofs XForm XKern XSeq
  DftModel RdftModel DftTw DftTw2 DftPrime RSum RdftX RdftLib RdftLoop RMath RdftDht RdftGen RdftReo RdftOdd.
Import ListNotations.
Open Scope Z_scope.

(** two cells, then four cells in every iteration over pairs, then two cells if h is
    even; [g k] is the iteration that writes cell k *)
Lemma quad_fill h N (A : Z -> loc) (v : Z -> R) m m0 body bm z1 z2 p1 p2 p3 p4 q1 q2 g (Src : loc -> Prop) : 0 < h ->
  (forall j k, 0 <= j < N -> 0 <= k < N -> A j = A k -> j = k) ->
  (forall k, 0 <= k < N -> ~ Src (A k)) ->
  (0 <= z1 < N /\ 0 <= z2 < N /\ z1 <> z2 /\ g z1 = 0 /\ g z2 = 0) ->
  (forall i, 0 < i -> 2 * i < h -> 0 <= p1 i < N /\ 0 <= p2 i < N /\ 0 <= p3 i < N /\ 0 <= p4 i < N /\
     p1 i <> p2 i /\ p1 i <> p3 i /\ p1 i <> p4 i /\ p2 i <> p3 i /\ p2 i <> p4 i /\ p3 i <> p4 i /\
     g (p1 i) = i /\ g (p2 i) = i /\ g (p3 i) = i /\ g (p4 i) = i) ->
  (forall i, 0 < i -> 2 * i = h -> 0 <= q1 i < N /\ 0 <= q2 i < N /\ q1 i <> q2 i /\ g (q1 i) = i /\ g (q2 i) = i) ->
  (forall k, 0 <= k < N -> (g k = 0 /\ (k = z1 \/ k = z2)) \/
     (0 < g k /\ 2 * g k < h /\ (k = p1 (g k) \/ k = p2 (g k) \/ k = p3 (g k) \/ k = p4 (g k))) \/
     (0 < g k /\ 2 * g k = h /\ (k = q1 (g k) \/ k = q2 (g k)))) ->
  m0 = upd (upd m (A z1) (v z1)) (A z2) (v z2) ->
  (forall i m', 0 < i -> 2 * i < h -> (forall l, Src l -> m' l = m l) ->
     body i m' = upd (upd (upd (upd m' (A (p1 i)) (v (p1 i))) (A (p2 i)) (v (p2 i))) (A (p3 i)) (v (p3 i))) (A (p4 i)) (v (p4 i))) ->
  (forall i m', 0 < i -> i = hcnt h + 1 -> 2 * i = h -> (forall l, Src l -> m' l = m l) ->
     bm i m' = upd (upd m' (A (q1 i)) (v (q1 i))) (A (q2 i)) (v (q2 i))) ->
  (forall k, 0 <= k < N -> middle h bm (pairs h body m0) (A k) = v k) /\
  (forall l, (forall k, 0 <= k < N -> l <> A k) -> middle h bm (pairs h body m0) l = m l).
Proof.
  intros Hh Ji HS Hz Hp Hq Hc E0 Hb Hm. destruct (hcnt_spec h Hh) as [C0 C1].
  assert (NE : forall j k, 0 <= j < N -> 0 <= k < N -> j <> k -> A j <> A k) by (intros j k Hj Hk N' E; now apply Ji in E).
  destruct Hz as (Z1 & Z2 & Z3 & Z4 & Z5).
  destruct (upd2 m (A z1) (A z2) (v z1) (v z2) (NE _ _ Z1 Z2 Z3)) as (U1 & U2 & U3). rewrite <- E0 in U1, U2, U3. clear E0.
  assert (S0 : forall l, Src l -> m0 l = m l).
  { intros l Hl. apply U3; intros ->; [apply (HS z1)|apply (HS z2)]; auto. }
  destruct (loop_cells (hcnt h) (fun i' => body (i' + 1)) m0
    (fun i k => k = p1 (i + 1) \/ k = p2 (i + 1) \/ k = p3 (i + 1) \/ k = p4 (i + 1)) A v) as [L1 L2].
  { intros i m' Hi Hl. destruct (Hp (i + 1) ltac:(lia) ltac:(lia)) as (R1 & R2 & R3 & R4 & D1 & D2 & D3 & D4 & D5 & D6 & _).
    rewrite Hb; try lia.
    2:{ intros l Sl. rewrite Hl; [now apply S0|]. intros j k Hj Hk ->.
        destruct (Hp (j + 1) ltac:(lia) ltac:(lia)) as (T1 & T2 & T3 & T4 & _).
        revert Sl. apply HS. destruct Hk as [->|[->|[->| ->]]]; lia. }
    destruct (upd4 m' (A (p1 (i + 1))) (A (p2 (i + 1))) (A (p3 (i + 1))) (A (p4 (i + 1)))
      (v (p1 (i + 1))) (v (p2 (i + 1))) (v (p3 (i + 1))) (v (p4 (i + 1)))) as (V1 & V2 & V3 & V4 & V5); try (apply NE; lia).
    split.
    - intros k [->|[->|[->| ->]]]; auto.
    - intros l Hl'. apply V5; apply Hl'; auto. }
  { intros i j k k' Hi Hj N' Hk Hk'.
    destruct (Hp (i + 1) ltac:(lia) ltac:(lia)) as (R1 & R2 & R3 & R4 & _ & _ & _ & _ & _ & _ & G1 & G2 & G3 & G4).
    destruct (Hp (j + 1) ltac:(lia) ltac:(lia)) as (T1 & T2 & T3 & T4 & _ & _ & _ & _ & _ & _ & F1 & F2 & F3 & F4).
    apply NE; destruct Hk as [->|[->|[->| ->]]]; destruct Hk' as [->|[->|[->| ->]]]; try lia; congruence || (intros E; apply (f_equal g) in E; lia). }
  unfold pairs. set (m1 := zfor (hcnt h) _ m0) in *. clearbody m1.
  assert (Q1 : forall k, 0 <= k < N -> 2 * g k <> h -> m1 (A k) = v k).
  { intros k Hk Nk. destruct (Hc k Hk) as [(Gk & Hk')|[(G1 & G2 & G3)|(G1 & G2 & G3)]]; [| |lia].
    - rewrite L2.
      + destruct Hk' as [->| ->]; auto.
      + intros i k' Hi Hk2. destruct (Hp (i + 1) ltac:(lia) ltac:(lia)) as (T1 & T2 & T3 & T4 & _ & _ & _ & _ & _ & _ & F1 & F2 & F3 & F4).
        apply NE; auto; destruct Hk2 as [->|[->|[->| ->]]]; try lia; intros E; apply (f_equal g) in E; lia.
    - apply (L1 (g k - 1)); [lia|]. now replace (g k - 1 + 1) with (g k) by lia. }
  assert (Q2 : forall l, (forall k, 0 <= k < N -> 2 * g k <> h -> l <> A k) -> m1 l = m l).
  { intros l Hl. rewrite L2.
    - apply U3; apply Hl; lia.
    - intros i k Hi Hk. destruct (Hp (i + 1) ltac:(lia) ltac:(lia)) as (T1 & T2 & T3 & T4 & _ & _ & _ & _ & _ & _ & F1 & F2 & F3 & F4).
      apply Hl; destruct Hk as [->|[->|[->| ->]]]; lia. }
  unfold middle. cbn zeta. destruct (Z.eqb_spec (hcnt h + 1) (h - (hcnt h + 1))) as [E|E].
  - destruct (Hq (hcnt h + 1) ltac:(lia) ltac:(lia)) as (R1 & R2 & R3 & R4 & R5).
    rewrite Hm; try lia.
    2:{ intros l Sl. apply Q2. intros k Hk _ ->. now apply (HS k). }
    destruct (upd2 m1 (A (q1 (hcnt h + 1))) (A (q2 (hcnt h + 1))) (v (q1 (hcnt h + 1))) (v (q2 (hcnt h + 1))) (NE _ _ R1 R2 R3)) as (V1 & V2 & V3).
    split.
    + intros k Hk. destruct (Z.eq_dec (2 * g k) h) as [Ek|Ek].
      * destruct (Hc k Hk) as [?|[?|(G1 & G2 & G3)]]; try lia. assert (g k = hcnt h + 1) as Eg by lia. rewrite Eg in G3. destruct G3 as [->| ->]; auto.
      * rewrite V3; [now apply Q1| |]; apply NE; auto; intros ->; lia.
    + intros l Hl. rewrite V3 by (apply Hl; auto). apply Q2. intros k Hk _. now apply Hl.
  - split.
    + intros k Hk. apply Q1; auto. intros Ek. destruct (Hc k Hk) as [?|[?|(G1 & G2 & G3)]]; lia.
    + intros l Hl. apply Q2. intros k Hk _. now apply Hl.
Qed.

Lemma upd_cong m m' l v v' : m = m' -> v = v' -> upd m l v = upd m' l v'.
Proof. now intros -> ->. Qed.
Ltac updeq := repeat (apply upd_cong; [|ring]); reflexivity.

Section Rad.
  Variable n h : Z.
  Hypothesis Hh : 0 < h.
  Hypothesis Hn : n = 2 * h.
  Lemma Hq2 : Z.quot n 2 = h. Proof. par. Qed.

  (** ** Loading *)
  Definition Ux (x : Z -> R) (i : Z) : R := if i =? 0 then (2 * x 0%Z)%R else (x (2 * i - 1)%Z + x (2 * i)%Z)%R.
  Definition Vx (x : Z -> R) (i : Z) : R := if i =? 0 then (2 * x (n - 1)%Z)%R else (x (n - 1 - 2 * i)%Z - x (n - 2 * i)%Z)%R.
  Definition bv (x : Z -> R) (k : Z) : R := if k <? h then b01 h (Ux x) k else b01 h (Vx x) (k - h).
  Definition gl (k : Z) : Z := let r := if k <? h then k else k - h in if 2 * r <=? h then r else h - r.
  Lemma twl_c i : tw_cs (2 * n) 0 1 (2 * i) = cs (4 * h) i.
  Proof. rewrite tw_cs_c. f_equal; lia. Qed.
  Lemma twl_s i : tw_cs (2 * n) 0 1 (2 * i + 1) = sn (4 * h) i.
  Proof. rewrite tw_cs_s. f_equal; lia. Qed.
  Lemma Ux_S x i : 0 < i -> Ux x i = (x (2 * i - 1)%Z + x (2 * i)%Z)%R.
  Proof. intros. unfold Ux. now destruct (Z.eqb_spec i 0); [lia|]. Qed.
  Lemma Vx_S x i : 0 < i -> Vx x i = (x (n - 1 - 2 * i)%Z - x (n - 2 * i)%Z)%R.
  Proof. intros. unfold Vx. now destruct (Z.eqb_spec i 0); [lia|]. Qed.
  Lemma bv_lo x k : 0 <= k < h -> bv x k = b01 h (Ux x) k.
  Proof. intros. unfold bv. now destruct (Z.ltb_spec k h); [|lia]. Qed.
  Lemma bv_hi x k : 0 <= k -> bv x (h + k) = b01 h (Vx x) k.
  Proof. intros. unfold bv. destruct (Z.ltb_spec (h + k) h); [lia|]. f_equal. lia. Qed.
  (** one butterfly *)
  Lemma bf_vals x i : 0 < i -> 2 * i < h ->
    let a := (x (2 * i - 1)%Z + x (2 * i)%Z)%R in let b2 := (x (2 * i - 1)%Z - x (2 * i)%Z)%R in
    let b := (x (n - 2 * i - 1)%Z + x (n - 2 * i)%Z)%R in let a2 := (x (n - 2 * i - 1)%Z - x (n - 2 * i)%Z)%R in
    bv x i = (cs (4 * h) i * (a - b) + sn (4 * h) i * (a + b))%R /\
    bv x (h - i) = (cs (4 * h) i * (a + b) - sn (4 * h) i * (a - b))%R /\
    bv x (h + i) = (cs (4 * h) i * (a2 - b2) + sn (4 * h) i * (a2 + b2))%R /\
    bv x (n - i) = (cs (4 * h) i * (a2 + b2) - sn (4 * h) i * (a2 - b2))%R.
  Proof.
    intros Hi Hi2. cbn zeta. replace (n - i) with (h + (h - i)) by lia. rewrite !bv_lo, !bv_hi by lia.
    rewrite !b01_S, !Ux_S, !Vx_S by lia. rewrite c_ref, s_ref by lia.
    replace (h - (h - i)) with i by lia.
    replace (2 * (h - i) - 1) with (n - 2 * i - 1) by lia. replace (2 * (h - i)) with (n - 2 * i) by lia.
    replace (n - 1 - 2 * i) with (n - 2 * i - 1) by lia. replace (n - 1 - (n - 2 * i)) with (2 * i - 1) by lia.
    replace (n - (n - 2 * i)) with (2 * i) by lia.
    repeat split; ring.
  Qed.
  Lemma bf_mid x i : 2 * i = h -> 
    bv x i = ((x (h - 1)%Z + x h) * (cs (4 * h) i * 2))%R /\ bv x (n - i) = ((x (h - 1)%Z - x h) * (cs (4 * h) i * 2))%R.
  Proof.
    intros Hi. replace (n - i) with (h + i) by lia. rewrite bv_lo, bv_hi by lia. rewrite !b01_S by lia.
    replace (h - i) with i by lia. rewrite Ux_S, Vx_S by lia. rewrite mid_cs by lia.
    replace (2 * i - 1) with (h - 1) by lia. replace (2 * i) with h by lia. replace (n - 1 - h) with (h - 1) by lia. replace (n - h) with h by lia.
    split; ring.
  Qed.
  Lemma bv_0 x : bv x 0 = (2 * x 0%Z)%R.
  Proof. rewrite bv_lo by lia. reflexivity. Qed.
  Lemma bv_h x : bv x h = (2 * x (n - 1)%Z)%R.
  Proof. replace h with (h + 0) at 1 by lia. rewrite bv_hi by lia. reflexivity. Qed.

  Ltac dec := repeat match goal with |- context[?a <? ?b] => destruct (Z.ltb_spec a b) | |- context[?a <=? ?b] => destruct (Z.leb_spec a b) end.
  Lemma load_gen (nx : nat) (I : loc) (m m0 : mem) body bm x : (fst I < nx)%nat ->
    m0 = upd (upd m (sh (nx, 0) 0) (bv x 0)) (sh (nx, 0) h) (bv x h) ->
    (forall i m', 0 < i -> 2 * i < h -> (forall l, fst l <> nx -> m' l = m l) ->
      body i m' = upd (upd (upd (upd m' (sh (nx, 0) i) (bv x i)) (sh (nx, 0) (h - i)) (bv x (h - i))) (sh (nx, 0) (h + i)) (bv x (h + i))) (sh (nx, 0) (n - i)) (bv x (n - i))) ->
    (forall i m', 0 < i -> i = hcnt h + 1 -> 2 * i = h -> (forall l, fst l <> nx -> m' l = m l) ->
      bm i m' = upd (upd m' (sh (nx, 0) i) (bv x i)) (sh (nx, 0) (n - i)) (bv x (n - i))) ->
    (forall k, 0 <= k < n -> middle h bm (pairs h body m0) (sh (nx, 0) k) = bv x k) /\
    (forall l, (fst l < nx)%nat -> middle h bm (pairs h body m0) l = m l).
  Proof.
    intros HI E0 Hb Hm.
    destruct (quad_fill h n (fun k => sh (nx, 0) k) (bv x) m m0 body bm 0 h (fun i => i) (fun i => h - i) (fun i => h + i) (fun i => n - i)
      (fun i => i) (fun i => n - i) gl (fun l => fst l <> nx)) as [P1 P2]; auto.
    - intros j k _ _. apply sh_nx_inj.
    - unfold gl. cbn zeta. dec; lia.
    - intros i Hi Hi2. unfold gl. cbn zeta. dec; lia.
    - intros i Hi Hi2. unfold gl. cbn zeta. dec; lia.
    - intros k Hk. unfold gl. cbn zeta. dec; lia.
    - split; auto. intros l Hl. apply P2. intros k _ ->. cbn in Hl. lia.
  Qed.
  Lemma re11_load_ok is nx I m : (fst I < nx)%nat ->
     (forall k, 0 <= k < n -> re11_load n is (nx, 0) I m (sh (nx, 0) k) = bv (fun j => m (sh I (j * is))) k) /\
     (forall l, (fst l < nx)%nat -> re11_load n is (nx, 0) I m l = m l).
  Proof.
    intros HI. unfold re11_load. cbn zeta. rewrite Hq2. 
    assert (NI : forall o, fst (sh I o) <> nx) by (intros o; cbn; lia).
    apply (load_gen nx I m); auto.
    - rewrite bv_0, bv_h, Z.mul_0_l. rewrite upd_other; [reflexivity|]. intros E. apply (f_equal fst) in E. cbn in E. lia.
    - intros i m' Hi Hi2 Hm. rewrite !Hm by apply NI. unfold re11_bf. cbn zeta. rewrite Hq2, twl_c, twl_s.
      destruct (bf_vals (fun j => m (sh I (j * is))) i Hi Hi2) as (-> & -> & -> & ->).
      replace (i + i) with (2 * i) by lia. reflexivity.
    - intros i m' Hi _ Hi2 Hm. rewrite !Hm by apply NI. rewrite twl_c.
      destruct (bf_mid (fun j => m (sh I (j * is))) i Hi2) as (-> & ->). reflexivity.
  Qed.
  Lemma ro11_load_ok is nx I m : (fst I < nx)%nat ->
     (forall k, 0 <= k < n -> ro11_load n is (nx, 0) I m (sh (nx, 0) k) = bv (fun j => m (sh I ((n - 1 - j) * is))) k) /\
     (forall l, (fst l < nx)%nat -> ro11_load n is (nx, 0) I m l = m l).
  Proof.
    intros HI. unfold ro11_load. cbn zeta. rewrite Hq2.
    assert (NI : forall o, fst (sh I o) <> nx) by (intros o; cbn; lia).
    apply (load_gen nx I m); auto.
    - rewrite bv_0, bv_h, Z.sub_diag, Z.mul_0_l, Z.sub_0_r. rewrite upd_other; [reflexivity|]. intros E. apply (f_equal fst) in E. cbn in E. lia.
    - intros i m' Hi Hi2 Hm. rewrite !Hm by apply NI. unfold re11_bf. cbn zeta. rewrite Hq2, twl_c, twl_s.
      destruct (bf_vals (fun j => m (sh I ((n - 1 - j) * is))) i Hi Hi2) as (-> & -> & -> & ->).
      replace (i + i) with (2 * i) by lia. replace (n - 1 - (2 * i - 1)) with (n - 2 * i) by lia.
      replace (n - 1 - (n - 2 * i - 1)) with (2 * i) by lia. replace (n - 1 - (n - 2 * i)) with (2 * i - 1) by lia. reflexivity.
    - intros i m' Hi _ Hi2 Hm. rewrite !Hm by apply NI. rewrite twl_c.
      destruct (bf_mid (fun j => m (sh I ((n - 1 - j) * is))) i Hi2) as (-> & ->).
      replace (n - 1 - (h - 1)) with h by lia. replace (n - 1 - h) with (h - 1) by lia. reflexivity.
  Qed.

  (** ** The child *)
  Definition hc2 (y : Z -> R) (k : Z) : R := if k <? h then hc h y k else hc h (fun j => y (h + j)) (k - h).
  Lemma r2hc2_buf nd f nx m y : Correct nd true (rx (x1 R2HC h 1 1)) [mkdim 2 h h] f ->
    (forall k, 0 <= k < n -> m (sh (nx, 0) k) = y k) ->
    (forall k, 0 <= k < n -> f (S nx) (nx, 0) (nx, 0) m (sh (nx, 0) k) = hc2 y k) /\
    (forall l, (fst l < nx)%nat -> f (S nx) (nx, 0) (nx, 0) m l = m l).
  Proof.
    intros C Hy.
    assert (EI : il (rx (x1 R2HC h 1 1)) [mkdim 2 h h] = locs [(h, 1); (2, h)]) by (rewrite il_rx; reflexivity).
    assert (EO : ol (rx (x1 R2HC h 1 1)) [mkdim 2 h h] = locs [(h, 1); (2, h)]) by (rewrite ol_rx; reflexivity).
    destruct (C (S nx) (nx, 0) (nx, 0) m) as [V F].
    { constructor.
      - cbn. lia.
      - cbn. lia.
      - constructor; [cbn; lia|constructor].
      - rewrite EI. apply NoDup_rbuf; lia.
      - rewrite EO. apply NoDup_rbuf; lia.
      - split; auto. intros o. now rewrite EI, EO. }
    split.
    - intros k Hk. rewrite vals_rx1 in V. unfold hc2. destruct (Z.ltb_spec k h).
      + specialize (V _ _ (offs1_in 2 h h 0 ltac:(lia)) k ltac:(lia)). rewrite Z.mul_1_r, Z.mul_0_l, Z.add_0_l in V. rewrite V.
        apply Rsum_ext. intros j Hj. rewrite Z.mul_1_r, Z.add_0_l, Hy by lia. reflexivity.
      + specialize (V _ _ (offs1_in 2 h h 1 ltac:(lia)) (k - h) ltac:(lia)). rewrite Z.mul_1_r, Z.mul_1_l in V.
        replace (h + (k - h)) with k in V by lia. rewrite V.
        apply Rsum_ext. intros j Hj. rewrite Z.mul_1_r, Hy by lia. reflexivity.
    - intros l Hl. apply F; [lia| |right].
      + intros (o & _ & ->). cbn in Hl. lia.
      + intros (o & _ & ->). cbn in Hl. lia.
  Qed.

  (** ** Storing *)
  (** output k < h and output n-1-k from the k-th values a, b of the two halves *)
  Definition op11r (y : Z -> R) (k : Z) : R :=
    if k <? h
    then (cs (8 * n) (2 * k + 1) * op01 h 1 y k + cs 2 k * sn (8 * n) (2 * k + 1) * op01 h 1 (fun j => y (h + j)%Z) k)%R
    else let k' := n - 1 - k in
         (sn (8 * n) (2 * k' + 1) * op01 h 1 y k' - cs 2 k' * cs (8 * n) (2 * k' + 1) * op01 h 1 (fun j => y (h + j)%Z) k')%R.
  Lemma op11r_lo y k : 0 <= k < h ->
    op11r y k = (cs (8 * n) (2 * k + 1) * op01 h 1 y k + cs 2 k * sn (8 * n) (2 * k + 1) * op01 h 1 (fun j => y (h + j)%Z) k)%R.
  Proof. intros H. unfold op11r. now destruct (Z.ltb_spec k h); [|lia]. Qed.
  Lemma op11r_hi y k : 0 <= k < h ->
    op11r y (n - 1 - k) = (sn (8 * n) (2 * k + 1) * op01 h 1 y k - cs 2 k * cs (8 * n) (2 * k + 1) * op01 h 1 (fun j => y (h + j)%Z) k)%R.
  Proof. intros H. unfold op11r. destruct (Z.ltb_spec (n - 1 - k) h); [lia|]. cbn zeta. now replace (n - 1 - (n - 1 - k)) with k by lia. Qed.
  Definition gs (k : Z) : Z := let r := if k <? h then k else n - 1 - k in (r + 1) / 2.
  Lemma tw2_c k : tw_cs (8 * n) 1 2 (2 * k) = cs (8 * n) (2 * k + 1).
  Proof. now rewrite tw_cs_c. Qed.
  Lemma tw2_s k : tw_cs (8 * n) 1 2 (2 * k + 1) = sn (8 * n) (2 * k + 1).
  Proof. now rewrite tw_cs_s. Qed.
  Lemma cs2_even i : cs 2 (2 * i) = 1%R.
  Proof. rewrite <- (Z.add_0_l (2 * i)), cs_period by lia. apply cs_0. Qed.
  Lemma cs2_odd i : cs 2 (2 * i - 1) = (-1)%R.
  Proof. replace (2 * i - 1) with (1 + 2 * (i - 1)) by ring. rewrite cs_period by lia. change 2 with (2 * 1). apply cs_half. lia. Qed.

  Lemma store_gen (nx : nat) (O : loc) os (m m0 : mem) body bm v : (fst O < nx)%nat -> inj1 n os ->
    m0 = upd (upd m (sh O (0 * os)) (v 0)) (sh O ((n - 1 - 0) * os)) (v (n - 1 - 0)) ->
    (forall i m', 0 < i -> 2 * i < h -> (forall k, m' (sh (nx, 0) k) = m (sh (nx, 0) k)) ->
      body i m' = upd (upd (upd (upd m' (sh O ((2 * i - 1) * os)) (v (2 * i - 1))) (sh O ((n - 1 - (2 * i - 1)) * os)) (v (n - 1 - (2 * i - 1))))
         (sh O (2 * i * os)) (v (2 * i))) (sh O ((n - 1 - 2 * i) * os)) (v (n - 1 - 2 * i))) ->
    (forall i m', 0 < i -> i = hcnt h + 1 -> 2 * i = h -> (forall k, m' (sh (nx, 0) k) = m (sh (nx, 0) k)) ->
      bm i m' = upd (upd m' (sh O ((2 * i - 1) * os)) (v (2 * i - 1))) (sh O ((n - 1 - (2 * i - 1)) * os)) (v (n - 1 - (2 * i - 1)))) ->
    (forall k, 0 <= k < n -> middle h bm (pairs h body m0) (sh O (k * os)) = v k) /\
    (forall l, (forall k, 0 <= k < n -> l <> sh O (k * os)) -> middle h bm (pairs h body m0) l = m l).
  Proof.
    intros HO Jo E0 Hb Hm.
    apply (quad_fill h n (fun k => sh O (k * os)) v m m0 body bm 0 (n - 1 - 0) (fun i => 2 * i - 1) (fun i => n - 1 - (2 * i - 1)) (fun i => 2 * i) (fun i => n - 1 - 2 * i)
      (fun i => 2 * i - 1) (fun i => n - 1 - (2 * i - 1)) gs (fun l => exists k, l = sh (nx, 0) k)); auto.
    - intros j k Hj Hk E. now apply (sh_s _ n) in E.
    - intros k _ (k' & E). apply (f_equal fst) in E. cbn in E. lia.
    - unfold gs. cbn zeta. dec; par.
    - intros i Hi Hi2. unfold gs. cbn zeta. dec; par.
    - intros i Hi Hi2. unfold gs. cbn zeta. dec; par.
    - intros k Hk. unfold gs. cbn zeta. dec; par.
    - intros i m' Hi Hi2 Hs. apply Hb; auto. intros k. apply Hs. eauto.
    - intros i m' Hi Hi1 Hi2 Hs. apply Hm; auto. intros k. apply Hs. eauto.
  Qed.
  Lemma re11_store_ok os nx O m y : (fst O < nx)%nat -> inj1 n os -> (forall k, 0 <= k < n -> m (sh (nx, 0) k) = y k) ->
     (forall k, 0 <= k < n -> re11_store n os (nx, 0) O m (sh O (k * os)) = op11r y k) /\
     (forall l, (forall k, 0 <= k < n -> l <> sh O (k * os)) -> re11_store n os (nx, 0) O m l = m l).
  Proof.
    intros HO Jo Hy. unfold re11_store. cbn zeta. rewrite Hq2.
    apply (store_gen nx O os m); auto.
    - rewrite op11r_lo, op11r_hi, !Hy by lia. pose proof (tw2_c 0) as T1. pose proof (tw2_s 0) as T2.
      change (2 * 0) with 0 in T1, T2. change (2 * 0) with 0. rewrite T1, T2, cs_0. change (op01 h 1 y 0) with (y 0).
      change (op01 h 1 (fun j => y (h + j)) 0) with (y (h + 0)). rewrite Z.add_0_r. updeq.
    - intros i m' Hi Hi2 Hm. replace (2 + 4 * (i - 1)) with (2 * (2 * i - 1)) by ring. replace (2 * (2 * i - 1) + 2) with (2 * (2 * i)) by ring.
      replace (i + i - 1 + 1) with (2 * i) by ring. replace (i + i - 1) with (2 * i - 1) by ring. rewrite !tw2_c, !tw2_s, !Hm, !Hy by lia.
      rewrite !op11r_hi, !op11r_lo by lia. rewrite cs2_even, cs2_odd, !op01_odd, !op01_even by lia.
      replace (n - i) with (h + (h - i)) by lia. updeq.
    - intros i m' Hi Hi1 Hi2 Hm. replace (hcnt h) with (i - 1) by lia. replace (2 + 4 * (i - 1)) with (2 * (2 * i - 1)) by ring. replace (i + i - 1) with (2 * i - 1) by ring.
      rewrite !tw2_c, !tw2_s, !Hm, !Hy by lia.
      rewrite !op11r_hi, !op11r_lo by lia. rewrite cs2_odd, !op01_mid by lia. updeq.
  Qed.
  Lemma cs2_n1 k : cs 2 (n - 1 - k) = (- cs 2 k)%R.
  Proof.
    replace (n - 1 - k) with (- (k + 1) + 2 * h) by lia. rewrite cs_period, cs_neg, cs_add by lia.
    assert (E : cs 2 1 = (-1)%R) by (change 2 with (2 * 1); apply cs_half; lia). rewrite E, !sn_2. ring.
  Qed.
  Lemma ro11_store_ok os nx O m y : (fst O < nx)%nat -> inj1 n os -> (forall k, 0 <= k < n -> m (sh (nx, 0) k) = y k) ->
     (forall k, 0 <= k < n -> ro11_store n os (nx, 0) O m (sh O (k * os)) = (cs 2 k * op11r y k)%R) /\
     (forall l, (forall k, 0 <= k < n -> l <> sh O (k * os)) -> ro11_store n os (nx, 0) O m l = m l).
  Proof.
    intros HO Jo Hy. unfold ro11_store. cbn zeta. rewrite Hq2.
    apply (store_gen nx O os m _ _ _ (fun k => cs 2 k * op11r y k)%R); auto.
    - rewrite cs2_n1, op11r_lo, op11r_hi, !Hy by lia. pose proof (tw2_c 0) as T1. pose proof (tw2_s 0) as T2.
      change (2 * 0) with 0 in T1, T2. change (2 * 0) with 0. rewrite T1, T2, cs_0. change (op01 h 1 y 0) with (y 0).
      change (op01 h 1 (fun j => y (h + j)) 0) with (y (h + 0)). rewrite Z.add_0_r. updeq.
    - intros i m' Hi Hi2 Hm. replace (2 + 4 * (i - 1)) with (2 * (2 * i - 1)) by ring. replace (2 * (2 * i - 1) + 2) with (2 * (2 * i)) by ring.
      replace (i + i - 1 + 1) with (2 * i) by ring. replace (i + i - 1) with (2 * i - 1) by ring. rewrite !tw2_c, !tw2_s, !Hm, !Hy by lia.
      rewrite !cs2_n1, !op11r_hi, !op11r_lo by lia. rewrite cs2_even, cs2_odd, !op01_odd, !op01_even by lia.
      replace (n - i) with (h + (h - i)) by lia. updeq.
    - intros i m' Hi Hi1 Hi2 Hm. replace (hcnt h) with (i - 1) by lia. replace (2 + 4 * (i - 1)) with (2 * (2 * i - 1)) by ring. replace (i + i - 1) with (2 * i - 1) by ring.
      rewrite !tw2_c, !tw2_s, !Hm, !Hy by lia.
      rewrite !cs2_n1, !op11r_hi, !op11r_lo by lia. rewrite cs2_odd, !op01_mid by lia. updeq.
  Qed.

  (** ** The algorithm *)
  Lemma Rsum_r2 f : Rsum n f = (f 0%Z + f (n - 1)%Z + Rsum (h - 1) (fun i => f (2 * (i + 1) - 1)%Z + f (2 * (i + 1))%Z))%R.
  Proof.
    rewrite Hn, Rsum_even_odd by lia. rewrite (Rsum_head h), (Rsum_last h (fun i => f (2 * i + 1)%Z)) by lia.
    rewrite Rsum_add. rewrite (Rsum_ext (h - 1) (fun i => f (2 * (i + 1) - 1)%Z) (fun i => f (2 * i + 1)%Z)) by (intros; f_equal; ring).
    replace (2 * (h - 1) + 1) with (2 * h - 1) by ring. rewrite Z.mul_0_r. ring.
  Qed.
  (** REDFT01 of U and V *)
  Lemma U_sum x k : Rsum h (fun j => Ux x j * rk REDFT01 h j k)%R =
    (2 * x 0%Z + Rsum (h - 1) (fun i => (x (2 * (i + 1) - 1)%Z + x (2 * (i + 1))%Z) * (2 * cs (8 * n) (4 * (i + 1) * (2 * k + 1))))%R)%R.
  Proof.
    rewrite Rsum_head by lia. rewrite rk_redft01_0. unfold Ux at 1. cbn [Z.eqb]. rewrite Rmult_1_r. f_equal.
    apply Rsum_ext. intros i Hi. rewrite Ux_S, rk_redft01 by lia. do 2 f_equal.
    replace (8 * n) with (4 * (4 * h)) by lia. rewrite <- Z.mul_assoc. symmetry. apply cs_scale; lia.
  Qed.
  Lemma V_sum x k : Rsum h (fun j => Vx x j * rk REDFT01 h j k)%R =
    (2 * x (n - 1)%Z + Rsum (h - 1) (fun i => (x (2 * (i + 1) - 1)%Z - x (2 * (i + 1))%Z) * (cs 2 k * (2 * sn (8 * n) (4 * (i + 1) * (2 * k + 1)))))%R)%R.
  Proof.
    rewrite Rsum_head by lia. rewrite rk_redft01_0. unfold Vx at 1. cbn [Z.eqb]. rewrite Rmult_1_r. f_equal.
    rewrite <- (Rsum_rev (h - 1)). apply Rsum_ext. intros i Hi. replace (h - 1 - 1 - i + 1) with (h - (i + 1)) by lia.
    rewrite Vx_S, rk_redft01 by lia.
    replace (n - 1 - 2 * (h - (i + 1))) with (2 * (i + 1) - 1) by lia. replace (n - 2 * (h - (i + 1))) with (2 * (i + 1)) by lia.
    f_equal. transitivity (2 * cs (8 * n) (4 * ((h - (i + 1)) * (2 * k + 1))))%R.
    { f_equal. replace (8 * n) with (4 * (4 * h)) by lia. symmetry. apply cs_scale; lia. }
    replace (4 * ((h - (i + 1)) * (2 * k + 1))) with (2 * n + 4 * n * k - 4 * (i + 1) * (2 * k + 1)) by (rewrite Hn; ring).
    rewrite cs_sub, sn_add, cs_add. replace (8 * n) with (4 * (2 * n)) by ring. rewrite cs_quarter, sn_quarter by lia.
    replace (cs (4 * (2 * n)) (4 * n * k)) with (cs 2 k).
    2:{ rewrite <- (cs_scale 2 (4 * n)) by lia. f_equal; ring. }
    replace (sn (4 * (2 * n)) (4 * n * k)) with 0%R; [ring|].
    rewrite <- (sn_2 k). rewrite <- (sn_scale 2 (4 * n)) by lia. f_equal; ring.
  Qed.
  Lemma cs2_sq k : (cs 2 k * cs 2 k = 1)%R.
  Proof. pose proof (cs2_sn2 2 k) as E. rewrite sn_2 in E. lra. Qed.
  Lemma last8 k : cs (8 * n) ((2 * (n - 1) + 1) * (2 * k + 1)) = (cs 2 k * sn (8 * n) (2 * k + 1))%R /\
                  sn (8 * n) ((2 * (n - 1) + 1) * (2 * k + 1)) = (cs 2 k * cs (8 * n) (2 * k + 1))%R.
  Proof.
    replace ((2 * (n - 1) + 1) * (2 * k + 1)) with (2 * n + 4 * n * k - (2 * k + 1)) by ring.
    rewrite cs_sub, sn_sub, sn_add, cs_add. replace (8 * n) with (4 * (2 * n)) by ring. rewrite cs_quarter, sn_quarter by lia.
    replace (cs (4 * (2 * n)) (4 * n * k)) with (cs 2 k).
    2:{ rewrite <- (cs_scale 2 (4 * n)) by lia. f_equal; ring. }
    replace (sn (4 * (2 * n)) (4 * n * k)) with 0%R; [split; ring|].
    rewrite <- (sn_2 k). rewrite <- (sn_scale 2 (4 * n)) by lia. f_equal; ring.
  Qed.
  Lemma rad_lo x k : Rsum n (fun j => x j * rk REDFT11 n j k)%R =
    (cs (8 * n) (2 * k + 1) * Rsum h (fun j => Ux x j * rk REDFT01 h j k) + cs 2 k * sn (8 * n) (2 * k + 1) * Rsum h (fun j => Vx x j * rk REDFT01 h j k))%R.
  Proof.
    rewrite U_sum, V_sum, Rsum_r2, !rk_redft11 by lia. rewrite (proj1 (last8 k)). change (2 * 0 + 1) with 1. rewrite Z.mul_1_l.
    rewrite !Rmult_plus_distr_l, <- !Rsum_mul_l.
    match goal with |- (_ + Rsum _ ?F)%R = (_ + Rsum _ ?G + (_ + Rsum _ ?H))%R => assert (E : Rsum (h - 1) F = (Rsum (h - 1) G + Rsum (h - 1) H)%R) end.
    { rewrite <- Rsum_add. apply Rsum_ext. intros i Hi. rewrite !rk_redft11 by lia.
      replace ((2 * (2 * (i + 1) - 1) + 1) * (2 * k + 1)) with (4 * (i + 1) * (2 * k + 1) - (2 * k + 1)) by ring.
      replace ((2 * (2 * (i + 1)) + 1) * (2 * k + 1)) with (4 * (i + 1) * (2 * k + 1) + (2 * k + 1)) by ring.
      rewrite cs_add, cs_sub. pose proof (cs2_sq k) as Q. set (A := cs (8 * n) (4 * (i + 1) * (2 * k + 1))). set (B := sn (8 * n) (4 * (i + 1) * (2 * k + 1))). set (c := cs (8 * n) (2 * k + 1)). set (s := sn (8 * n) (2 * k + 1)).
      replace (cs 2 k * s * ((x (2 * (i + 1) - 1)%Z - x (2 * (i + 1))%Z) * (cs 2 k * (2 * B))))%R
        with ((cs 2 k * cs 2 k) * (s * ((x (2 * (i + 1) - 1)%Z - x (2 * (i + 1))%Z) * (2 * B))))%R by ring. rewrite Q. ring. }
    rewrite E. ring.
  Qed.
  Lemma rk_re11_ref j k : rk REDFT11 n j (n - 1 - k) = (cs 2 j * (2 * sn (8 * n) ((2 * j + 1) * (2 * k + 1))))%R.
  Proof.
    rewrite rk_redft11 by lia. replace ((2 * j + 1) * (2 * (n - 1 - k) + 1)) with (2 * n + 4 * n * j - (2 * j + 1) * (2 * k + 1)) by ring.
    rewrite cs_sub, sn_add, cs_add. replace (8 * n) with (4 * (2 * n)) by ring. rewrite cs_quarter, sn_quarter by lia.
    replace (cs (4 * (2 * n)) (4 * n * j)) with (cs 2 j).
    2:{ rewrite <- (cs_scale 2 (4 * n)) by lia. f_equal; ring. }
    replace (sn (4 * (2 * n)) (4 * n * j)) with 0%R; [ring|].
    rewrite <- (sn_2 j). rewrite <- (sn_scale 2 (4 * n)) by lia. f_equal; ring.
  Qed.
  Lemma rad_hi x k : Rsum n (fun j => x j * rk REDFT11 n j (n - 1 - k)%Z)%R =
    (sn (8 * n) (2 * k + 1) * Rsum h (fun j => Ux x j * rk REDFT01 h j k) - cs 2 k * cs (8 * n) (2 * k + 1) * Rsum h (fun j => Vx x j * rk REDFT01 h j k))%R.
  Proof.
    rewrite U_sum, V_sum, Rsum_r2, !rk_re11_ref. rewrite (proj2 (last8 k)). change (2 * 0 + 1) with 1. rewrite Z.mul_1_l, cs_0.
    replace (cs 2 (n - 1)) with (-1)%R by (rewrite Hn; now rewrite cs2_odd).
    rewrite !Rmult_plus_distr_l, <- !Rsum_mul_l.
    match goal with |- (_ + Rsum _ ?F)%R = (_ + Rsum _ ?G - (_ + Rsum _ ?H))%R => assert (E : Rsum (h - 1) F = (Rsum (h - 1) G - Rsum (h - 1) H)%R) end.
    { rewrite <- Rsum_sub. apply Rsum_ext. intros i Hi. rewrite !rk_re11_ref, cs2_even, cs2_odd.
      replace ((2 * (2 * (i + 1) - 1) + 1) * (2 * k + 1)) with (4 * (i + 1) * (2 * k + 1) - (2 * k + 1)) by ring.
      replace ((2 * (2 * (i + 1)) + 1) * (2 * k + 1)) with (4 * (i + 1) * (2 * k + 1) + (2 * k + 1)) by ring.
      rewrite sn_add, sn_sub. pose proof (cs2_sq k) as Q. set (A := cs (8 * n) (4 * (i + 1) * (2 * k + 1))). set (B := sn (8 * n) (4 * (i + 1) * (2 * k + 1))). set (c := cs (8 * n) (2 * k + 1)). set (s := sn (8 * n) (2 * k + 1)).
      replace (cs 2 k * c * ((x (2 * (i + 1) - 1)%Z - x (2 * (i + 1))%Z) * (cs 2 k * (2 * B))))%R
        with ((cs 2 k * cs 2 k) * (c * ((x (2 * (i + 1) - 1)%Z - x (2 * (i + 1))%Z) * (2 * B))))%R by ring. rewrite Q. ring. }
    rewrite E. ring.
  Qed.
  Lemma op01_ext e y y' k : (forall j, 0 <= j < h -> y j = y' j) -> 0 <= k < h -> op01 h e y k = op01 h e y' k.
  Proof.
    intros H Hk. unfold op01. destruct (Z.eqb_spec k 0); [apply H; lia|]. destruct (Z.eqb_spec (k mod 2) 0).
    - rewrite (H (k / 2)), (H (h - k / 2)) by par. reflexivity.
    - destruct (Z.eqb_spec k (h - 1)).
      + rewrite (H ((k + 1) / 2)) by par. reflexivity.
      + rewrite (H ((k + 1) / 2)), (H (h - (k + 1) / 2)) by par. reflexivity.
  Qed.
  Lemma half_lo x k : 0 <= k < h -> op01 h 1 (hc2 (bv x)) k = Rsum h (fun j => Ux x j * rk REDFT01 h j k)%R.
  Proof.
    intros Hk. rewrite (op01_ext 1 _ (hc h (b01 h (Ux x)))); auto.
    - rewrite op01_b01 by auto. destruct (_ =? _); ring.
    - intros j Hj. unfold hc2. destruct (Z.ltb_spec j h); [|lia]. apply hc_ext. intros i Hi. now apply bv_lo.
  Qed.
  Lemma half_hi x k : 0 <= k < h -> op01 h 1 (fun j => hc2 (bv x) (h + j)) k = Rsum h (fun j => Vx x j * rk REDFT01 h j k)%R.
  Proof.
    intros Hk. rewrite (op01_ext 1 _ (hc h (b01 h (Vx x)))); auto.
    - rewrite op01_b01 by auto. destruct (_ =? _); ring.
    - intros j Hj. unfold hc2. destruct (Z.ltb_spec (h + j) h); [lia|]. replace (h + j - h) with j by lia. apply hc_ext. intros i Hi. apply bv_hi. lia.
  Qed.
  Lemma rad_math x k : 0 <= k < n -> op11r (hc2 (bv x)) k = Rsum n (fun j => x j * rk REDFT11 n j k)%R.
  Proof.
    intros Hk. destruct (Z_lt_le_dec k h).
    - rewrite op11r_lo, half_lo, half_hi by lia. symmetry. apply rad_lo.
    - assert (E : exists k', k = n - 1 - k' /\ 0 <= k' < h) by (exists (n - 1 - k); lia). destruct E as (k' & -> & Hk').
      rewrite op11r_hi, half_lo, half_hi by lia. symmetry. apply rad_hi.
  Qed.
  Lemma rk_ro11_rev j k : rk RODFT11 n (n - 1 - j) k = (cs 2 k * rk REDFT11 n j k)%R.
  Proof.
    rewrite rk_rodft11, rk_redft11 by lia.
    replace ((2 * (n - 1 - j) + 1) * (2 * k + 1)) with (2 * n + 4 * n * k - (2 * j + 1) * (2 * k + 1)) by ring.
    rewrite sn_sub, sn_add, cs_add. replace (8 * n) with (4 * (2 * n)) by ring. rewrite cs_quarter, sn_quarter by lia.
    replace (cs (4 * (2 * n)) (4 * n * k)) with (cs 2 k).
    2:{ rewrite <- (cs_scale 2 (4 * n)) by lia. f_equal; ring. }
    replace (sn (4 * (2 * n)) (4 * n * k)) with 0%R; [ring|].
    rewrite <- (sn_2 k). rewrite <- (sn_scale 2 (4 * n)) by lia. f_equal; ring.
  Qed.
  Lemma re11_correct nd nd2 ip is os f : Correct nd2 true (rx (x1 R2HC h 1 1)) [mkdim 2 h h] f ->
    Correct nd ip (rx (x1 REDFT11 n is os)) [] (buf_apply re11_load re11_store n is os f).
  Proof.
    intros C. apply buf_apply_correct with (B := bv) (G := hc2) (Op := op11r).
    - intros. now apply re11_load_ok.
    - intros. now apply (r2hc2_buf nd2).
    - intros. now apply re11_store_ok.
    - intros. now apply rad_math.
  Qed.
  Lemma ro11_correct nd nd2 ip is os f : Correct nd2 true (rx (x1 R2HC h 1 1)) [mkdim 2 h h] f ->
    Correct nd ip (rx (x1 RODFT11 n is os)) [] (buf_apply ro11_load ro11_store n is os f).
  Proof.
    intros C. apply buf_apply_correct with (B := fun x => bv (fun j => x (n - 1 - j))) (G := hc2) (Op := fun y k => (cs 2 k * op11r y k)%R).
    - intros. now apply ro11_load_ok.
    - intros. now apply (r2hc2_buf nd2).
    - intros. now apply ro11_store_ok.
    - intros x k Hk. rewrite rad_math by auto. rewrite <- (Rsum_rev n (fun j => x j * rk RODFT11 n j k)%R).
      rewrite <- Rsum_mul_l. apply Rsum_ext. intros j Hj. rewrite rk_ro11_rev by lia. ring.
  Qed.
End Rad.

Lemma reodft11_radix2_correct nd nd2 ip kd n is os f : 0 < n -> Z.rem n 2 = 0 -> kd = REDFT11 \/ kd = RODFT11 ->
  Correct nd2 true (rx (x1 R2HC (Z.quot n 2) 1 1)) [mkdim 2 (Z.quot n 2) (Z.quot n 2)] f ->
  Correct nd ip (rx (x1 kd n is os)) []
    (buf_apply (if rkind_eqb kd REDFT11 then re11_load else ro11_load) (if rkind_eqb kd REDFT11 then re11_store else ro11_store) n is os f).
Proof.
  intros Hn H2 Hk C. assert (E : n = 2 * (Z.quot n 2)) by par. assert (0 < Z.quot n 2) by par.
  destruct Hk as [->| ->]; cbn [rkind_eqb].
  - eapply re11_correct; eauto.
  - eapply ro11_correct; eauto.
Qed.
