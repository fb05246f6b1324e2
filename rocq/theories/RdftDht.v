(** * rdft/dht-r2hc.c, rdft/rdft-dht.c and rdft/generic.c are correct (proof library) *)
From Coq Require Import Reals ZArith List Lia Lra Bool Permutation.
From Verif Require Import NumTheory Cplx Spec SpecR2R Base TensorModel Offs TensorProofs XForm XKern XSeq
  DftModel RdftModel DftTw DftPrime RSum RdftX RdftLib RdftLoop RMath.
Import ListNotations.
Open Scope Z_scope.

Lemma W1_ip_strides nx I O n is os : W1 nx true I O n is os -> n <= 1 \/ is = os.
Proof.
  intros [_ _ A B [_ S]]. destruct (Z_le_gt_dec n 1) as [?|Hn]; [auto|right].
  assert (is <> 0). { intros ->. specialize (A 0 1). lia. }
  destruct (proj1 (S is)) as (k & Hk & E1); [exists 1; lia|].
  destruct (proj2 (S os)) as (j & Hj & E2); [exists 1; lia|].
  assert (E3 : is * (k * j - 1) = 0) by (replace (is * (k * j - 1)) with (k * (j * is) - is) by ring; rewrite <- E2; lia).
  apply Z.mul_eq_0 in E3. assert (k * j = 1) by lia. clear E3.
  assert (k = 1) by (destruct (Z.mul_eq_1 k j); lia). subst k. lia.
Qed.
Lemma sh_s P n s i j : inj1 n s -> 0 <= i < n -> 0 <= j < n -> sh P (i * s) = sh P (j * s) -> i = j.
Proof. intros H Hi Hj E. apply sh_inj in E. now apply H. Qed.

Lemma dht_r2hc_correct nd ip n is os f : 0 < n ->
  Correct nd ip (rx (x1 R2HC n is os)) [] f -> Correct nd ip (rx (x1 DHT n is os)) [] (dht_r2hc_apply n os f).
Proof.
  intros Hn C. apply prove_r1. intros nx I O m HW. destruct (run_w1 _ _ _ _ _ _ _ _ _ _ m C HW) as [V F].
  pose proof (w1_os _ _ _ _ _ _ _ HW) as Jo. unfold dht_r2hc_apply. set (m1 := f nx I O m) in *.
  set (b := fun j => m (sh I (j * is))) in *.
  destruct (pairs_cells n (fun i m =>
    let a := m (sh O (i * os)) in let b := m (sh O ((n - i) * os)) in
    upd (upd m (sh O (i * os)) (a - b)%R) (sh O ((n - i) * os)) (a + b)%R) m1 (fun k => sh O (k * os))
    (fun k => Rsum n (fun j => b j * rk DHT n j k)%R) Hn) as [P1 P2].
  - intros i m' Hi Hi2 Hm. cbn zeta.
    destruct (upd2 m' (sh O (i * os)) (sh O ((n - i) * os)) (m' (sh O (i * os)) - m' (sh O ((n - i) * os)))%R
                (m' (sh O (i * os)) + m' (sh O ((n - i) * os)))%R) as (U1 & U2 & U3).
    { intros E. apply (sh_s _ n) in E; auto; lia. }
    split; [rewrite U1|split; [rewrite U2|exact U3]]; rewrite !Hm, !V by (try lia; intros k Hk E; apply (sh_s _ n) in E; auto; lia);
    destruct (dht_of_hc n Hn b i Hi Hi2) as [E1 E2]; cbn zeta in E1, E2; unfold b in *; rewrite ?E1, ?E2; reflexivity.
  - intros j k Hj Hk. apply (sh_s _ n); auto; lia.
  - split.
    + intros k Hk. destruct (Z.eq_dec k 0) as [->|N0]; [|destruct (Z.eq_dec (2 * k) n) as [E|N1]].
      * rewrite P2. { rewrite V by lia. apply (dht_of_hc0 n Hn b). auto. } intros j Hj _ E. apply (sh_s _ n) in E; auto; lia.
      * rewrite P2. { rewrite V by lia. apply (dht_of_hc0 n Hn b). auto. } intros j Hj Nj E'. apply (sh_s _ n) in E'; auto; lia.
      * apply P1; lia.
    + intros l Hl Ho Hi. rewrite P2; [now apply F|]. intros k Hk _. apply Ho. lia.
Qed.

Lemma r2hc_dht_correct nd ip n is os f : 0 < n ->
  Correct nd ip (rx (x1 DHT n is os)) [] f -> Correct nd ip (rx (x1 R2HC n is os)) [] (r2hc_dht_apply n os f).
Proof.
  intros Hn C. apply prove_r1. intros nx I O m HW. destruct (run_w1 _ _ _ _ _ _ _ _ _ _ m C HW) as [V F].
  pose proof (w1_os _ _ _ _ _ _ _ HW) as Jo. unfold r2hc_dht_apply. set (m1 := f nx I O m) in *.
  set (b := fun j => m (sh I (j * is))) in *.
  destruct (pairs_cells n (fun i m =>
    let a := (/ 2 * m (sh O (i * os)))%R in let b := (/ 2 * m (sh O ((n - i) * os)%Z))%R in
    upd (upd m (sh O (i * os)) (a + b)%R) (sh O ((n - i) * os)) (b - a)%R) m1 (fun k => sh O (k * os))
    (fun k => Rsum n (fun j => b j * rk R2HC n j k)%R) Hn) as [P1 P2].
  - intros i m' Hi Hi2 Hm. cbn zeta.
    destruct (upd2 m' (sh O (i * os)) (sh O ((n - i) * os)) (/ 2 * m' (sh O (i * os)) + / 2 * m' (sh O ((n - i) * os)%Z))%R
                (/ 2 * m' (sh O ((n - i) * os)%Z) - / 2 * m' (sh O (i * os)))%R) as (U1 & U2 & U3).
    { intros E. apply (sh_s _ n) in E; auto; lia. }
    split; [rewrite U1|split; [rewrite U2|exact U3]]; rewrite !Hm, !V by (try lia; intros k Hk E; apply (sh_s _ n) in E; auto; lia);
    destruct (dht_of_hc n Hn b i Hi Hi2) as [E1 E2]; cbn zeta in E1, E2; unfold b in *; rewrite E1, E2; lra.
  - intros j k Hj Hk. apply (sh_s _ n); auto; lia.
  - split.
    + intros k Hk. destruct (Z.eq_dec k 0) as [->|N0]; [|destruct (Z.eq_dec (2 * k) n) as [E|N1]].
      * rewrite P2. { rewrite V by lia. symmetry. apply (dht_of_hc0 n Hn b). auto. } intros j Hj _ E. apply (sh_s _ n) in E; auto; lia.
      * rewrite P2. { rewrite V by lia. symmetry. apply (dht_of_hc0 n Hn b). auto. } intros j Hj Nj E'. apply (sh_s _ n) in E'; auto; lia.
      * apply P1; lia.
    + intros l Hl Ho Hi. rewrite P2; [now apply F|]. intros k Hk _. apply Ho. lia.
Qed.

Lemma hc2r_dht_correct ip n is os f : 0 < n ->
  Correct false ip (rx (x1 DHT n is os)) [] f -> Correct false ip (rx (x1 HC2R n is os)) [] (hc2r_dht_apply n is f).
Proof.
  intros Hn C. apply prove_r1. intros nx I O m HW.
  pose proof (w1_is _ _ _ _ _ _ _ HW) as Ji. unfold hc2r_dht_apply. 
  set (b := fun j => m (sh I (j * is))) in *.
  destruct (pairs_cells n (fun i m =>
    let a := m (sh I (i * is)) in let b := m (sh I ((n - i) * is)) in
    upd (upd m (sh I (i * is)) (a - b)%R) (sh I ((n - i) * is)) (a + b)%R) m (fun k => sh I (k * is))
    (fun k => if 2 * k <? n then (b k - b (n - k)%Z)%R else (b (n - k)%Z + b k)%R) Hn) as [P1 P2].
  - intros i m' Hi Hi2 Hm. cbn zeta.
    destruct (upd2 m' (sh I (i * is)) (sh I ((n - i) * is)) (m' (sh I (i * is)) - m' (sh I ((n - i) * is)))%R
                (m' (sh I (i * is)) + m' (sh I ((n - i) * is)))%R) as (U1 & U2 & U3).
    { intros E. apply (sh_s _ n) in E; auto; lia. }
    split; [rewrite U1|split; [rewrite U2|exact U3]]; rewrite !Hm by (try lia; intros k Hk E; apply (sh_s _ n) in E; auto; lia).
    + destruct (Z.ltb_spec (2 * i) n); [reflexivity|lia].
    + destruct (Z.ltb_spec (2 * (n - i)) n); [lia|]. unfold b. now replace (n - (n - i)) with i by lia.
  - intros j k Hj Hk. apply (sh_s _ n); auto; lia.
  - cbv zeta in P1, P2.
    match type of P1 with context [pairs n ?B m] => set (m1 := pairs n B m) in * end.
    destruct (run_w1 _ _ _ _ _ _ _ _ _ _ m1 C HW) as [V F]. split.
    + intros k Hk. rewrite V by auto. apply (hc2r_dht n Hn b (fun j => m1 (sh I (j * is)))).
      * apply P2. intros j Hj _ E. apply (sh_s _ n) in E; auto; lia.
      * intros i Hi Hi2. rewrite !P1 by lia. destruct (Z.ltb_spec (2 * i) n); [|lia]. destruct (Z.ltb_spec (2 * (n - i)) n); [lia|].
        replace (n - (n - i)) with i by lia. auto.
      * intros i Hi. apply P2. intros j Hj Nj E. apply (sh_s _ n) in E; auto; lia.
    + intros l Hl Ho [?|Hi]; [discriminate|]. rewrite F; auto. apply P2. intros k Hk _. apply Hi. lia.
Qed.

Lemma hc2r_dht_save_correct ip n is os f : 0 < n ->
  Correct true true (rx (x1 DHT n os os)) [] f -> Correct true ip (rx (x1 HC2R n is os)) [] (hc2r_dht_save n is os f).
Proof.
  intros Hn C. apply prove_r1. intros nx I O m HW.
  pose proof (w1_is _ _ _ _ _ _ _ HW) as Ji. pose proof (w1_os _ _ _ _ _ _ _ HW) as Jo. unfold hc2r_dht_save. cbv zeta.
  set (b := fun j => m (sh I (j * is))) in *.
  (* a location of I that coincides with one of O has the same index *)
  assert (D : forall j k, 0 <= j < n -> 0 <= k < n -> sh I (j * is) = sh O (k * os) -> j = k).
  { destruct ip.
    - destruct (W1_ip_strides _ _ _ _ _ _ HW) as [E|E]; [intros; lia|]. destruct HW as [_ _ _ _ [-> _]]. subst is.
      intros j k Hj Hk. now apply (sh_s _ n).
    - intros j k Hj Hk E. now destruct (w1_ip _ _ _ _ _ _ _ HW j k Hj Hk). }
  destruct (fill_cells n (fun m => upd m (sh O 0) (m (sh I 0))) (fun i m =>
    upd (upd m (sh O (i * os)) (m (sh I (i * is)) - m (sh I ((n - i) * is)))%R) (sh O ((n - i) * os)) (m (sh I (i * is)) + m (sh I ((n - i) * is)))%R)
    (fun i m => upd m (sh O (i * os)) (m (sh I (i * is)))) m (fun k => sh O (k * os))
    (fun k => if k =? 0 then b 0 else if 2 * k =? n then b k else if 2 * k <? n then (b k - b (n - k)%Z)%R else (b (n - k)%Z + b k)%R) Hn) as [P1 P2].
  - cbn [Z.eqb]. rewrite Z.mul_0_l, upd_same. unfold b. now rewrite Z.mul_0_l.
  - intros l Hl. rewrite Z.mul_0_l in Hl. apply upd_other. congruence.
  - intros i m' Hi Hi2 Hm.
    destruct (upd2 m' (sh O (i * os)) (sh O ((n - i) * os)) (m' (sh I (i * is)) - m' (sh I ((n - i) * is)))%R
                (m' (sh I (i * is)) + m' (sh I ((n - i) * is)))%R) as (U1 & U2 & U3).
    { intros E. apply (sh_s _ n) in E; auto; lia. }
    split; [rewrite U1|split; [rewrite U2|exact U3]]; rewrite !Hm by (try lia; intros k Hk E; apply D in E; lia).
    + destruct (Z.eqb_spec i 0); [lia|]. destruct (Z.eqb_spec (2 * i) n); [lia|]. destruct (Z.ltb_spec (2 * i) n); [reflexivity|lia].
    + destruct (Z.eqb_spec (n - i) 0); [lia|]. destruct (Z.eqb_spec (2 * (n - i)) n); [lia|].
      destruct (Z.ltb_spec (2 * (n - i)) n); [lia|]. unfold b. now replace (n - (n - i)) with i by lia.
  - intros i m' Hi Hi2 Hm. destruct (upd1 m' (sh O (i * os)) (m' (sh I (i * is)))) as [U1 U2]. rewrite U1. split; auto.
    destruct (Z.eqb_spec i 0); [lia|]. destruct (Z.eqb_spec (2 * i) n); [|lia]. rewrite Hm; auto. intros k Hk Nk E. apply D in E; lia.
  - intros j k Hj Hk. now apply (sh_s _ n).
  - match type of P1 with context [middle n ?M ?P] => set (m1 := middle n M P) in * end.
    assert (HW' : W1 nx true O O n os os) by (apply W1_same; auto; apply HW).
    destruct (run_w1 _ _ _ _ _ _ _ _ _ _ m1 C HW') as [V F]. split.
    + intros k Hk. rewrite V by auto. apply (hc2r_dht n Hn b (fun j => m1 (sh O (j * os)))).
      * rewrite P1 by lia. reflexivity.
      * intros i Hi Hi2. rewrite !P1 by lia. 
        destruct (Z.eqb_spec i 0); [lia|]. destruct (Z.eqb_spec (n - i) 0); [lia|].
        destruct (Z.eqb_spec (2 * i) n); [lia|]. destruct (Z.eqb_spec (2 * (n - i)) n); [lia|].
        destruct (Z.ltb_spec (2 * i) n); [|lia]. destruct (Z.ltb_spec (2 * (n - i)) n); [lia|].
        replace (n - (n - i)) with i by lia. auto.
      * intros i Hi. rewrite P1 by lia. destruct (Z.eqb_spec i 0); [lia|]. destruct (Z.eqb_spec (2 * i) n); [|lia]. reflexivity.
    + intros l Hl Ho _. rewrite F; auto.
Qed.
