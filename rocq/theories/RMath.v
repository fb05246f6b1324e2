(** * Trigonometry of the real transforms (proof library) *)
From Coq Require Import Reals ZArith List Lia Lra Bool.
From Verif Require Import NumTheory Cplx Spec SpecR2R RSum.
Import ListNotations.
Open Scope Z_scope.

(** sums that agree on pairs {i, n-i} *)
Lemma Rsum_pair_eq n f g : 0 < n -> f 0 = g 0 ->
  (forall i, 0 < i -> 2 * i < n -> (f i + f (n - i)%Z = g i + g (n - i)%Z)%R) ->
  (forall i, 0 < i -> 2 * i = n -> f i = g i) -> Rsum n f = Rsum n g.
Proof.
  intros Hn H0 Hp Hm.
  assert (E : forall h, Rsum n h = (/ 2 * Rsum n (fun i => h i + (if (i =? 0)%Z then h 0%Z else h (n - i)%Z)))%R).
  { intros h. rewrite Rsum_add, Rsum_shift_rev by auto. lra. }
  rewrite (E f), (E g). f_equal. apply Rsum_ext. intros i Hi.
  destruct (Z.eqb_spec i 0) as [->|Ne]; [lra|].
  destruct (Ztrichotomy (2 * i) n) as [L|[L|L]].
  - apply Hp; lia.
  - replace (n - i) with i by lia. rewrite (Hm i) by lia. lra.
  - specialize (Hp (n - i) ltac:(lia) ltac:(lia)). replace (n - (n - i)) with i in Hp by lia. lra.
Qed.

Section Kinds.
  Variable n : Z.
  Hypothesis Hn : 0 < n.
  Let NZ : IZR n <> 0%R. Proof. apply not_0_IZR. lia. Qed.

  Ltac angle := unfold ang; repeat (rewrite ?mult_IZR, ?plus_IZR, ?minus_IZR, ?opp_IZR); try (field; try lra; auto).

  Lemma rk_r2hc_re j k : 2 * k <= n -> rk R2HC n j k = cs n (j * k).
  Proof. intros H. unfold rk. destruct (Z.leb_spec (2 * k) n); [|lia]. apply cs_eq. rewrite mult_IZR. field. auto. Qed.
  Lemma rk_r2hc_im j k : n < 2 * k -> rk R2HC n j k = (- sn n (j * (n - k)%Z))%R.
  Proof. intros H. unfold rk. destruct (Z.leb_spec (2 * k) n); [lia|]. f_equal. apply sn_eq. rewrite mult_IZR. field. auto. Qed.
  Lemma rk_dht j k : rk DHT n j k = (cs n (j * k) + sn n (j * k))%R.
  Proof. unfold rk. f_equal; [apply cs_eq|apply sn_eq]; rewrite mult_IZR; field; auto. Qed.
  Lemma rk_hc2r_0 k : rk HC2R n 0 k = 1%R.
  Proof. reflexivity. Qed.
  Lemma rk_hc2r_re j k : 0 < j -> 2 * j < n -> rk HC2R n j k = (2 * cs n (j * k))%R.
  Proof.
    intros H1 H2. unfold rk. destruct (Z.eqb_spec j 0); [lia|]. destruct (Z.ltb_spec (2 * j) n); [|lia]. f_equal. apply cs_eq.
    rewrite mult_IZR. field. auto.
  Qed.
  Lemma rk_hc2r_im j k : n < 2 * j -> rk HC2R n j k = (- 2 * sn n ((n - j) * k)%Z)%R.
  Proof.
    intros H1. unfold rk. destruct (Z.eqb_spec j 0); [lia|]. destruct (Z.ltb_spec (2 * j) n); [lia|]. destruct (Z.eqb_spec (2 * j) n); [lia|].
    f_equal. apply sn_eq. rewrite mult_IZR. field. auto.
  Qed.
  Lemma rk_hc2r_mid j k : 2 * j = n -> rk HC2R n j k = cs n (j * k).
  Proof.
    intros H1. unfold rk. destruct (Z.eqb_spec j 0); [lia|]. destruct (Z.ltb_spec (2 * j) n); [lia|]. destruct (Z.eqb_spec (2 * j) n); [|lia].
    rewrite cos_PI_Z. rewrite <- H1. symmetry. rewrite Z.mul_comm, (Z.mul_comm j k). rewrite !(Z.mul_comm _ j). apply cs_scale; lia.
  Qed.
  Lemma rk_redft10 j k : rk REDFT10 n j k = (2 * cs (4 * n) ((2 * j + 1) * k))%R.
  Proof. unfold rk. f_equal. apply cs_eq. repeat rewrite ?mult_IZR, ?plus_IZR. field. auto. Qed.
  Lemma rk_redft01_0 k : rk REDFT01 n 0 k = 1%R. Proof. reflexivity. Qed.
  Lemma rk_redft01 j k : 0 < j -> rk REDFT01 n j k = (2 * cs (4 * n) (j * (2 * k + 1)))%R.
  Proof. intros H. unfold rk. destruct (Z.eqb_spec j 0); [lia|]. f_equal. apply cs_eq. repeat rewrite ?mult_IZR, ?plus_IZR. field. auto. Qed.
  Lemma rk_redft11 j k : rk REDFT11 n j k = (2 * cs (8 * n) ((2 * j + 1) * (2 * k + 1)))%R.
  Proof. unfold rk. f_equal. apply cs_eq. repeat rewrite ?mult_IZR, ?plus_IZR. field. auto. Qed.
  Lemma rk_rodft10 j k : rk RODFT10 n j k = (2 * sn (4 * n) ((2 * j + 1) * (k + 1)))%R.
  Proof. unfold rk. f_equal. apply sn_eq. repeat rewrite ?mult_IZR, ?plus_IZR. field. auto. Qed.
  Lemma rk_rodft11 j k : rk RODFT11 n j k = (2 * sn (8 * n) ((2 * j + 1) * (2 * k + 1)))%R.
  Proof. unfold rk. f_equal. apply sn_eq. repeat rewrite ?mult_IZR, ?plus_IZR. field. auto. Qed.
  Lemma rk_rodft00 j k : rk RODFT00 n j k = (2 * sn (2 * (n + 1)) ((j + 1) * (k + 1)))%R.
  Proof.
    unfold rk. f_equal. apply sn_eq. repeat rewrite ?mult_IZR, ?plus_IZR. field. rewrite <- plus_IZR. apply not_0_IZR. lia.
  Qed.
  Lemma rk_redft00_0 k : rk REDFT00 n 0 k = 1%R. Proof. reflexivity. Qed.
  Lemma rk_redft00_n k : 1 < n -> rk REDFT00 n (n - 1) k = cs (2 * (n - 1)) ((n - 1) * k).
  Proof.
    intros H. unfold rk. destruct (Z.eqb_spec (n - 1) 0); [lia|]. rewrite Z.eqb_refl. rewrite cos_PI_Z. apply cs_2_mul. lia.
  Qed.
  Lemma rk_redft00 j k : 0 < j < n - 1 -> rk REDFT00 n j k = (2 * cs (2 * (n - 1)) (j * k))%R.
  Proof.
    intros H. unfold rk. destruct (Z.eqb_spec j 0); [lia|]. destruct (Z.eqb_spec j (n - 1)); [lia|]. f_equal. apply cs_eq.
    repeat rewrite ?mult_IZR, ?minus_IZR. field. rewrite <- minus_IZR. apply not_0_IZR. lia.
  Qed.

  (** the values of a halfcomplex transform *)
  Lemma hc_re b i : 2 * i <= n -> Rsum n (fun j => b j * rk R2HC n j i)%R = Rsum n (fun j => b j * cs n (j * i)%Z)%R.
  Proof. intros H. apply Rsum_ext. intros j _. now rewrite rk_r2hc_re. Qed.
  Lemma hc_im b i : 2 * i < n -> Rsum n (fun j => b j * rk R2HC n j (n - i)%Z)%R = (- Rsum n (fun j => b j * sn n (j * i)%Z))%R.
  Proof. intros H. rewrite <- Rsum_opp. apply Rsum_ext. intros j _. rewrite rk_r2hc_im by lia. replace (n - (n - i)) with i by lia. ring. Qed.
  Lemma cs_ref k j : cs n (j * (n - k)) = cs n (j * k).
  Proof. rewrite <- (cs_neg n (j * k)). apply cs_congr; [lia|]. exists j. ring. Qed.
  Lemma sn_ref k j : sn n (j * (n - k)) = (- sn n (j * k))%R.
  Proof. rewrite <- sn_neg. apply sn_congr; [lia|]. exists j. ring. Qed.
  Lemma cs_ref' k j : cs n ((n - j) * k) = cs n (j * k).
  Proof. rewrite Z.mul_comm, cs_ref. f_equal. ring. Qed.
  Lemma sn_ref' k j : sn n ((n - j) * k) = (- sn n (j * k))%R.
  Proof. rewrite Z.mul_comm, sn_ref. do 2 f_equal. ring. Qed.
  Lemma sn_mid j i : 2 * i = n -> sn n (j * i) = 0%R.
  Proof.
    intros H. rewrite <- H, (Z.mul_comm j i), (Z.mul_comm 2 i). rewrite sn_scale by lia. apply sn_2.
  Qed.

  (** *** dht-r2hc and rdft-dht *)
  Lemma dht_of_hc b i : 0 < i -> 2 * i < n ->
    let H k := Rsum n (fun j => b j * rk R2HC n j k)%R in let D k := Rsum n (fun j => b j * rk DHT n j k)%R in
    D i = (H i - H (n - i)%Z)%R /\ D (n - i) = (H i + H (n - i)%Z)%R.
  Proof.
    intros Hi Hi2 H D. unfold H. rewrite hc_re, hc_im by lia. unfold D.
    split; unfold Rminus; rewrite <- ?Rsum_opp, <- Rsum_add; apply Rsum_ext; intros j _; rewrite rk_dht, ?cs_ref, ?sn_ref; ring.
  Qed.
  Lemma dht_of_hc0 b i : i = 0 \/ 2 * i = n -> Rsum n (fun j => b j * rk R2HC n j i)%R = Rsum n (fun j => b j * rk DHT n j i)%R.
  Proof.
    intros Hi. rewrite hc_re by lia. apply Rsum_ext. intros j _. rewrite rk_dht. f_equal. destruct Hi as [->|Hi].
    - rewrite Z.mul_0_r, sn_0. ring.
    - rewrite sn_mid by auto. ring.
  Qed.
  Lemma hc2r_dht x y k : y 0 = x 0 ->
    (forall i, 0 < i -> 2 * i < n -> y i = (x i - x (n - i)%Z)%R /\ y (n - i) = (x i + x (n - i)%Z)%R) ->
    (forall i, 2 * i = n -> y i = x i) ->
    Rsum n (fun j => y j * rk DHT n j k)%R = Rsum n (fun j => x j * rk HC2R n j k)%R.
  Proof.
    intros E0 Ep Em. apply Rsum_pair_eq; auto.
    - rewrite E0, rk_dht, rk_hc2r_0, Z.mul_0_l, cs_0, sn_0. ring.
    - intros i Hi Hi2. destruct (Ep i Hi Hi2) as [-> ->]. rewrite !rk_dht, rk_hc2r_re, rk_hc2r_im by lia.
      replace (n - (n - i)) with i by lia. rewrite cs_ref', sn_ref'. ring.
    - intros i Hi Hi2. rewrite Em, rk_dht, rk_hc2r_mid by auto. rewrite (Z.mul_comm i k), sn_mid by auto. ring.
  Qed.
End Kinds.
