(** * rdft/hc2hc-generic.c: what its steps compute (proof library) *)
From Coq Require Import Reals ZArith List Lia Lra Bool Permutation.
From Verif Require Import NumTheory Cplx Spec SpecR2R DftModel DftTw2 RSum RMath HcMath HcLib HcStep.
Import ListNotations.
Open Scope Z_scope.

Section Gen.
  Variables (r m : Z).
  Hypothesis (Hr : 0 < r) (Hm : 0 < m) (Ho : Z.odd r = true).
  (** cell p: row p / m, element p mod m *)
  Definition gtw (sg : R) (p : Z) (x : Z -> R) : R :=
    let k := p / m in let c := p mod m in
    if 2 * c <? m then let w := cexp (r * m) (c * k) in (x (k * m + c)%Z * fst w - x (k * m + (m - c))%Z * (sg * snd w))%R
    else let w := cexp (r * m) ((m - c) * k) in (x (k * m + c)%Z * fst w + x (k * m + (m - c))%Z * (sg * snd w))%R.
  Definition gch (kd : rkind) (p : Z) (x : Z -> R) : R := Rsum r (fun q => x (q * m + p mod m)%Z * rk kd r q (p / m))%R.
  Definition gr1 (p : Z) (x : Z -> R) : R :=
    let k := p / m in let c := p mod m in
    if k =? 0 then x (k * m + c)%Z
    else if 2 * c <? m then (x (k * m + c)%Z - x ((r - k) * m + (m - c))%Z)%R else (x (k * m + c)%Z + x ((r - k) * m + (m - c))%Z)%R.
  Definition gr2 (p : Z) (x : Z -> R) : R :=
    let k := p / m in let c := p mod m in if 2 * c <? m then x (k * m + c)%Z else x ((r - 1 - k) * m + c)%Z.
  Definition gd1 (p : Z) (x : Z -> R) : R :=
    let k := p / m in let c := p mod m in
    if k =? 0 then x (k * m + c)%Z
    else if 2 * c <? m then (/ 2 * x (k * m + c)%Z + / 2 * x ((r - k) * m + (m - c))%Z)%R
    else (/ 2 * x (k * m + c)%Z - / 2 * x ((r - k) * m + (m - c))%Z)%R.

  Section J.
    Variable j : Z.
    Hypothesis (H1 : 0 < j) (H2 : 2 * j < m).
    Ltac dm k c := rewrite ?(pm_div r m k c), ?(pm_mod r m k c) by lia.
    Lemma gtw_lo sg k x : gtw sg (k * m + j) x =
      (x (k * m + j)%Z * fst (cexp (r * m) (j * k)) - x (k * m + (m - j))%Z * (sg * snd (cexp (r * m) (j * k))))%R.
    Proof. unfold gtw. cbn zeta. dm k j. destruct (Z.ltb_spec (2 * j) m); [auto|lia]. Qed.
    Lemma gtw_hi sg k x : gtw sg (k * m + (m - j)) x =
      (x (k * m + (m - j))%Z * fst (cexp (r * m) (j * k)) + x (k * m + j)%Z * (sg * snd (cexp (r * m) (j * k))))%R.
    Proof. unfold gtw. cbn zeta. dm k (m - j). destruct (Z.ltb_spec (2 * (m - j)) m); [lia|]. replace (m - (m - j)) with j by lia. auto. Qed.
    Lemma gch_lo kd k x : gch kd (k * m + j) x = Rsum r (fun q => x (q * m + j)%Z * rk kd r q k)%R.
    Proof. unfold gch. now dm k j. Qed.
    Lemma gch_hi kd k x : gch kd (k * m + (m - j)) x = Rsum r (fun q => x (q * m + (m - j))%Z * rk kd r q k)%R.
    Proof. unfold gch. now dm k (m - j). Qed.
    Lemma gr1_lo k x : gr1 (k * m + j) x = if k =? 0 then x (k * m + j) else (x (k * m + j)%Z - x ((r - k) * m + (m - j))%Z)%R.
    Proof. unfold gr1. cbn zeta. dm k j. destruct (Z.ltb_spec (2 * j) m); [auto|lia]. Qed.
    Lemma gr1_hi k x : gr1 (k * m + (m - j)) x = if k =? 0 then x (k * m + (m - j)) else (x (k * m + (m - j))%Z + x ((r - k) * m + j)%Z)%R.
    Proof. unfold gr1. cbn zeta. dm k (m - j). destruct (Z.ltb_spec (2 * (m - j)) m); [lia|]. replace (m - (m - j)) with j by lia. auto. Qed.
    Lemma gd1_lo k x : gd1 (k * m + j) x = if k =? 0 then x (k * m + j) else (/ 2 * x (k * m + j)%Z + / 2 * x ((r - k) * m + (m - j))%Z)%R.
    Proof. unfold gd1. cbn zeta. dm k j. destruct (Z.ltb_spec (2 * j) m); [auto|lia]. Qed.
    Lemma gd1_hi k x : gd1 (k * m + (m - j)) x = if k =? 0 then x (k * m + (m - j)) else (/ 2 * x (k * m + (m - j))%Z - / 2 * x ((r - k) * m + j)%Z)%R.
    Proof. unfold gd1. cbn zeta. dm k (m - j). destruct (Z.ltb_spec (2 * (m - j)) m); [lia|]. replace (m - (m - j)) with j by lia. auto. Qed.
    Lemma gr2_lo k x : gr2 (k * m + j) x = x (k * m + j).
    Proof. unfold gr2. cbn zeta. dm k j. destruct (Z.ltb_spec (2 * j) m); [auto|lia]. Qed.
    Lemma gr2_hi k x : gr2 (k * m + (m - j)) x = x ((r - 1 - k) * m + (m - j)).
    Proof. unfold gr2. cbn zeta. dm k (m - j). destruct (Z.ltb_spec (2 * (m - j)) m); [lia|auto]. Qed.

    Lemma herm_r2hc a q : herm r (fun k => Rsum r (fun i => a i * rk R2HC r i k)%R) q = Csum r (fun i => cmul (RtoC (a i)) (W r (q * i))).
    Proof.
      rewrite (herm_ext r _ (hpack r (fun t => Csum r (fun i => RtoC (a i) * W r (t * i))%C)) q Hr).
      - rewrite herm_pack; auto.
        + intros s u. apply Csum_ext. intros i Hi. f_equal. replace ((s + r * u) * i) with (s * i + r * (u * i)) by ring. apply W_period. lia.
        + intros s. rewrite conj_sum. apply Csum_ext. intros i Hi. rewrite conj_mul. f_equal.
          * apply C_eq; cbn; ring.
          * rewrite <- W_neg. f_equal. ring.
      - intros i Hi. now apply r2hc_pack.
    Qed.
    Lemma dit_split x k : let y i := cmul (x (i * m + j), x (i * m + (m - j))) (W (r * m) (j * i)) in
      let A k := Rsum r (fun i => fst (y i) * rk R2HC r i k)%R in let B k := Rsum r (fun i => snd (y i) * rk R2HC r i k)%R in
      dit_bfly r m j x k = (fst (herm r A k) - snd (herm r B k), snd (herm r A k) + fst (herm r B k))%R.
    Proof.
      intros y A B. unfold A, B. rewrite !herm_r2hc. unfold dit_bfly. apply C_eq; cbn [fst snd].
      - rewrite !Csum_fst, !Csum_snd. rewrite <- Rsum_sub. apply Rsum_ext. intros i Hi. fold (y i). rewrite (Z.mul_comm k i).
        unfold RtoC. destruct (y i) as [u v]. unfold cmul. cbn [fst snd]. ring.
      - rewrite !Csum_fst, !Csum_snd. rewrite <- Rsum_add. apply Rsum_ext. intros i Hi. fold (y i). rewrite (Z.mul_comm k i).
        unfold RtoC. destruct (y i) as [u v]. unfold cmul. cbn [fst snd]. ring.
    Qed.
    Lemma tw_dit x i : gtw (-1)%R (i * m + j) x = fst (cmul (x (i * m + j), x (i * m + (m - j))) (W (r * m) (j * i))) /\
      gtw (-1)%R (i * m + (m - j)) x = snd (cmul (x (i * m + j), x (i * m + (m - j))) (W (r * m) (j * i))).
    Proof.
      rewrite gtw_lo, gtw_hi, cexp_W. unfold Cplx.conj, cmul. cbn [fst snd]. split; ring.
    Qed.
    Lemma odd_half : exists h, r = 2 * h + 1.
    Proof. apply Zodd_bool_iff in Ho. now apply Zodd_ex. Qed.
    Section Dit.
      Variable x : Z -> R.
      Definition gy i := cmul (x (i * m + j), x (i * m + (m - j))) (W (r * m) (j * i)).
      Definition gA k := Rsum r (fun i => fst (gy i) * rk R2HC r i k)%R.
      Definition gB k := Rsum r (fun i => snd (gy i) * rk R2HC r i k)%R.
      Lemma gAB k : dit_bfly r m j x k = (fst (herm r gA k) - snd (herm r gB k), snd (herm r gA k) + fst (herm r gB k))%R.
      Proof. exact (dit_split x k). Qed.
      Lemma gA_eq k : gch R2HC (k * m + j) (fun q'' => gtw (-1)%R q'' x) = gA k.
      Proof. rewrite gch_lo. apply Rsum_ext; intros i _; now rewrite (proj1 (tw_dit x i)). Qed.
      Lemma gB_eq k : gch R2HC (k * m + (m - j)) (fun q'' => gtw (-1)%R q'' x) = gB k.
      Proof. rewrite gch_hi. apply Rsum_ext; intros i _; now rewrite (proj2 (tw_dit x i)). Qed.
      Lemma gen_dit_lo k : 0 <= k < r ->
        gr2 (k * m + j) (fun q => gr1 q (fun q' => gch R2HC q' (fun q'' => gtw (-1)%R q'' x))) = hdit r m (k * m + j) x.
      Proof.
        intros Hk. rewrite gr2_lo, gr1_lo, gA_eq, gB_eq, hdit_lo, gAB by auto. destruct odd_half as [h Eh].
        cbn [fst snd]. destruct (Z.eqb_spec k 0) as [->|Nk].
        - destruct (Z.ltb_spec (2 * 0) r); [|lia]. rewrite !herm_0 by auto. cbn [fst snd]. ring.
        - destruct (Z.ltb_spec (2 * k) r).
          + rewrite !herm_lo by lia. cbn [fst snd]. ring.
          + rewrite !herm_hi by lia. cbn [fst snd]. ring.
      Qed.
      Lemma gen_dit_hi k : 0 <= k < r ->
        gr2 (k * m + (m - j)) (fun q => gr1 q (fun q' => gch R2HC q' (fun q'' => gtw (-1)%R q'' x))) = hdit r m (k * m + (m - j)) x.
      Proof.
        intros Hk. rewrite gr2_hi, gr1_hi, gA_eq, gB_eq, hdit_hi by auto. cbn zeta. set (q := r - 1 - k).
        rewrite gAB. destruct odd_half as [h Eh]. assert (Hq : 0 <= q < r) by lia. clearbody q.
        cbn [fst snd]. destruct (Z.eqb_spec q 0) as [->|Nk].
        - destruct (Z.ltb_spec (2 * 0) r); [|lia]. rewrite !herm_0 by auto. cbn [fst snd]. ring.
        - destruct (Z.ltb_spec (2 * q) r).
          + rewrite !herm_lo by lia. cbn [fst snd]. ring.
          + rewrite !herm_hi by lia. cbn [fst snd]. ring.
      Qed.
    End Dit.
    Lemma herm_sum_real h k : snd (Csum r (fun t => cmul (herm r h t) (W r (- (t * k))))) = 0%R.
    Proof.
      rewrite Csum_snd. replace 0%R with (Rsum r (fun _ => 0%R)) by (apply Rsum_zero; auto). apply Rsum_pair_eq; auto.
      - rewrite herm_0 by auto. rewrite Z.mul_0_l. change (- 0) with 0. rewrite W_0. unfold C1, cmul. cbn [fst snd]. ring.
      - intros i A1 A2. rewrite herm_lo, herm_hi by lia. rewrite !W_neg. replace (r - (r - i)) with i by lia. rewrite !W_cs.
        unfold Cplx.conj, cmul. cbn [fst snd]. rewrite cs_ref', sn_ref' by auto. ring.
      - intros i A1 A2. destruct odd_half as [h' Eh]. lia.
    Qed.
    Section Dif.
      Variable x : Z -> R.
      Definition ga k := gd1 (k * m + j) (fun q => gr2 q x).
      Definition gb k := gd1 (k * m + (m - j)) (fun q => gr2 q x).
      Lemma gab q : 0 <= q < r -> dif_in r m j x q = (fst (herm r ga q) - snd (herm r gb q), snd (herm r ga q) + fst (herm r gb q))%R.
      Proof.
        intros Hq. destruct odd_half as [h Eh]. unfold dif_in.
        assert (EA : forall k, 0 < k < r -> ga k = (/ 2 * x (k * m + j)%Z + / 2 * x ((r - 1 - (r - k)) * m + (m - j))%Z)%R).
        { intros k Hk. unfold ga. rewrite gd1_lo, !gr2_lo, !gr2_hi. destruct (Z.eqb_spec k 0); [lia|auto]. }
        assert (EB : forall k, 0 < k < r -> gb k = (/ 2 * x ((r - 1 - k) * m + (m - j))%Z - / 2 * x ((r - k) * m + j)%Z)%R).
        { intros k Hk. unfold gb. rewrite gd1_hi, !gr2_lo, !gr2_hi. destruct (Z.eqb_spec k 0); [lia|auto]. }
        destruct (Z.eqb_spec q 0) as [->|Nq].
        - destruct (Z.ltb_spec (2 * 0) r); [|lia]. rewrite !herm_0 by auto. cbn [fst snd].
          unfold ga, gb. rewrite gd1_lo, gd1_hi, !gr2_lo, !gr2_hi. change (0 =? 0) with true. cbn iota. apply C_eq; cbn [fst snd]; ring.
        - destruct (Z.ltb_spec (2 * q) r).
          + rewrite !herm_lo by lia. rewrite !EA, !EB by lia. replace (r - (r - q)) with q by lia. apply C_eq; cbn [fst snd]; field.
          + rewrite !herm_hi by lia. rewrite !EA, !EB by lia. replace (r - (r - q)) with q by lia. apply C_eq; cbn [fst snd]; field.
      Qed.
      Lemma gen_bfly k : Csum r (fun q => cmul (dif_in r m j x q) (W r (- (q * k)))) =
        (Rsum r (fun q => ga q * rk HC2R r q k)%R, Rsum r (fun q => gb q * rk HC2R r q k)%R).
      Proof.
        rewrite !hc2r_unpack by auto.
        pose proof (herm_sum_real ga k) as Ra. pose proof (herm_sum_real gb k) as Rb. rewrite Csum_snd in Ra, Rb.
        apply C_eq; cbn [fst snd]; rewrite ?Csum_fst, ?Csum_snd.
        - rewrite <- (Rminus_0_r (Rsum r (fun i => fst (herm r ga i * _)%C))). rewrite <- Rb at 1. rewrite <- Rsum_sub.
          apply Rsum_ext. intros q Hq. rewrite gab by auto. unfold cmul. cbn [fst snd]. ring.
        - rewrite <- (Rplus_0_l (Rsum r (fun i => fst (herm r gb i * _)%C))). rewrite <- Ra at 1. rewrite <- Rsum_add.
          apply Rsum_ext. intros q Hq. rewrite gab by auto. unfold cmul. cbn [fst snd]. ring.
      Qed.
      Lemma gen_dif_lo k : gtw 1%R (k * m + j) (fun q => gch HC2R q (fun q' => gd1 q' (fun q'' => gr2 q'' x))) = hdif r m (k * m + j) x.
      Proof.
        rewrite hdif_lo by auto. unfold dif_bfly. rewrite gen_bfly, gtw_lo, gch_lo, gch_hi, cexp_W, W_neg.
        unfold Cplx.conj, cmul. cbn [fst snd]. unfold ga, gb. ring.
      Qed.
      Lemma gen_dif_hi k : gtw 1%R (k * m + (m - j)) (fun q => gch HC2R q (fun q' => gd1 q' (fun q'' => gr2 q'' x))) = hdif r m (k * m + (m - j)) x.
      Proof.
        rewrite hdif_hi by auto. unfold dif_bfly. rewrite gen_bfly, gtw_hi, gch_lo, gch_hi, cexp_W, W_neg.
        unfold Cplx.conj, cmul. cbn [fst snd]. unfold ga, gb. ring.
      Qed.
    End Dif.
  End J.
End Gen.
