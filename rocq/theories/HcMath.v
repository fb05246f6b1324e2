(** * The mathematics of the halfcomplex Cooley-Tukey step (proof library) *)
From Coq Require Import Reals ZArith List Lia Lra Bool.
From Verif Require Import NumTheory Cplx Spec SpecR2R RSum RMath.
Import ListNotations.
Open Scope Z_scope.

(** the Hermitian sequence that a halfcomplex array stands for *)
Definition herm (n : Z) (h : Z -> R) (t : Z) : C :=
  let j := t mod n in
  if j =? 0 then (h 0, 0%R) else if 2 * j <? n then (h j, h (n - j))
  else if 2 * j =? n then (h j, 0%R) else (h (n - j), (- h j)%R).
(** the halfcomplex array of a Hermitian sequence *)
Definition hpack (n : Z) (Y : Z -> C) (p : Z) : R := if 2 * p <=? n then fst (Y p) else snd (Y (n - p)).

(** the twiddle step of the decimation in time (R2HC): rows of m, from the halfcomplex
    transforms of the rows to the halfcomplex transform of the whole *)
Definition hdit_Z (r m : Z) (x : Z -> R) (t : Z) : C :=
  Csum r (fun k => cmul (herm m (fun i => x (k * m + i)) t) (W (r * m) (t * k))).
Definition hdit (r m : Z) (p : Z) (x : Z -> R) : R := hpack (r * m) (hdit_Z r m x) p.
(** the twiddle step of the decimation in frequency (HC2R): to r halfcomplex rows of m *)
Definition hdif_Z (r m k : Z) (x : Z -> R) (j : Z) : C :=
  (Csum r (fun q => herm (r * m) x (j + q * m)%Z * W r (- (q * k))%Z) * W (r * m) (- (j * k))%Z)%C.
Definition hdif (r m : Z) (p : Z) (x : Z -> R) : R := hpack m (hdif_Z r m (p / m) x) (p mod m).

Lemma conj_sum n f : Cplx.conj (Csum n f) = Csum n (fun i => Cplx.conj (f i)).
Proof.
  destruct (Z_le_gt_dec n 0) as [H|H]; [rewrite !Csum_neg by auto; apply C_eq; cbn; ring|].
  assert (H' : 0 <= n) by lia. revert H'. clear H. revert n. apply Csum_ind.
  - rewrite !Csum_0. apply C_eq; cbn; ring.
  - intros n Hn IH. rewrite !Csum_succ by auto. now rewrite conj_add, IH.
Qed.
Lemma conj_real a : snd a = 0%R -> Cplx.conj a = a.
Proof. intros H. apply C_eq; cbn; auto. rewrite H. ring. Qed.

Section Herm.
  Variables (n : Z) (h : Z -> R).
  Hypothesis Hn : 0 < n.
  Lemma herm_period t q : herm n h (t + n * q) = herm n h t.
  Proof. unfold herm. rewrite (Z.mul_comm n q), Z.mod_add by lia. reflexivity. Qed.
  Lemma herm_mod t : herm n h (t mod n) = herm n h t.
  Proof. unfold herm. now rewrite Z.mod_mod by lia. Qed.
  Lemma herm_0 : herm n h 0 = (h 0, 0%R).
  Proof. unfold herm. rewrite Z.mod_0_l by lia. reflexivity. Qed.
  Lemma herm_lo j : 0 < j -> 2 * j < n -> herm n h j = (h j, h (n - j)).
  Proof.
    intros H1 H2. unfold herm. rewrite Z.mod_small by lia.
    destruct (Z.eqb_spec j 0); [lia|]. destruct (Z.ltb_spec (2 * j) n); [|lia]. reflexivity.
  Qed.
  Lemma herm_mid j : 0 < j -> 2 * j = n -> herm n h j = (h j, 0%R).
  Proof.
    intros H1 H2. unfold herm. rewrite Z.mod_small by lia.
    destruct (Z.eqb_spec j 0); [lia|]. destruct (Z.ltb_spec (2 * j) n); [lia|]. destruct (Z.eqb_spec (2 * j) n); [|lia]. reflexivity.
  Qed.
  Lemma herm_hi j : n < 2 * j -> j < n -> herm n h j = (h (n - j), (- h j)%R).
  Proof.
    intros H1 H2. unfold herm. rewrite Z.mod_small by lia.
    destruct (Z.eqb_spec j 0); [lia|]. destruct (Z.ltb_spec (2 * j) n); [lia|]. destruct (Z.eqb_spec (2 * j) n); [lia|]. reflexivity.
  Qed.
  Lemma herm_conj t : herm n h (- t) = Cplx.conj (herm n h t).
  Proof.
    rewrite <- (herm_mod t), <- (herm_mod (- t)).
    pose proof (Z.mod_pos_bound t n Hn) as B. set (j := t mod n) in *.
    assert (E : (- t) mod n = if j =? 0 then 0 else n - j).
    { unfold j in *. destruct (Z.eqb_spec (t mod n) 0) as [E|E].
      - apply Z_mod_zero_opp_full; auto.
      - apply Z_mod_nz_opp_full; auto. }
    rewrite E. destruct (Z.eqb_spec j 0) as [->|Ne].
    - rewrite herm_0. unfold Cplx.conj. cbn [fst snd]. f_equal. ring.
    - destruct (Ztrichotomy (2 * j) n) as [L|[L|L]].
      + rewrite (herm_lo j), (herm_hi (n - j)) by lia. unfold Cplx.conj. cbn [fst snd]. f_equal. f_equal. lia.
      + replace (n - j) with j by lia. rewrite herm_mid by lia. unfold Cplx.conj. cbn [fst snd]. f_equal. ring.
      + rewrite (herm_hi j), (herm_lo (n - j)) by lia. unfold Cplx.conj. cbn [fst snd]. replace (n - (n - j)) with j by lia. f_equal. ring.
  Qed.
End Herm.

Lemma herm_ext n h h' t : 0 < n -> (forall i, 0 <= i < n -> h i = h' i) -> herm n h t = herm n h' t.
Proof.
  intros Hn E. unfold herm. pose proof (Z.mod_pos_bound t n Hn) as B. set (j := t mod n) in *.
  destruct (Z.eqb_spec j 0); [now rewrite E by lia|]. destruct (Z.ltb_spec (2 * j) n); [now rewrite !E by lia|].
  destruct (Z.eqb_spec (2 * j) n); now rewrite !E by lia.
Qed.

(** packing and unpacking *)
Lemma herm_pack n Y t : 0 < n -> (forall s q, Y (s + n * q) = Y s) -> (forall s, Y (- s) = Cplx.conj (Y s)) ->
  herm n (hpack n Y) t = Y t.
Proof.
  intros Hn HP HC. rewrite <- herm_mod by auto.
  assert (EY : Y t = Y (t mod n)).
  { rewrite (Z.div_mod t n) at 1 by lia. rewrite Z.add_comm. apply HP. }
  rewrite EY. clear EY. pose proof (Z.mod_pos_bound t n Hn) as B. set (j := t mod n) in *.
  assert (R : forall s, Y (n - s) = Cplx.conj (Y s)).
  { intros s. rewrite <- HC. replace (n - s) with (- s + n * 1) by ring. apply HP. }
  unfold hpack. destruct (Z.eq_dec j 0) as [->|Ne].
  - rewrite herm_0 by auto. destruct (Z.leb_spec (2 * 0) n); [|lia].
    pose proof (HC 0) as E. change (- 0) with 0 in E. apply C_eq; cbn [fst snd]; auto.
    apply (f_equal snd) in E. cbn in E. lra.
  - destruct (Ztrichotomy (2 * j) n) as [L|[L|L]].
    + rewrite herm_lo by lia. destruct (Z.leb_spec (2 * j) n); [|lia]. destruct (Z.leb_spec (2 * (n - j)) n); [lia|].
      replace (n - (n - j)) with j by lia. now destruct (Y j).
    + rewrite herm_mid by lia. destruct (Z.leb_spec (2 * j) n); [|lia].
      pose proof (R j) as E. replace (n - j) with j in E by lia. apply C_eq; cbn [fst snd]; auto.
      apply (f_equal snd) in E. cbn in E. lra.
    + rewrite herm_hi by lia. destruct (Z.leb_spec (2 * (n - j)) n); [|lia]. destruct (Z.leb_spec (2 * j) n); [lia|].
      rewrite R. apply C_eq; cbn [fst snd Cplx.conj]; auto. cbn. ring.
Qed.

(** R2HC and HC2R as packed / unpacked complex sums *)
Lemma r2hc_pack n x k : 0 < n -> 0 <= k < n ->
  Rsum n (fun j => x j * rk R2HC n j k)%R = hpack n (fun t => Csum n (fun j => RtoC (x j) * W n (t * j)))%C k.
Proof.
  intros Hn Hk. unfold hpack. destruct (Z.leb_spec (2 * k) n) as [L|L].
  - rewrite Csum_fst. apply Rsum_ext. intros j Hj. rewrite rk_r2hc_re by auto. rewrite W_cs.
    unfold RtoC, cmul. cbn [fst snd]. rewrite (Z.mul_comm k j). ring.
  - rewrite Csum_snd. apply Rsum_ext. intros j Hj. rewrite rk_r2hc_im by auto. rewrite W_cs.
    unfold RtoC, cmul. cbn [fst snd]. rewrite (Z.mul_comm (n - k) j). ring.
Qed.
Lemma hc2r_unpack n x k : 0 < n ->
  Rsum n (fun j => x j * rk HC2R n j k)%R = fst (Csum n (fun t => herm n x t * W n (- (t * k))%Z))%C.
Proof.
  intros Hn. rewrite Csum_fst. apply Rsum_pair_eq; auto.
  - rewrite herm_0, rk_hc2r_0 by auto. rewrite Z.mul_0_l. change (- 0) with 0. rewrite W_0. unfold C1, cmul. cbn [fst snd]. ring.
  - intros i H1 H2. rewrite rk_hc2r_re by auto. rewrite rk_hc2r_im by lia.
    rewrite herm_lo, herm_hi by lia. rewrite !W_neg. replace (n - (n - i)) with i by lia. rewrite !W_cs.
    unfold Cplx.conj, cmul. cbn [fst snd]. rewrite cs_ref', sn_ref' by auto. ring.
  - intros i H1 H2. rewrite rk_hc2r_mid by auto. rewrite herm_mid by lia. rewrite W_neg, W_cs.
    unfold Cplx.conj, cmul. cbn [fst snd]. ring.
Qed.

(** half-integer kinds *)
Lemma rk_r2hcii_re n j k : 0 < n -> 2 * k <= n - 1 -> rk R2HCII n j k = cs (2 * n) ((2 * k + 1) * j).
Proof.
  intros Hn H. cbn [rk]. destruct (Z.leb_spec (2 * k) (n - 1)); [|lia]. apply cs_eq.
  assert (IZR n <> 0%R) by (apply not_0_IZR; lia). rewrite !mult_IZR, plus_IZR, mult_IZR. field. auto.
Qed.
Lemma rk_r2hcii_im n j k : 0 < n -> n - 1 < 2 * k -> rk R2HCII n j k = (- sn (2 * n) ((2 * (n - 1 - k) + 1) * j))%R.
Proof.
  intros Hn H. cbn [rk]. destruct (Z.leb_spec (2 * k) (n - 1)); [lia|]. f_equal. apply sn_eq.
  assert (IZR n <> 0%R) by (apply not_0_IZR; lia). rewrite !mult_IZR, plus_IZR, mult_IZR. field. auto.
Qed.
Lemma rk_hc2riii_re n j k : 0 < n -> 2 * j < n - 1 -> rk HC2RIII n j k = (2 * cs (2 * n) ((2 * j + 1) * k))%R.
Proof.
  intros Hn H. cbn [rk]. destruct (Z.ltb_spec (2 * j) (n - 1)); [|lia]. f_equal. apply cs_eq.
  assert (IZR n <> 0%R) by (apply not_0_IZR; lia). rewrite !mult_IZR, plus_IZR, mult_IZR. field. auto.
Qed.
Lemma rk_hc2riii_mid n j k : 0 < n -> 2 * j = n - 1 -> rk HC2RIII n j k = cs (2 * n) ((2 * j + 1) * k).
Proof.
  intros Hn H. cbn [rk]. destruct (Z.ltb_spec (2 * j) (n - 1)); [lia|]. destruct (Z.eqb_spec (2 * j) (n - 1)); [|lia]. apply cs_eq.
  assert (IZR n <> 0%R) by (apply not_0_IZR; lia). replace (2 * j + 1) with n by lia. rewrite !mult_IZR. field. auto.
Qed.
Lemma rk_hc2riii_im n j k : 0 < n -> n - 1 < 2 * j -> rk HC2RIII n j k = (- 2 * sn (2 * n) ((2 * (n - 1 - j) + 1) * k))%R.
Proof.
  intros Hn H. cbn [rk]. destruct (Z.ltb_spec (2 * j) (n - 1)); [lia|]. destruct (Z.eqb_spec (2 * j) (n - 1)); [lia|]. f_equal. apply sn_eq.
  assert (IZR n <> 0%R) by (apply not_0_IZR; lia). rewrite !mult_IZR, plus_IZR, mult_IZR. field. auto.
Qed.
Lemma Rsum_rev_eq n f g : (forall i, 0 <= i < n -> (f i + f (n - 1 - i)%Z = g i + g (n - 1 - i)%Z)%R) -> Rsum n f = Rsum n g.
Proof.
  intros H. assert (E : forall h, Rsum n h = (/ 2 * Rsum n (fun i => h i + h (n - 1 - i)%Z))%R).
  { intros h. rewrite Rsum_add, Rsum_rev. lra. }
  rewrite (E f), (E g). f_equal. now apply Rsum_ext.
Qed.

(** ** The decimation in time *)
Section Dit.
  Variables (r m : Z).
  Hypothesis (Hr : 0 < r) (Hm : 0 < m).
  Let n := r * m.
  Let Hn : 0 < n. Proof. unfold n. nia. Qed.

  Lemma hdit_Z_period x t q : hdit_Z r m x (t + n * q) = hdit_Z r m x t.
  Proof.
    apply Csum_ext. intros k Hk. f_equal.
    - unfold n. replace (t + r * m * q) with (t + m * (r * q)) by ring. now apply herm_period.
    - rewrite Z.mul_add_distr_r. fold n. rewrite <- Z.mul_assoc. apply W_period. lia.
  Qed.
  Lemma hdit_Z_conj x t : hdit_Z r m x (- t) = Cplx.conj (hdit_Z r m x t).
  Proof.
    unfold hdit_Z. rewrite conj_sum. apply Csum_ext. intros k Hk. rewrite conj_mul. f_equal.
    - now apply herm_conj.
    - rewrite Z.mul_opp_l. apply W_neg.
  Qed.
  Lemma hdit_Z_ref x t : hdit_Z r m x (n - t) = Cplx.conj (hdit_Z r m x t).
  Proof. rewrite <- hdit_Z_conj. replace (n - t) with (- t + n * 1) by ring. apply hdit_Z_period. Qed.

  (** the whole transform *)
  Lemma hdit_r2hc (x : Z -> R) (y : Z -> R) p : 0 <= p < n ->
    (forall k i, 0 <= k < r -> 0 <= i < m -> y (k * m + i) = Rsum m (fun l => x (k + l * r)%Z * rk R2HC m l i)%R) ->
    hdit r m p y = Rsum n (fun j => x j * rk R2HC n j p)%R.
  Proof.
    intros Hp Hy. rewrite r2hc_pack by auto.
    assert (E : forall t, hdit_Z r m y t = Csum n (fun j => RtoC (x j) * W n (t * j))%C).
    { intros t. unfold hdit_Z.
      transitivity (Csum r (fun k => Csum m (fun l => RtoC (x (k + l * r)%Z) * W m (t * l)) * W (r * m) (t * k)))%C.
      { apply Csum_ext. intros k Hk. f_equal.
        rewrite (herm_ext m _ (hpack m (fun t => Csum m (fun l => RtoC (x (k + l * r)%Z) * W m (t * l))%C)) t Hm).
        - apply herm_pack with (Y := fun t => Csum m (fun l => RtoC (x (k + l * r)%Z) * W m (t * l))%C); auto.
          + intros s q. apply Csum_ext. intros l _. f_equal. rewrite Z.mul_add_distr_r, <- Z.mul_assoc. apply W_period. lia.
          + intros s. rewrite conj_sum. apply Csum_ext. intros l _. rewrite conj_mul. f_equal.
            * unfold RtoC, Cplx.conj. cbn. f_equal. ring.
            * rewrite Z.mul_opp_l. apply W_neg.
        - intros i Hi. rewrite Hy by auto. now apply (r2hc_pack m (fun l => x (k + l * r))). }
      rewrite Csum_ext with (g := fun k => Csum m (fun l => (RtoC (x (k + l * r)%Z) * W n (t * (k + l * r))%Z)%C)).
      2:{ intros k Hk. rewrite <- Csum_mul_r. apply Csum_ext. intros l Hl.
          replace (t * (k + l * r)) with (r * (t * l) + t * k) by ring. rewrite W_add. unfold n. rewrite W_scale_l by lia. ring. }
      rewrite Csum_swap. unfold n. rewrite (Z.mul_comm r m).
      rewrite (Csum_split m r) by lia. apply Csum_ext. intros l Hl. apply Csum_ext. intros k Hk.
      replace (k + l * r) with (l * r + k) by ring. reflexivity. }
    unfold hdit, hpack. fold n. rewrite !E. reflexivity.
  Qed.

  (** the 0th butterfly *)
  Lemma hdit_zero x k : 0 <= k < r -> hdit r m (k * m) x = Rsum r (fun j => x (j * m)%Z * rk R2HC r j k)%R.
  Proof.
    intros Hk. rewrite (r2hc_pack r (fun j => x (j * m))) by auto.
    assert (E : forall t, hdit_Z r m x (t * m) = Csum r (fun j => RtoC (x (j * m)%Z) * W r (t * j))%C).
    { intros t. apply Csum_ext. intros j Hj. f_equal.
      - replace (t * m) with (0 + m * t) by ring. rewrite herm_period, herm_0 by auto. now rewrite Z.add_0_r.
      - replace (t * m * j) with (m * (t * j)) by ring. apply W_scale; lia. }
    unfold hdit, hpack. fold n. destruct (Z.leb_spec (2 * k) r); destruct (Z.leb_spec (2 * (k * m)) n); try (unfold n in *; nia).
    - now rewrite E.
    - replace (n - k * m) with ((r - k) * m) by (unfold n; ring). now rewrite E.
  Qed.
  (** the middle butterfly *)
  Lemma hdit_middle u x k : 2 * u = m -> 0 <= k < r ->
    hdit r m (u + k * m) x = Rsum r (fun j => x (u + j * m)%Z * rk R2HCII r j k)%R.
  Proof.
    intros Hu Hk.
    assert (E : forall t, hdit_Z r m x (u + t * m) = Csum r (fun j => RtoC (x (u + j * m)%Z) * W (2 * r) ((2 * t + 1) * j)%Z)%C).
    { intros t. apply Csum_ext. intros j Hj. f_equal.
      - replace (u + t * m) with (u + m * t) by ring. rewrite herm_period, herm_mid by lia. now rewrite Z.add_comm.
      - replace ((u + t * m) * j) with (u * ((2 * t + 1) * j)) by (rewrite <- Hu; ring).
        replace (r * m) with (2 * r * u) by (rewrite <- Hu; ring). apply W_scale; lia. }
    unfold hdit, hpack. fold n. destruct (Z.leb_spec (2 * (u + k * m)) n) as [L|L].
    - assert (2 * k <= r - 1) by (unfold n in *; nia). rewrite E, Csum_fst. apply Rsum_ext. intros j Hj.
      rewrite rk_r2hcii_re by auto. rewrite W_cs. unfold RtoC, cmul. cbn [fst snd]. ring.
    - assert (r - 1 < 2 * k) by (unfold n in *; nia). replace (n - (u + k * m)) with (u + (r - 1 - k) * m) by (unfold n; lia).
      rewrite E, Csum_snd. apply Rsum_ext. intros j Hj.
      rewrite rk_r2hcii_im by auto. rewrite W_cs. unfold RtoC, cmul. cbn [fst snd]. ring.
  Qed.
  (** the others *)
  Definition dit_bfly (j : Z) (x : Z -> R) (k : Z) : C :=
    Csum r (fun i => cmul (cmul (x (i * m + j), x (i * m + (m - j))) (W (r * m) (j * i))) (W r (i * k))).
  Lemma hdit_Z_gen j x k : 0 < j -> 2 * j < m -> hdit_Z r m x (k * m + j) = dit_bfly j x k.
  Proof.
    intros H1 H2. apply Csum_ext. intros i Hi.
    replace (k * m + j) with (j + m * k) by ring. rewrite herm_period, herm_lo by lia.
    replace ((j + m * k) * i) with (j * i + m * (i * k)) by ring. rewrite W_add, W_scale by lia. ring.
  Qed.
  Lemma hdit_lo j x k : 0 < j -> 2 * j < m -> 0 <= k < r ->
    hdit r m (k * m + j) x = if 2 * k <? r then fst (dit_bfly j x k) else (- snd (dit_bfly j x k))%R.
  Proof.
    intros H1 H2 Hk. unfold hdit, hpack. fold n. rewrite <- (hdit_Z_gen j x k) by auto.
    destruct (Z.ltb_spec (2 * k) r); destruct (Z.leb_spec (2 * (k * m + j)) n); try (unfold n in *; nia); auto.
    rewrite hdit_Z_ref. reflexivity.
  Qed.
  Lemma hdit_hi j x k : 0 < j -> 2 * j < m -> 0 <= k < r ->
    hdit r m (k * m + (m - j)) x =
    let q := r - 1 - k in if 2 * q <? r then snd (dit_bfly j x q) else fst (dit_bfly j x q).
  Proof.
    intros H1 H2 Hk. cbn zeta. set (q := r - 1 - k). unfold hdit, hpack. fold n. rewrite <- (hdit_Z_gen j x q) by auto.
    assert (E : k * m + (m - j) = n - (q * m + j)) by (unfold n, q; ring). rewrite E.
    destruct (Z.ltb_spec (2 * q) r); destruct (Z.leb_spec (2 * (n - (q * m + j))) n); try (unfold n, q in *; nia).
    - f_equal. f_equal. lia.
    - rewrite hdit_Z_ref. reflexivity.
  Qed.
End Dit.

(** ** The decimation in frequency *)
Section Dif.
  Variables (r m : Z).
  Hypothesis (Hr : 0 < r) (Hm : 0 < m).
  Let n := r * m.
  Let Hn : 0 < n. Proof. unfold n. nia. Qed.

  Lemma Wn_r a : W n (m * a) = W r a. Proof. apply W_scale; lia. Qed.
  Lemma Wn_m a : W n (r * a) = W m a. Proof. apply W_scale_l; lia. Qed.
  Lemma hdif_Z_step k x j : hdif_Z r m k x (j + m) = hdif_Z r m k x j.
  Proof.
    unfold hdif_Z. fold n.
    set (f := fun q => cmul (cmul (herm n x (j + q * m)) (W r (- (q * k)))) (W n (- (j * k)))).
    transitivity (Csum r (fun q => f (if q + 1 =? r then 0 else q + 1))).
    { rewrite <- Csum_mul_r. apply Csum_ext. intros q Hq. unfold f. destruct (Z.eqb_spec (q + 1) r) as [E|E].
      - replace (j + m + q * m) with (j + 0 * m + n * 1) by (unfold n; nia). rewrite herm_period by auto.
        replace (- ((j + m) * k)) with (- (j * k) + m * (- k)) by ring. rewrite W_add, Wn_r.
        replace (W r (- (0 * k))) with (W r (- (q * k)) * W r (- k))%C; [ring|].
        rewrite <- W_add. apply W_congr; [lia|]. exists (- k). nia.
      - replace (j + m + q * m) with (j + (q + 1) * m) by ring.
        replace (- ((j + m) * k)) with (- (j * k) + m * (- k)) by ring. rewrite W_add, Wn_r.
        replace (- ((q + 1) * k)) with (- (q * k) + - k) by ring. rewrite W_add. ring. }
    rewrite <- Csum_mul_r. apply (Csum_reindex r (fun q => if q + 1 =? r then 0 else q + 1) f).
    - intros i Hi. destruct (Z.eqb_spec (i + 1) r); lia.
    - intros a b Ha Hb E. destruct (Z.eqb_spec (a + 1) r); destruct (Z.eqb_spec (b + 1) r); lia.
  Qed.
  Lemma hdif_Z_period k x j q : hdif_Z r m k x (j + m * q) = hdif_Z r m k x j.
  Proof.
    assert (P : forall q j, 0 <= q -> hdif_Z r m k x (j + m * q) = hdif_Z r m k x j).
    { clear j q. intros q j Hq. pattern q. apply natlike_ind; auto.
      - now rewrite Z.mul_0_r, Z.add_0_r.
      - intros i Hi IH. replace (j + m * Z.succ i) with (j + m * i + m) by lia. now rewrite hdif_Z_step. }
    destruct (Z_le_gt_dec 0 q) as [H|H]; [auto|].
    rewrite <- (P (- q) (j + m * q)) by lia. f_equal. ring.
  Qed.
  Lemma hdif_Z_conj k x j : hdif_Z r m k x (- j) = Cplx.conj (hdif_Z r m k x j).
  Proof.
    unfold hdif_Z. fold n. rewrite conj_mul. f_equal.
    2:{ rewrite <- W_neg. f_equal. ring. }
    rewrite conj_sum.
    set (f := fun q => cmul (herm n x (- j + q * m)) (W r (- (q * k)))).
    transitivity (Csum r (fun q => f (if q =? 0 then 0 else r - q))).
    { symmetry. apply (Csum_reindex r (fun q => if q =? 0 then 0 else r - q) f).
      - intros i Hi. destruct (Z.eqb_spec i 0); lia.
      - intros a b Ha Hb E. destruct (Z.eqb_spec a 0); destruct (Z.eqb_spec b 0); lia. }
    apply Csum_ext. intros q Hq. unfold f. rewrite conj_mul, <- herm_conj, <- W_neg by auto.
    destruct (Z.eqb_spec q 0) as [->|E].
    - f_equal; f_equal; ring.
    - f_equal.
      + replace (- j + (r - q) * m) with (- (j + q * m) + n * 1) by (unfold n; ring). now rewrite herm_period.
      + apply W_congr; [lia|]. exists (- k). ring.
  Qed.
  (** the rows stand for [hdif_Z] *)
  Lemma hdif_row k x (y : Z -> R) t : 0 <= k < r -> (forall i, 0 <= i < m -> y (k * m + i) = hdif r m (k * m + i) x) ->
    herm m (fun i => y (k * m + i)) t = hdif_Z r m k x t.
  Proof.
    intros Hk Hy. rewrite (herm_ext m _ (hpack m (hdif_Z r m k x)) t Hm).
    - apply herm_pack; auto; [intros; apply hdif_Z_period|intros; apply hdif_Z_conj].
    - intros i Hi. rewrite Hy by auto. unfold hdif.
      replace ((k * m + i) / m) with k by (apply Z.div_unique with i; lia).
      replace ((k * m + i) mod m) with i by (apply Z.mod_unique with k; lia). reflexivity.
  Qed.
  (** the whole transform *)
  Lemma hdif_hc2r x (y : Z -> R) k l : 0 <= k < r -> 0 <= l < m ->
    (forall p, 0 <= p < n -> y p = hdif r m p x) ->
    Rsum m (fun i => y (k * m + i)%Z * rk HC2R m i l)%R = Rsum n (fun j => x j * rk HC2R n j (k + l * r))%R.
  Proof.
    intros Hk Hl Hy. rewrite (hc2r_unpack m (fun i => y (k * m + i))), hc2r_unpack by auto. f_equal.
    rewrite Csum_ext with (g := fun t => Csum r (fun q => (herm n x (q * m + t) * W n (- ((q * m + t) * (k + l * r)))%Z)%C)).
    2:{ intros t Ht. rewrite (hdif_row k x y t) by (auto; intros; apply Hy; unfold n; nia).
        unfold hdif_Z. fold n. rewrite <- !Csum_mul_r. apply Csum_ext. intros q Hq.
        replace (q * m + t) with (t + q * m) by ring.
        replace (- ((t + q * m) * (k + l * r))) with (- (t * k) + (r * (- (t * l)) + (m * (- (q * k)) + n * (- (q * l))))) by (unfold n; ring).
        rewrite !W_add, Wn_r, Wn_m.
        rewrite W_mult by lia. ring. }
    rewrite Csum_swap. unfold n. now rewrite Csum_split by lia.
  Qed.
  Lemma pm_div k i : 0 <= i < m -> (k * m + i) / m = k.
  Proof. intros. symmetry. apply Z.div_unique with i; lia. Qed.
  Lemma pm_mod k i : 0 <= i < m -> (k * m + i) mod m = i.
  Proof. intros. symmetry. apply Z.mod_unique with k; lia. Qed.

  Lemma hdif_zero x k : 0 <= k < r -> hdif r m (k * m) x = Rsum r (fun j => x (j * m)%Z * rk HC2R r j k)%R.
  Proof.
    intros Hk. rewrite (hc2r_unpack r (fun j => x (j * m))) by auto. unfold hdif, hpack.
    rewrite <- (Z.add_0_r (k * m)), pm_div, pm_mod by lia. destruct (Z.leb_spec (2 * 0) m); [|lia].
    f_equal. unfold hdif_Z. rewrite Z.mul_0_l, Z.opp_0, W_0. fold n.
    transitivity (Csum r (fun q => (herm n x (0 + q * m) * W r (- (q * k))%Z)%C)); [ring|].
    apply Csum_ext. intros q Hq. f_equal. rewrite Z.add_0_l.
    destruct (Z.eq_dec q 0) as [->|Nq]; [rewrite Z.mul_0_l, !herm_0 by auto; reflexivity|].
    destruct (Ztrichotomy (2 * q) r) as [L|[L|L]].
    - rewrite !herm_lo by (unfold n; nia). f_equal. f_equal. unfold n. ring.
    - rewrite !herm_mid by (unfold n; nia). reflexivity.
    - rewrite !herm_hi by (unfold n; nia). f_equal. f_equal. unfold n. ring.
  Qed.
  (** the inputs of a butterfly *)
  Definition dif_in (j : Z) (x : Z -> R) (q : Z) : C :=
    if 2 * q <? r then (x (q * m + j), x ((r - 1 - q) * m + (m - j)))
    else (x ((r - 1 - q) * m + (m - j)), (- x (q * m + j)%Z)%R).
  Definition dif_bfly (j : Z) (x : Z -> R) (k : Z) : C :=
    cmul (Csum r (fun q => cmul (dif_in j x q) (W r (- (q * k))))) (W (r * m) (- (j * k))).
  Lemma dif_in_herm j x q : 0 < j -> 2 * j < m -> 0 <= q < r -> herm n x (j + q * m) = dif_in j x q.
  Proof.
    intros H1 H2 Hq. unfold dif_in. destruct (Z.ltb_spec (2 * q) r).
    - rewrite herm_lo by (unfold n; nia). f_equal; f_equal; unfold n; ring.
    - rewrite herm_hi by (unfold n; nia). f_equal; [f_equal; unfold n; ring|]. f_equal. f_equal. ring.
  Qed.
  Lemma hdif_Z_gen j x k : 0 < j -> 2 * j < m -> hdif_Z r m k x j = dif_bfly j x k.
  Proof.
    intros H1 H2. unfold hdif_Z, dif_bfly. f_equal. apply Csum_ext. intros q Hq. f_equal. now apply dif_in_herm.
  Qed.
  Lemma hdif_lo j x k : 0 < j -> 2 * j < m -> hdif r m (k * m + j) x = fst (dif_bfly j x k).
  Proof.
    intros H1 H2. unfold hdif, hpack. rewrite pm_div, pm_mod by lia. destruct (Z.leb_spec (2 * j) m); [|lia].
    now rewrite hdif_Z_gen.
  Qed.
  Lemma hdif_hi j x k : 0 < j -> 2 * j < m -> hdif r m (k * m + (m - j)) x = snd (dif_bfly j x k).
  Proof.
    intros H1 H2. unfold hdif, hpack. rewrite pm_div, pm_mod by lia. destruct (Z.leb_spec (2 * (m - j)) m); [lia|].
    replace (m - (m - j)) with j by lia. now rewrite hdif_Z_gen.
  Qed.
  Lemma hdif_middle u x k : 2 * u = m -> 0 <= k < r ->
    hdif r m (u + k * m) x = Rsum r (fun j => x (u + j * m)%Z * rk HC2RIII r j k)%R.
  Proof.
    intros Hu Hk. unfold hdif, hpack. rewrite (Z.add_comm u), pm_div, pm_mod by lia.
    destruct (Z.leb_spec (2 * u) m); [|lia].
    unfold hdif_Z. fold n. rewrite <- Csum_mul_r, Csum_fst. apply Rsum_rev_eq.
    assert (E : forall q, 0 <= q < r -> (herm n x (u + q * m) * W r (- (q * k))%Z * W n (- (u * k))%Z)%C =
      (herm n x (u + q * m) * W (2 * r) (- ((2 * q + 1) * k))%Z)%C).
    { intros q Hq. replace (- ((2 * q + 1) * k)) with (2 * (- (q * k)) + - k) by ring. rewrite W_add, W_scale_l by lia.
      replace (W n (- (u * k))) with (W (2 * r) (- k)); [ring|].
      unfold n. replace (r * m) with (2 * r * u) by lia. replace (- (u * k)) with (u * (- k)) by ring. now rewrite W_scale by lia. }
    assert (F : forall q, 0 <= q < r -> herm n x (u + q * m) =
      if 2 * q <? r - 1 then (x (u + q * m), x (u + (r - 1 - q) * m)) else if 2 * q =? r - 1 then (x (u + q * m), 0%R)
      else (x (u + (r - 1 - q) * m), (- x (u + q * m)%Z)%R)).
    { intros q Hq. destruct (Z.ltb_spec (2 * q) (r - 1)); [|destruct (Z.eqb_spec (2 * q) (r - 1))].
      - rewrite herm_lo by (unfold n; nia). f_equal. f_equal. unfold n. lia.
      - rewrite herm_mid by (unfold n; nia). reflexivity.
      - rewrite herm_hi by (unfold n; nia). f_equal. f_equal. unfold n. lia. }
    assert (G : forall i, 0 <= i < r -> 2 * i < r - 1 ->
      (fst (herm n x (u + i * m) * W r (- (i * k))%Z * W n (- (u * k))%Z)%C +
       fst (herm n x (u + (r - 1 - i) * m) * W r (- ((r - 1 - i) * k))%Z * W n (- (u * k))%Z)%C)%R =
      (x (u + i * m)%Z * rk HC2RIII r i k + x (u + (r - 1 - i) * m)%Z * rk HC2RIII r (r - 1 - i) k)%R).
    { intros i Hi L. rewrite !E, !F by lia.
      destruct (Z.ltb_spec (2 * i) (r - 1)); [|lia]. destruct (Z.ltb_spec (2 * (r - 1 - i)) (r - 1)); [lia|].
      destruct (Z.eqb_spec (2 * (r - 1 - i)) (r - 1)); [lia|].
      rewrite rk_hc2riii_re, rk_hc2riii_im by lia. replace (r - 1 - (r - 1 - i)) with i by lia.
      rewrite !W_neg, !W_cs. unfold Cplx.conj, cmul. cbn [fst snd].
      replace ((2 * (r - 1 - i) + 1) * k) with (- ((2 * i + 1) * k) + 2 * r * k) by ring.
      rewrite cs_period, sn_period, cs_neg, sn_neg by lia. ring. }
    intros i Hi. destruct (Ztrichotomy (2 * i) (r - 1)) as [L|[L|L]].
    - now apply G.
    - replace (r - 1 - i) with i by lia. rewrite !E, !F by lia.
      destruct (Z.ltb_spec (2 * i) (r - 1)); [lia|]. destruct (Z.eqb_spec (2 * i) (r - 1)); [|lia].
      rewrite rk_hc2riii_mid by lia. rewrite W_neg, W_cs. unfold Cplx.conj, cmul. cbn [fst snd]. ring.
    - pose proof (G (r - 1 - i) ltac:(lia) ltac:(lia)) as G'. replace (r - 1 - (r - 1 - i)) with i in G' by lia. lra.
  Qed.
End Dif.
