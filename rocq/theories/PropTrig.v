(** * C33: trigonometric tables *)
From Coq Require Import Reals ZArith List Bool Lia Lra.
From Verif Require Import Cplx Base NumTheory Offs TrigModel.
Import ListNotations.
Open Scope Z_scope.

(** exp(2 pi i m / n) *)
Definition root (n m : Z) : C := cis (2 * PI * (IZR m / IZR n))%R.

Lemma gtb_spec a b : (a >? b) = true <-> b < a.
Proof. rewrite Z.gtb_ltb, Z.ltb_lt. tauto. Qed.

(** the reduced angle, and how the octant and the reduced m determine m *)
Lemma octant_ok M m n : 0 < n -> 4 * n <= M -> - n <= m <= n ->
  exists m' o4 o2 o1, octant M m n = Ret (m', 4 * n, (o4, o2, o1)) /\ 0 <= 2 * m' <= n /\
    exists a b, 4 * (m + (if m <? 0 then n else 0)) = (if (o4 : bool) then 4 * n - a else a) /\ a = (if (o2 : bool) then b + n else b) /\ b = (if (o1 : bool) then n - m' else m').
Proof.
  intros Hn HM Hm. unfold octant.
  rewrite (ck_ok M (n + n)) by lia. cbn [bind]. rewrite (ck_ok M (n + n + (n + n))) by lia. cbn [bind]. rewrite (ck_ok M (m + m)) by lia. cbn [bind].
  replace (n + n + (n + n)) with (4 * n) by lia. replace (m + m + (m + m)) with (4 * m) by lia. rewrite ck_ok by lia. cbn [bind].
  set (m1 := 4 * (m + (if m <? 0 then n else 0))).
  assert (E : (if 4 * m <? 0 then ck M (4 * m + 4 * n) else Ret (4 * m)) = Ret m1).
  { unfold m1. destruct (Z.ltb_spec (4 * m) 0), (Z.ltb_spec m 0); try lia; [rewrite ck_ok by lia|]; f_equal; lia. }
  rewrite E. cbn [bind]. clear E. assert (R1 : 0 <= m1 <= 4 * n) by (unfold m1; destruct (Z.ltb_spec m 0); lia). clearbody m1.
  rewrite ck_ok by lia. cbn [bind]. destruct (m1 >? 4 * n - m1) eqn:E4; [apply gtb_spec in E4|rewrite Z.gtb_ltb in E4; apply Z.ltb_ge in E4].
  - set (a := 4 * n - m1). rewrite ck_ok by lia. cbn [bind]. destruct (a - n >? 0) eqn:E2; [apply gtb_spec in E2|rewrite Z.gtb_ltb in E2; apply Z.ltb_ge in E2].
    + set (b := a - n). rewrite ck_ok by lia. cbn [bind]. destruct (b >? n - b) eqn:E1'; [apply gtb_spec in E1'|rewrite Z.gtb_ltb in E1'; apply Z.ltb_ge in E1'].
      * exists (n - b), true, true, true. split; [reflexivity|]. split; [lia|]. exists a, b. lia.
      * exists b, true, true, false. split; [reflexivity|]. split; [lia|]. exists a, b. lia.
    + rewrite ck_ok by lia. cbn [bind]. destruct (a >? n - a) eqn:E1'; [apply gtb_spec in E1'|rewrite Z.gtb_ltb in E1'; apply Z.ltb_ge in E1'].
      * exists (n - a), true, false, true. split; [reflexivity|]. split; [lia|]. exists a, a. lia.
      * exists a, true, false, false. split; [reflexivity|]. split; [lia|]. exists a, a. lia.
  - rewrite ck_ok by lia. cbn [bind]. destruct (m1 - n >? 0) eqn:E2; [apply gtb_spec in E2|rewrite Z.gtb_ltb in E2; apply Z.ltb_ge in E2].
    + set (b := m1 - n). rewrite ck_ok by lia. cbn [bind]. destruct (b >? n - b) eqn:E1'; [apply gtb_spec in E1'|rewrite Z.gtb_ltb in E1'; apply Z.ltb_ge in E1'].
      * exists (n - b), false, true, true. split; [reflexivity|]. split; [lia|]. exists m1, b. lia.
      * exists b, false, true, false. split; [reflexivity|]. split; [lia|]. exists m1, b. lia.
    + rewrite ck_ok by lia. cbn [bind]. destruct (m1 >? n - m1) eqn:E1'; [apply gtb_spec in E1'|rewrite Z.gtb_ltb in E1'; apply Z.ltb_ge in E1'].
      * exists (n - m1), false, false, true. split; [reflexivity|]. split; [lia|]. exists m1, m1. lia.
      * exists m1, false, false, false. split; [reflexivity|]. split; [lia|]. exists m1, m1. lia.
Qed.

Lemma root_period n m q : n <> 0 -> root n (m + n * q) = root n m.
Proof.
  intros H. unfold root. rewrite <- (cis_period (2 * PI * (IZR m / IZR n)) q). f_equal. rewrite plus_IZR, mult_IZR. field. now apply not_0_IZR.
Qed.
Lemma root_add n a b : root n (a + b) = (root n a * root n b)%C.
Proof. unfold root. rewrite <- cis_add. f_equal. rewrite plus_IZR. unfold Rdiv. ring. Qed.

(** C33 (octant reduction): real_cexp computes exp(2 pi i m / n) for all -n <= m <= n. *)
Theorem C33_real_cexp M m n : 0 < n -> 4 * n <= M -> - n <= m <= n -> real_cexp M m n = Ret (root n m).
Proof.
  intros Hn HM Hm. destruct (octant_ok M m n Hn HM Hm) as (m' & o4 & o2 & o1 & E & _ & a & b & Ea & Eb & Ec).
  unfold real_cexp. rewrite E. cbn [bind].
  assert (Nn : IZR n <> 0%R) by (apply not_0_IZR; lia).
  set (m1 := m + (if m <? 0 then n else 0)) in *.
  assert (Er : root n m = root n m1).
  { unfold m1. destruct (m <? 0); [|now rewrite Z.add_0_r]. rewrite <- (root_period n m 1) by lia. f_equal. lia. }
  rewrite Er. unfold root, cis.
  set (t x := (2 * PI * (IZR x / IZR (4 * n)))%R).
  assert (Et : (2 * PI * (IZR m1 / IZR n))%R = t (4 * m1)%Z). { unfold t. rewrite !mult_IZR. field. auto. }
  assert (Em : by2pi m' (4 * n) = t m') by (unfold by2pi, t, Rdiv; ring).
  assert (T4 : forall x, t (4 * n - x)%Z = (- t x + 2 * INR 1 * PI)%R). { intros x. unfold t. rewrite minus_IZR, !mult_IZR. cbn [INR]. field. auto. }
  assert (T2 : forall x, t (x + n)%Z = (PI / 2 + t x)%R). { intros x. unfold t. rewrite plus_IZR, !mult_IZR. field. auto. }
  assert (T1 : forall x, t (n - x)%Z = (PI / 2 - t x)%R). { intros x. unfold t. rewrite minus_IZR, !mult_IZR. field. auto. }
  assert (C4 : forall x, cos (t (4 * n - x)%Z) = cos (t x) /\ sin (t (4 * n - x)%Z) = (- sin (t x))%R).
  { intros x. rewrite T4, cos_period, sin_period, cos_neg, sin_neg. auto. }
  assert (C2 : forall x, cos (t (x + n)%Z) = (- sin (t x))%R /\ sin (t (x + n)%Z) = cos (t x)).
  { intros x. rewrite T2. split; [rewrite (sin_cos (t x)); ring|symmetry; apply cos_sin]. }
  assert (C1' : forall x, cos (t (n - x)%Z) = sin (t x) /\ sin (t (n - x)%Z) = cos (t x)).
  { intros x. rewrite T1. split; [apply cos_shift|apply sin_shift]. }
  rewrite Et, Ea, Em. clearbody t. clear Et Em T4 T2 T1 Er Ea.
  f_equal. subst a b.
  destruct o4; [rewrite (proj1 (C4 _)), (proj2 (C4 _))|]; (destruct o2; [rewrite (proj1 (C2 _)), (proj2 (C2 _))|]); (destruct o1; [rewrite (proj1 (C1' _)), (proj2 (C1' _))|]); reflexivity.
Qed.

(** C33 (accuracy): the sine and cosine are evaluated only for angles in [0, pi/4]. *)
Theorem C33_reduced_angle M m n r : 0 < n -> 4 * n <= M -> - n <= m <= n -> octant M m n = Ret r ->
  (0 <= by2pi (fst (fst r)) (snd (fst r)) <= PI / 4)%R.
Proof.
  intros Hn HM Hm H. destruct (octant_ok M m n Hn HM Hm) as (m' & o4 & o2 & o1 & E & B & _). rewrite E in H. assert (Er : r = (m', 4 * n, (o4, o2, o1))) by congruence. rewrite Er. cbn [fst snd].
  unfold by2pi. assert (Hn' : (0 < IZR n)%R) by (now apply IZR_lt). assert (H0 : (0 <= IZR m')%R) by (apply IZR_le; lia).
  assert (H1 : (2 * IZR m' <= IZR n)%R) by (replace 2%R with (IZR 2) by reflexivity; rewrite <- mult_IZR; apply IZR_le; lia). pose proof PI_RGT_0. rewrite (mult_IZR 4 n). split.
  - apply Rmult_le_pos; [nra|]. apply Rlt_le, Rinv_0_lt_compat. lra.
  - apply Rmult_le_reg_r with (4 * IZR n)%R; [lra|]. replace (2 * PI * IZR m' / (4 * IZR n) * (4 * IZR n))%R with (2 * PI * IZR m')%R by (field; lra).
    replace (PI / 4 * (4 * IZR n))%R with (PI * IZR n)%R by field. nra.
Qed.

(** ** The table *)
Lemma choose_twshft_ok n : 0 < n -> exists s, choose_twshft n = Ret s /\ 0 < s /\ 4 ^ (s - 1) <= n < 4 ^ s.
Proof.
  intros Hn. destruct (oloop_rule twshft_body (fun st => let '(l, x) := st in 0 <= l /\ 0 <= x /\ (x = 0 -> 0 < l /\ 4 ^ (l - 1) <= n < 4 ^ l) /\ (0 < x -> x = n / 4 ^ l /\ 4 ^ l <= n)) (fun st => snd st)
      (fun s => 0 < s /\ 4 ^ (s - 1) <= n < 4 ^ s) (bits n) (0, n)) as (s & E & Q).
  - intros [l x] (H1 & H2 & H3 & H4). unfold twshft_body. destruct (Z.gtb_spec x 0) as [Hx|Hx].
    + rewrite Z.quot_div_nonneg by lia. destruct (H4 Hx) as [Ex Hl]. assert (P : 0 < 4 ^ l) by (apply Z.pow_pos_nonneg; lia).
      assert (Ep : 4 ^ (l + 1) = 4 ^ l * 4) by (rewrite Z.pow_add_r by lia; lia).
      assert (Ed : x / 4 = n / 4 ^ (l + 1)) by (rewrite Ex, Z.div_div by lia; now rewrite Ep).
      cbn [snd]. split; [|split; [apply Z.div_pos; lia|apply Z.div_lt; lia]].
      split; [lia|]. split; [apply Z.div_pos; lia|]. split.
      * intros Z0. split; [lia|]. replace (l + 1 - 1) with l by lia. split; [exact Hl|]. rewrite Ed in Z0. apply Z.div_small_iff in Z0; [|nia]. lia.
      * intros Hp. split; [exact Ed|]. rewrite Ed in Hp. destruct (Z_lt_le_dec n (4 ^ (l + 1))); [|lia]. rewrite Z.div_small in Hp by lia. lia.
    + exists l. split; auto. apply H3. lia.
  - split; [lia|]. split; [lia|]. split; [lia|]. intros _. split; [now rewrite Z.pow_0_r, Z.div_1_r|cbn; lia].
  - cbn [snd]. split; [lia|]. now apply bits_ok.
  - exists s. auto.
Qed.

Lemma omapl_ret {B C} (f : B -> out C) (g : B -> C) l : (forall x, In x l -> f x = Ret (g x)) -> omapl f l = Ret (map g l).
Proof. induction l as [|x l IH]; intros H; cbn; auto. rewrite H by (now left). cbn. rewrite IH by (intros; apply H; now right). reflexivity. Qed.
Lemma rdtab_zr {f : Z -> C} n i : 0 <= i < n -> rdtab (map f (zr n)) i = Ret (f i).
Proof.
  intros H. unfold rdtab. destruct (Z.ltb_spec i 0); [lia|]. rewrite nth_error_map. unfold zr, zrange. rewrite nth_error_map.
  rewrite (nth_error_nth' _ 0%nat) by (rewrite seq_length; lia). rewrite seq_nth by lia. cbn. do 2 f_equal. lia.
Qed.

(** mktriggen for the table: closed form *)
Lemma mktriggen_table M n : 0 < n -> 4 * n <= M ->
  exists s, 0 < s /\ 4 ^ (s - 1) <= n < 4 ^ s /\
  mktriggen M AWAKE_SQRTN_TABLE n = Ret (mktg AWAKE_SQRTN_TABLE n s (2 ^ s) (2 ^ s - 1) (map (root n) (zr (2 ^ s)))
     (map (fun i => root n (i * 2 ^ s)) (zr ((n + 2 ^ s - 1) / 2 ^ s)))).
Proof.
  intros Hn HM. destruct (choose_twshft_ok n Hn) as (s & E & Hs & B1 & B2). exists s. split; auto. split; auto.
  assert (P : 0 < 2 ^ s) by (apply Z.pow_pos_nonneg; lia).
  assert (P4 : 4 ^ (s - 1) * 4 = 2 ^ s * 2 ^ s). { rewrite <- Z.pow_add_r by lia. change 4 with (2 ^ 2) at 1 2. rewrite <- Z.pow_mul_r, <- Z.pow_add_r by lia. f_equal. lia. }
  assert (P2 : 2 ^ s <= 2 * n).
  { destruct (Z.eq_dec s 1) as [->|]; [change (2 ^ 1) with 2; lia|]. assert (2 <= 2 ^ s) by (change 2 with (2 ^ 1) at 1; apply Z.pow_le_mono_r; lia). pose proof (Z.mul_le_mono_nonneg_r 2 (2 ^ s) (2 ^ s)). lia. }
  assert (P3 : 2 ^ s <= n + 1).
  { destruct (Z.eq_dec s 1) as [->|]; [change (2 ^ 1) with 2; lia|]. assert (4 <= 2 ^ s) by (change 4 with (2 ^ 2) at 1; apply Z.pow_le_mono_r; lia). pose proof (Z.mul_le_mono_nonneg_r 4 (2 ^ s) (2 ^ s)). lia. }
  unfold mktriggen. rewrite E. cbn [bind]. rewrite Z.shiftl_1_l. rewrite ck_ok by lia. cbn [bind]. rewrite ck_ok by lia. cbn [bind]. rewrite ck_ok by lia. cbn [bind].
  rewrite Z.quot_div_nonneg by lia.
  rewrite (omapl_ret _ (root n)) by (intros i Hi; apply in_zr in Hi; apply C33_real_cexp; lia). cbn [bind].
  rewrite (omapl_ret _ (fun i => root n (i * 2 ^ s))); [reflexivity|].
  intros i Hi. apply in_zr in Hi. set (n1 := (n + 2 ^ s - 1) / 2 ^ s) in *.
  assert (2 ^ s * n1 <= n + 2 ^ s - 1) by (apply Z.mul_div_le; lia). assert (i * 2 ^ s < n) by nia.
  rewrite ck_ok by nia. cbn [bind]. apply C33_real_cexp; nia.
Qed.

Lemma table_ok M n t m : 0 < n -> 4 * n <= M -> mktriggen M AWAKE_SQRTN_TABLE n = Ret t -> - n <= m < n -> cexpl_sqrtn_table M t m = Ret (root n m).
Proof.
  intros Hn HM Ht Hm. destruct (mktriggen_table M n Hn HM) as (s & Hs & B & E). rewrite E in Ht. injection Ht as <-.
  assert (P : 0 < 2 ^ s) by (apply Z.pow_pos_nonneg; lia).
  unfold cexpl_sqrtn_table. cbn [tg_n tg_msk tg_shft tg_W0 tg_W1].
  set (m1 := m + (if m <? 0 then n else 0)).
  assert (E1' : (if m <? 0 then ck M (m + n) else Ret m) = Ret m1). { unfold m1. destruct (Z.ltb_spec m 0); [rewrite ck_ok by lia|]; f_equal; lia. }
  rewrite E1'. cbn [bind]. assert (Er : root n m = root n m1).
  { unfold m1. destruct (m <? 0); [|now rewrite Z.add_0_r]. rewrite <- (root_period n m 1) by lia. f_equal. lia. }
  assert (R1 : 0 <= m1 < n) by (unfold m1; destruct (Z.ltb_spec m 0); lia). clearbody m1. rewrite Er.
  replace (2 ^ s - 1) with (Z.ones s) by (rewrite Z.ones_equiv; lia). rewrite Z.land_ones, Z.shiftr_div_pow2 by lia.
  pose proof (Z.mod_pos_bound m1 (2 ^ s) P) as Mb. pose proof (Z.div_mod m1 (2 ^ s) ltac:(lia)) as D.
  rewrite rdtab_zr by lia. cbn [bind]. rewrite rdtab_zr.
  2:{ split; [apply Z.div_pos; lia|]. apply Z.div_lt_upper_bound; [lia|]. pose proof (Z.mul_succ_div_gt (n + 2 ^ s - 1) (2 ^ s) P). nia. }
  cbn [bind]. assert (Em : root n m1 = (root n (m1 / 2 ^ s * 2 ^ s)%Z * root n (m1 mod 2 ^ s)%Z)%C) by (rewrite <- root_add; f_equal; lia). rewrite Em.
  destruct (root n (m1 mod 2 ^ s)) as [wr0 wi0]. destruct (root n (m1 / 2 ^ s * 2 ^ s)) as [wr1 wi1]. apply (f_equal (@Ret C)). apply C_eq; cbn; ring.
Qed.

(** C33: a generator of trigonometric functions can be made for every n (up to a quarter
    of the largest INT), and then yields exp(2 pi i m / n) for all -n <= m < n, without
    undefined behaviour (in particular without reading outside of the tables), both with
    the table and with the direct method. *)
Theorem C33_cexp M w n : 0 < n -> 4 * n <= M -> w = AWAKE_SQRTN_TABLE \/ w = AWAKE_SINCOS ->
  exists t, mktriggen M w n = Ret t /\ forall m, - n <= m < n -> tg_cexp M t m = Ret (root n m).
Proof.
  intros Hn HM [->| ->].
  - destruct (mktriggen_table M n Hn HM) as (s & Hs & B & E). eexists. split; [exact E|]. intros m Hm. unfold tg_cexp. cbn [tg_wake]. eapply table_ok; eauto.
  - eexists. split; [reflexivity|]. intros m Hm. unfold tg_cexp. cbn [tg_wake tg_n]. apply C33_real_cexp; lia.
Qed.
(** ... and multiplies complex numbers by exp(-2 pi i m / n). *)
Theorem C33_rotate M w n : 0 < n -> 4 * n <= M -> w = AWAKE_SQRTN_TABLE \/ w = AWAKE_SINCOS ->
  exists t, mktriggen M w n = Ret t /\ forall m x, - n <= m < n -> tg_rotate M t m x = Ret (x * W n m)%C.
Proof.
  intros Hn HM Hw. assert (EW : forall m x, let '(wr, wi) := root n m in (x * W n m)%C = (fst x * wr + snd x * wi, snd x * wr - fst x * wi)%R).
  { intros m x. unfold root, cis. apply C_eq; cbn; replace (2 * PI * IZR m / IZR n)%R with (2 * PI * (IZR m / IZR n))%R by (unfold Rdiv; ring); rewrite cos_neg, sin_neg; ring. }
  destruct Hw as [->| ->].
  - destruct (mktriggen_table M n Hn HM) as (s & Hs & B & E). eexists. split; [exact E|]. intros m x Hm. unfold tg_rotate. cbn [tg_wake].
    rewrite (table_ok M n _ m Hn HM E Hm). cbn [bind]. specialize (EW m x). destruct (root n m) as [wr wi]. rewrite EW. destruct x; reflexivity.
  - eexists. split; [reflexivity|]. intros m x Hm. unfold tg_rotate, tg_cexp. cbn [tg_wake tg_n]. rewrite C33_real_cexp by lia. cbn [bind].
    specialize (EW m x). destruct (root n m) as [wr wi]. rewrite EW. destruct x as [xr xi]. cbn [fst snd]. apply (f_equal (@Ret C)). apply C_eq; cbn; ring.
Qed.

(** C33 (size): the tables have O(sqrt n) entries. *)
Theorem C33_table_size M n t : 0 < n -> 4 * n <= M -> mktriggen M AWAKE_SQRTN_TABLE n = Ret t ->
  Z.of_nat (length (tg_W0 t)) ^ 2 <= 4 * n /\ (Z.of_nat (length (tg_W1 t)) - 1) ^ 2 < n.
Proof.
  intros Hn HM Ht. destruct (mktriggen_table M n Hn HM) as (s & Hs & [B1 B2] & E). rewrite E in Ht. injection Ht as <-. cbn [tg_W0 tg_W1].
  assert (P : 0 < 2 ^ s) by (apply Z.pow_pos_nonneg; lia).
  assert (P4 : 4 ^ s = 2 ^ s * 2 ^ s). { change 4 with (2 * 2). apply Z.pow_mul_l. }
  assert (P4' : 4 ^ s = 4 * 4 ^ (s - 1)). { rewrite <- Z.pow_succ_r by lia. f_equal. lia. }
  rewrite !map_length. unfold zr. rewrite !length_zrange. rewrite Z2Nat.id by lia. set (n1 := (n + 2 ^ s - 1) / 2 ^ s).
  assert (N1 : 0 <= n1) by (apply Z.div_pos; lia). rewrite Z2Nat.id by lia. rewrite !Z.pow_2_r. split; [nia|].
  assert (2 ^ s * n1 <= n + 2 ^ s - 1) by (apply Z.mul_div_le; lia).
  assert ((n1 - 1) * 2 ^ s < n) by nia. assert (n1 - 1 < 2 ^ s) by nia. destruct (Z.eq_dec n1 0) as [Z0|]; [|nia].
  assert (1 <= n1); [|lia]. apply Z.div_le_lower_bound; lia.
Qed.

(** Non-vacuity: n = 12; the table has 4 + 3 entries; exp(2 pi i 7/12) is computed from
    entries 3 and 1; octant of 7/12. *)
Example C33_ex : octant (2 ^ 63 - 1) 7 12 = Ret (4, 48, (true, true, true)) /\ choose_twshft 12 = Ret 2.
Proof. split; vm_compute; reflexivity. Qed.
(** m = n is outside of the table if n is a multiple of the radix: n = 16, m = 16 *)
Example C33_bound : choose_twshft 16 = Ret 3 /\ Z.shiftr 16 3 = (16 + 8 - 1) / 8.
Proof. split; vm_compute; reflexivity. Qed.

Print Assumptions C33_real_cexp.
Print Assumptions C33_reduced_angle.
Print Assumptions C33_cexp.
Print Assumptions C33_rotate.
Print Assumptions C33_table_size.
