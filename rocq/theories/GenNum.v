(** * genfft: what the integer helpers of util.ml and the roots of unity of number.ml compute *)
From Coq Require Import Reals ZArith Znumtheory List Lia Lra Bool.
From Verif Require Import NumTheory Cplx GenExpr GenCplx.
Import ListNotations.
Open Scope Z_scope.

Lemma omod_pos a b : 0 <= a -> 0 < b -> omod a b = a mod b.
Proof. intros. unfold omod. apply Z.rem_mod_nonneg; lia. Qed.
Lemma odiv_pos a b : 0 <= a -> 0 < b -> odiv a b = a / b.
Proof. intros. unfold odiv. apply Z.quot_div_nonneg; lia. Qed.
Lemma omod_zero a b : b <> 0 -> (omod a b =? 0) = true <-> (b | a).
Proof. intros H. unfold omod. rewrite Z.eqb_eq. apply Z.rem_divide; lia. Qed.

Lemma ugcd_ok fuel : forall n m, 0 < n -> 0 < m -> (Z.to_nat (2 * (n + m) + (if n >? m then 1 else 0)) < fuel)%nat -> ugcd fuel n m = Some (Z.gcd n m).
Proof.
  induction fuel as [|f IH]; intros n m Hn Hm Hf; [lia|]. cbn [ugcd].
  destruct (n >? m) eqn:E.
  - rewrite IH; [now rewrite Z.gcd_comm|lia|lia|]. replace (m >? n) with false by lia. lia.
  - replace (n =? 0) with false by lia. rewrite omod_pos by lia.
    pose proof (Z.mod_pos_bound m n ltac:(lia)).
    assert (G : Z.gcd n m = Z.gcd (m mod n) n).
    { rewrite Z.gcd_mod by lia. reflexivity. }
    destruct (m mod n =? 0) eqn:Er.
    + apply Z.eqb_eq in Er. rewrite G, Er, Z.gcd_0_l, Z.abs_eq by lia. reflexivity.
    + apply Z.eqb_neq in Er. rewrite IH; [now rewrite G|lia|lia|]. replace (m mod n >? n) with false by lia.
      assert (m mod n <= m) by (apply Z.mod_le; lia). lia.
Qed.
Lemma gcd_ok n m : 0 < n -> 0 < m -> gcd n m = Some (Z.gcd n m).
Proof. intros. unfold gcd. apply ugcd_ok; auto. destruct (n >? m); lia. Qed.

(** ** Roots of unity *)
Lemma cmul_cis_pow x j k : (cis (x * j) * cis (x * k))%C = cis (x * (j + k))%R.
Proof. rewrite <- cis_add. f_equal. ring. Qed.
Lemma ncmul_cmul x y : ncmul x y = cmul x y.
Proof. reflexivity. Qed.
Lemma ncsqr_cmul x : ncsqr x = cmul x x.
Proof. apply C_eq; cbn; ring. Qed.
Lemma ipow_pos_ok fuel : forall t n, 0 <= n -> (Z.to_nat n < fuel)%nat -> ipow_pos fuel (cis t) n = Some (cis (t * IZR n)).
Proof.
  induction fuel as [|f IH]; intros t n Hn Hf; [lia|]. cbn [ipow_pos].
  destruct (n =? 0) eqn:E0.
  { apply Z.eqb_eq in E0. subst. rewrite Rmult_0_r, cis_0. reflexivity. }
  apply Z.eqb_neq in E0. destruct (omod n 2 =? 0) eqn:E2.
  - apply omod_zero in E2; [|lia]. destruct E2 as (h & ->). rewrite odiv_pos, Z.div_mul by lia.
    rewrite ncsqr_cmul, <- cis_add. rewrite IH by lia. apply (f_equal (fun z => Some (cis z))). rewrite mult_IZR. ring.
  - rewrite IH by lia. rewrite ncmul_cmul, <- cis_add. apply (f_equal (fun z => Some (cis z))). rewrite minus_IZR. ring.
Qed.
Lemma ncexp_ok n i : 0 < n -> ncexp n i = Some (cis (2 * PI * IZR i / IZR n)).
Proof.
  intros Hn. unfold ncexp. assert (Hn0 : IZR n <> 0%R) by (apply not_0_IZR; lia).
  destruct (omod i n =? 0) eqn:E.
  { apply omod_zero in E; [|lia]. destruct E as (q & ->). rewrite mult_IZR.
    replace (2 * PI * (IZR q * IZR n) / IZR n)%R with (0 + 2 * IZR q * PI)%R by (field; auto).
    rewrite cis_period, cis_0. reflexivity. }
  unfold lowest_terms. rewrite E.
  assert (Hnd : ~ (n | i)) by (intros H; apply omod_zero in H; [congruence|lia]).
  assert (Hi0 : i <> 0) by (intros ->; apply Hnd; exists 0; lia).
  rewrite (Z.abs_eq n) by lia. rewrite odiv_pos by lia. rewrite Z.div_same, Z.mul_1_r by lia.
  set (mp := if i >? 0 then _ else _).
  assert (Hmp : mp = i mod n).
  { unfold mp. destruct (i >? 0) eqn:Ei; [apply omod_pos; lia|].
    pose proof (Z.quot_div_nonneg (Z.abs i) n ltac:(lia) ltac:(lia)) as Q. unfold odiv. rewrite Q.
    assert (0 <= i + (1 + Z.abs i / n) * n).
    { pose proof (Z.div_mod (Z.abs i) n ltac:(lia)). pose proof (Z.mod_pos_bound (Z.abs i) n ltac:(lia)). nia. }
    rewrite omod_pos by lia. now rewrite Z_mod_plus_full. }
  rewrite Hmp. rewrite gcd_ok by lia. set (d := Z.gcd n (Z.abs i)).
  assert (Hd : 0 < d).
  { pose proof (Z.gcd_nonneg n (Z.abs i)). assert (d <> 0); [|unfold d in *; lia]. intros F. apply Z.gcd_eq_0_l in F. lia. }
  destruct (Z.gcd_divide_l n (Z.abs i)) as (a & Ha). fold d in Ha.
  assert (Hb : (d | i)) by (apply Z.divide_abs_r; apply Z.gcd_divide_r). destruct Hb as (b & Hb).
  pose proof (Z.mod_pos_bound i n ltac:(lia)) as Bm.
  pose proof (Z.div_mod i n ltac:(lia)) as Dm.
  assert (Ec : i mod n = (b - a * (i / n)) * d) by nia.
  assert (Ha0 : 0 < a) by nia.
  rewrite !odiv_pos by lia. rewrite Ec, Z.div_mul by lia. rewrite Ha at 1. rewrite Z.div_mul by lia.
  set (c := b - a * (i / n)) in *. assert (Hc : 0 <= c) by nia.
  unfold ipow_cnum. replace (c <? 0) with false by lia. change (primitive_root_of_unity a) with (cis (2 * PI / IZR a)).
  rewrite ipow_pos_ok by lia. apply (f_equal (fun z : C => Some z)).
  assert (Ha1 : IZR a <> 0%R) by (apply not_0_IZR; lia). assert (Hd1 : IZR d <> 0%R) by (apply not_0_IZR; lia).
  replace (2 * PI * IZR i / IZR n)%R with (2 * PI / IZR a * IZR c + 2 * IZR (i / n) * PI)%R; [symmetry; apply cis_period|].
  rewrite Hb at 2. rewrite Ha at 2. unfold c. rewrite minus_IZR, !mult_IZR. field. auto.
Qed.
Lemma W_cis n i : W n i = cis (2 * PI * IZR (- i) / IZR n).
Proof. unfold W. f_equal. rewrite opp_IZR. unfold Rdiv. ring. Qed.
Lemma cis_W n i : cis (2 * PI * IZR i / IZR n) = W n (- i).
Proof. rewrite W_cis. now rewrite Z.opp_involutive. Qed.

Section Root.
  Variable env : variable -> C.
  Lemma evc_cis s t : evc env s (CE (Num (cos t)) (Num (sin t))) = cis (if s then t else - t)%R.
  Proof.
    unfold evc; cbn [re im]. rewrite !ev_num. destruct s; apply C_eq; unfold cis; cbn [fst snd csg]; rewrite ?cos_neg, ?sin_neg; unfold Ci, cadd, cmul, copp, RtoC; cbn [fst snd]; ring.
  Qed.
  (** exp n m is the root of unity e^(2 pi i m / n) (conjugate on the other branch) *)
  Lemma den_exp s n m : 0 < n -> den env s (oexp n m) (W n (- (sg s * m))).
  Proof.
    intros Hn. unfold oexp. rewrite ncexp_ok by auto. unfold cis at 1. eexists. split; [reflexivity|].
    rewrite evc_cis. rewrite <- cis_W. f_equal. destruct s; cbn [sg]; rewrite mult_IZR; unfold Rdiv; ring.
  Qed.
  Lemma den_real_exp s n m : 0 < n -> den env s (o1 zreal (oexp n m)) (RtoC (cos (2 * PI * IZR m / IZR n))).
  Proof.
    intros Hn. unfold oexp. rewrite ncexp_ok by auto. unfold cis. eexists. split; [reflexivity|]. apply evc_real_const.
  Qed.
  Lemma den_sec s n m : 0 < n -> cos (2 * PI * IZR m / IZR n) <> 0%R ->
    den env s (osec n m) (RtoC (1 / cos (2 * PI * IZR m / IZR n))).
  Proof.
    intros Hn Hc. unfold osec. rewrite ncexp_ok by auto. unfold cis.
    unfold is_zero. destruct (Req_EM_T _ 0); [contradiction|]. eexists. split; [reflexivity|]. apply evc_real_const.
  Qed.
End Root.

(** ** pow_mod, find_generator *)
Lemma upow_mod_ok fuel : forall x n p, 1 < p -> 0 <= n -> (Z.to_nat n < fuel)%nat -> 0 <= x ->
  upow_mod fuel x n p = Some (x ^ n mod p).
Proof.
  induction fuel as [|f IH]; intros x n p Hp Hn Hf Hx; [lia|]. cbn [upow_mod].
  destruct (n =? 0) eqn:E0.
  { apply Z.eqb_eq in E0. subst. rewrite Z.pow_0_r, Z.mod_1_l by lia. reflexivity. }
  apply Z.eqb_neq in E0. replace (n <? 0) with false by lia.
  destruct (omod n 2 =? 0) eqn:E2.
  - apply omod_zero in E2; [|lia]. destruct E2 as (h & ->). rewrite odiv_pos, Z.div_mul by lia.
    rewrite omod_pos by nia. rewrite IH; try lia.
    + f_equal. rewrite (Z.mul_comm h 2), Z.pow_mul_r by lia. rewrite Z.pow_2_r.
      apply pow_mod_congr; try lia. apply Z.mod_mod. lia.
    + apply Z.mod_pos_bound. lia.
  - rewrite IH by lia. rewrite omod_pos; [|apply Z.mul_nonneg_nonneg; [lia|apply Z.mod_pos_bound; lia]|lia].
    f_equal. rewrite Z.mul_mod_idemp_r by lia. replace n with (Z.succ (n - 1)) at 2 by lia.
    now rewrite Z.pow_succ_r by lia.
Qed.
Lemma pow_mod_ok x n p : 1 < p -> 0 <= n -> 0 <= x -> pow_mod x n p = Some (x ^ n mod p).
Proof. intros. apply upow_mod_ok; auto. Qed.

(** the order of x, counted from the power [i] *)
Lemma period_ok p x k : 1 < p -> 1 <= x -> 1 <= k -> x ^ k mod p = 1 -> (forall j, 0 < j < k -> x ^ j mod p <> 1) ->
  forall fuel i, 1 <= i <= k -> (Z.to_nat (k - i) < fuel)%nat -> period fuel p x (x ^ i mod p) = Some (k - i + 1).
Proof.
  intros Hp Hx Hk E Hmin fuel. induction fuel as [|f IH]; intros i Hi Hf; [lia|]. cbn [period].
  assert (i = k \/ i < k) as [->|Hlt] by lia.
  - rewrite E. cbn. f_equal. lia.
  - replace (x ^ i mod p =? 1) with false by (symmetry; apply Z.eqb_neq; apply Hmin; lia).
    pose proof (Z.mod_pos_bound (x ^ i) p ltac:(lia)).
    rewrite omod_pos by nia. rewrite Z.mul_mod_idemp_l by lia. rewrite Z.mul_comm, <- Z.pow_succ_r by lia.
    rewrite IH by lia. f_equal. lia.
Qed.
Lemma order_exists p x : prime p -> 1 <= x < p ->
  exists k, 1 <= k <= p - 1 /\ x ^ k mod p = 1 /\ forall j, 0 < j < k -> x ^ j mod p <> 1.
Proof.
  intros Hp Hx. pose proof (prime_ge_2 p Hp).
  assert (F : x ^ (p - 1) mod p = 1) by (apply fermat; auto; apply prime_not_div_small; auto; lia).
  assert (G : forall m, (exists k, 1 <= k <= Z.of_nat m /\ x ^ k mod p = 1 /\ forall j, 0 < j < k -> x ^ j mod p <> 1) \/
                        (forall j, 0 < j <= Z.of_nat m -> x ^ j mod p <> 1)).
  { induction m as [|m [(k & K1 & K2 & K3)|IH]]; [right; intros; lia|left; exists k; repeat split; auto; lia|].
    destruct (Z.eq_dec (x ^ Z.of_nat (S m) mod p) 1) as [E|E].
    - left. exists (Z.of_nat (S m)). split; [lia|]. split; auto. intros j Hj. apply IH. lia.
    - right. intros j Hj. destruct (Z.eq_dec j (Z.of_nat (S m))) as [->|]; auto. apply IH. lia. }
  destruct (G (Z.to_nat (p - 1))) as [(k & K1 & K2 & K3)|N].
  - exists k. split; [lia|]. auto.
  - exfalso. apply (N (p - 1)); [lia|exact F].
Qed.
Lemma prim_exists p : prime p -> exists g, 1 <= g < p /\ forall j, 0 < j < p - 1 -> g ^ j mod p <> 1.
Proof.
  intros Hp. pose proof (prime_ge_2 p Hp).
  set (l := filter (fun q => if prime_dec q then if Zdivide_dec q (p - 1) then true else false else false) (zrange 1 (Z.to_nat p))).
  assert (Hl : forall q, In q l <-> prime q /\ (q | p - 1)).
  { intros q. unfold l. rewrite filter_In, in_zrange. destruct (prime_dec q) as [Hq|Hq]; [|split; [intros [_ ?]; discriminate|intros [? _]; contradiction]].
    destruct (Zdivide_dec q (p - 1)) as [Hd|Hd]; [|split; [intros [_ ?]; discriminate|intros [_ ?]; contradiction]].
    split; [auto|]. intros _. split; [|reflexivity]. pose proof (prime_ge_2 q Hq). apply Z.divide_pos_le in Hd; lia. }
  destruct (primroot_list p Hp l) as (g & Hg & Hg1 & _).
  { unfold l. apply NoDup_filter, NoDup_zrange. }
  { intros q Hq. now apply Hl. }
  exists g. split; auto. apply order_full; auto. intros q Hq Hd. apply Hg1. apply Hl. auto.
Qed.
Lemma primitive_root_order p g : prime p -> 1 <= g < p -> (forall j, 0 < j < p - 1 -> g ^ j mod p <> 1) -> primitive_root p g.
Proof.
  intros Hp Hg Hk. split; auto. intros x Hx.
  destruct (pow_surj p Hp g Hg Hk x Hx) as (k & Hk1 & Hk2).
  exists k. split; auto. intros j [Hj1 Hj2]. apply (pow_inj p Hp g Hg Hk); auto. congruence.
Qed.
Lemma findgen_ok p g : prime p -> 1 <= g < p -> (forall j, 0 < j < p - 1 -> g ^ j mod p <> 1) ->
  forall fuel x, 1 <= x <= g -> (Z.to_nat (g - x) < fuel)%nat ->
  exists h, findgen fuel p x = Some h /\ primitive_root p h.
Proof.
  intros Hp Hg Hk. pose proof (prime_ge_2 p Hp). induction fuel as [|f IH]; intros x Hx Hf; [lia|]. cbn [findgen].
  replace (x =? 0) with false by lia.
  destruct (order_exists p x Hp ltac:(lia)) as (k & K1 & K2 & K3).
  assert (Ex : x ^ 1 mod p = x) by (rewrite Z.pow_1_r; apply Z.mod_small; lia).
  assert (Ep : period (Z.to_nat p) p x x = Some k).
  { pose proof (period_ok p x k ltac:(lia) ltac:(lia) ltac:(lia) K2 K3 (Z.to_nat p) 1 ltac:(lia) ltac:(lia)) as P.
    rewrite Ex in P. rewrite P. f_equal. ring. }
  rewrite Ep. destruct (k =? p - 1) eqn:E.
  - apply Z.eqb_eq in E. subst k. exists x. split; auto. apply primitive_root_order; auto. lia.
  - apply Z.eqb_neq in E. assert (x <> g).
    { intros ->. apply (Hk k); [lia|exact K2]. }
    rewrite omod_pos by lia. rewrite Z.mod_small by lia. apply IH; lia.
Qed.
Lemma find_generator_ok p : prime p -> exists g, find_generator p = Some g /\ primitive_root p g.
Proof.
  intros Hp. destruct (prim_exists p Hp) as (g & Hg & Hk). unfold find_generator.
  apply (findgen_ok p g); auto; lia.
Qed.

(** ** suchthat *)
Lemma suchthat_ok (pred : Z -> option bool) k : pred k = Some true -> forall fuel a, a <= k ->
  (forall j, a <= j < k -> pred j = Some false) -> (Z.to_nat (k - a) < fuel)%nat -> suchthat fuel a pred = Some k.
Proof.
  intros Hk. induction fuel as [|f IH]; intros a Ha Hj Hf; [lia|]. cbn [suchthat].
  assert (a = k \/ a < k) as [->|L] by lia; [now rewrite Hk|].
  rewrite (Hj a) by lia. apply IH; try lia. intros; apply Hj; lia.
Qed.
