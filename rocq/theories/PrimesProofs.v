(** * Proofs about the model of kernel/primes.c *)
From Coq Require Import ZArith Znumtheory List Lia Bool Sorted.
From Verif Require Import Base PrimesModel NumTheory.
Import ListNotations.
Open Scope Z_scope.

(** ** safe_mulmod / MULMOD / power_mod *)

Lemma add_mod_spec M x y p :
  0 <= x < p -> 0 <= y < p -> p <= M ->
  add_mod M x y p = Ret ((x + y) mod p).
Proof.
  intros Hx Hy HM. unfold add_mod.
  rewrite ck_ok by lia. cbn [bind].
  destruct (x >=? p - y) eqn:E.
  - rewrite Z.geb_leb in E; apply Z.leb_le in E.
    rewrite (ck_ok M (y - p)) by lia. cbn [bind]. rewrite ck_ok by lia.
    f_equal. apply Z.mod_unique with 1; lia.
  - rewrite Z.geb_leb in E; apply Z.leb_gt in E.
    rewrite ck_ok by lia. f_equal. symmetry; apply Z.mod_small; lia.
Qed.

Lemma land_1 y : Z.land y 1 = y mod 2.
Proof. change 1 with (Z.ones 1). rewrite Z.land_ones by lia. reflexivity. Qed.

Lemma safe_mulmod_spec M x y p :
  0 <= x < p -> 0 <= y < p -> p <= M ->
  safe_mulmod M x y p = Ret ((x * y) mod p).
Proof.
  assert (G : forall x y, 0 <= y <= x -> x < p -> p <= M ->
     (_ <- assert_ ((0 <=? y) && (x <? p)) ;;
      oloop (bits y) (mulmod_body M p) (x, y, 0)) = Ret ((x * y) mod p)).
  { clear x y. intros x y Hyx Hxp HM.
    replace ((0 <=? y) && (x <? p)) with true
      by (symmetry; apply andb_true_intro; split; [apply Z.leb_le|apply Z.ltb_lt]; lia).
    cbn [assert_ bind].
    destruct (oloop_rule (mulmod_body M p)
      (fun s => let '(x', y', r') := s in
         0 <= x' < p /\ 0 <= y' /\ 0 <= r' < p /\ (r' + x' * y') mod p = (x * y) mod p)
      (fun s => snd (fst s))
      (fun r => r = (x * y) mod p) (bits y) (x, y, 0)) as (a & Ha & ->); [| | |exact Ha].
    - intros [[x' y'] r'] (Hx & Hy & Hr & E). unfold mulmod_body.
      destruct (y' =? 0) eqn:E0.
      + apply Z.eqb_eq in E0. subst y'. eexists; split; [reflexivity|].
        rewrite Z.mul_0_r, Z.add_0_r, Z.mod_small in E by lia. auto.
      + apply Z.eqb_neq in E0. rewrite land_1.
        pose proof (Z.mod_pos_bound y' 2 ltac:(lia)) as Hb.
        assert (Hxb : 0 <= x' * (y' mod 2) < p) by nia.
        rewrite ck_ok by lia. cbn [obind].
        rewrite add_mod_spec by lia. cbn [obind].
        rewrite add_mod_spec by lia. cbn [obind].
        rewrite Z.shiftr_div_pow2 by lia. change (2 ^ 1) with 2.
        pose proof (Z.div_mod y' 2 ltac:(lia)) as Hdm.
        pose proof (Z.mod_pos_bound (r' + x' * (y' mod 2)) p ltac:(lia)).
        pose proof (Z.mod_pos_bound (x' + x') p ltac:(lia)).
        assert (0 <= y' / 2 < y') by (split; [apply Z.div_pos|apply Z.div_lt]; lia).
        cbn [fst snd]. repeat split; try lia.
        rewrite <- E. rewrite Zplus_mod, Zmult_mod, !Zmod_mod, <- Zmult_mod, <- Zplus_mod.
        f_equal. rewrite Hdm at 3. ring.
    - repeat split; try lia.
      all: rewrite ?Z.add_0_l; try reflexivity; try lia.
    - cbn [fst snd]. split; [lia|]. apply bits_ok; lia. }
  intros Hx Hy HM. unfold safe_mulmod.
  destruct (y >? x) eqn:E.
  - rewrite Z.gtb_ltb in E; apply Z.ltb_lt in E. rewrite G by lia. now rewrite Z.mul_comm.
  - rewrite Z.gtb_ltb in E; apply Z.ltb_ge in E. apply G; lia.
Qed.

Lemma MULMOD_spec M x y p :
  0 <= x < p -> 0 <= y < p -> p <= M -> 2 ^ 31 - 1 <= M ->
  MULMOD M x y p = Ret ((x * y) mod p).
Proof.
  intros Hx Hy HM HM2. unfold MULMOD.
  change (2 ^ 31) with 2147483648 in HM2.
  rewrite ck_ok by lia. cbn [bind].
  destruct (x <=? 92681 - y) eqn:E.
  - apply Z.leb_le in E.
    assert (x * y <= 2147483647).
    { assert (4 * (x * y) <= 92681 * 92681).
      { assert (0 <= (x - y) * (x - y)) by apply Z.square_nonneg.
        assert ((x + y) * (x + y) <= 92681 * 92681) by (apply Z.mul_le_mono_nonneg; lia).
        nia. }
      lia. }
    rewrite ck_ok by nia. cbn [bind].
    replace (p =? 0) with false by (symmetry; apply Z.eqb_neq; lia).
    rewrite Z.rem_mod_nonneg by nia. reflexivity.
  - apply safe_mulmod_spec; lia.
Qed.

Lemma power_mod__spec M n p : 2 ^ 31 - 1 <= M -> 0 <= n < p -> 1 < p -> p <= M ->
  forall fuel m, 0 <= m -> 2 * (if m =? 0 then 0 else Z.log2 m + 1) < Z.of_nat fuel ->
  power_mod_ fuel M n m p = Ret (n ^ m mod p).
Proof.
  intros HM Hn Hp HpM.
  assert (G : forall fuel m, 0 <= m ->
    (m = 0 -> 0 < Z.of_nat fuel) ->
    (0 < m -> 2 * Z.log2 m + 1 + m mod 2 < Z.of_nat fuel) ->
    power_mod_ fuel M n m p = Ret (n ^ m mod p)).
  { induction fuel as [|fuel IH]; intros m Hm H0 H1.
    - exfalso. destruct (Z.eq_dec m 0); [lia|].
      pose proof (Z.log2_nonneg m). pose proof (Z.mod_pos_bound m 2 ltac:(lia)).
      specialize (H1 ltac:(lia)). lia.
    - cbn [power_mod_].
      replace (p >? 0) with true by (symmetry; rewrite Z.gtb_ltb; apply Z.ltb_lt; lia).
      cbn [assert_ bind]. destruct (m =? 0) eqn:E.
      + apply Z.eqb_eq in E; subst m. rewrite Z.pow_0_r, Z.mod_small by lia. reflexivity.
      + apply Z.eqb_neq in E.
        rewrite Z.rem_mod_nonneg by lia. rewrite Z.quot_div_nonneg by lia.
        specialize (H1 ltac:(lia)).
        pose proof (Z.div_mod m 2 ltac:(lia)) as Hdm.
        pose proof (Z.mod_pos_bound m 2 ltac:(lia)) as Hb.
        destruct (m mod 2 =? 0) eqn:E2.
        * apply Z.eqb_eq in E2.
          assert (Hl : Z.log2 m = Z.log2 (m / 2) + 1).
          { rewrite Hdm at 1. rewrite E2, Z.add_0_r, Z.log2_double by lia. lia. }
          pose proof (Z.mod_pos_bound (m/2) 2 ltac:(lia)).
          rewrite IH; [|lia|lia|lia]. cbn [bind].
          pose proof (Z.mod_pos_bound (n ^ (m/2)) p ltac:(lia)).
          rewrite MULMOD_spec by lia.
          rewrite <- Zmult_mod, <- Z.pow_add_r by lia. do 3 f_equal. lia.
        * apply Z.eqb_neq in E2.
          assert (Hm1 : (m - 1) mod 2 = 0).
          { replace (m - 1) with (0 + (m / 2) * 2) by lia. now rewrite Z_mod_plus_full. }
          rewrite IH; [| lia | intros; pose proof (Z.log2_nonneg m); lia |].
          2:{ intros Hpos. pose proof (Z.log2_le_mono (m-1) m ltac:(lia)). lia. }
          cbn [bind].
          pose proof (Z.mod_pos_bound (n ^ (m-1)) p ltac:(lia)).
          rewrite MULMOD_spec by lia.
          rewrite Zmult_mod_idemp_r. f_equal. rewrite <- Z.pow_succ_r by lia.
          do 2 f_equal; lia. }
  intros fuel m Hm Hf. apply G; [lia| |].
  - intros ->. cbn in Hf. lia.
  - intros H. destruct (m =? 0) eqn:E; [apply Z.eqb_eq in E; lia|].
    pose proof (Z.mod_pos_bound m 2 ltac:(lia)). lia.
Qed.

Lemma power_mod_spec M n m p :
  2 ^ 31 - 1 <= M -> 0 <= n < p -> 1 < p -> p <= M -> 0 <= m ->
  power_mod M n m p = Ret (n ^ m mod p).
Proof.
  intros HM Hn Hp HpM Hm. apply power_mod__spec; try lia.
  rewrite Nat2Z.inj_add, Nat2Z.inj_mul. pose proof (bits_ok m m ltac:(lia)) as Hb.
  destruct (m =? 0) eqn:E; [lia|]. apply Z.eqb_neq in E.
  apply Z.log2_lt_pow2 in Hb; lia.
Qed.

(** ** Elementary facts on primes *)

Lemma prime_divisor_exists n : 1 < n -> exists q, prime q /\ (q | n).
Proof.
  intros Hn. assert (H : 0 <= n) by lia. revert Hn.
  pattern n. apply Zlt_0_ind; [|exact H]. clear n H. intros n IH _ Hn.
  destruct (prime_dec n) as [Hp|Hp]; [exists n; split; auto; apply Z.divide_refl|].
  destruct (not_prime_divide n Hn Hp) as (d & Hd & Hdn).
  destruct (IH d ltac:(lia) ltac:(lia)) as (q & Hq & Hqd).
  exists q; split; auto. eapply Z.divide_trans; eauto.
Qed.

Lemma least_divisor_prime i n :
  2 <= i -> (i | n) -> (forall q, prime q -> q < i -> ~ (q | n)) -> prime i.
Proof.
  intros Hi Hd Hq. destruct (prime_divisor_exists i ltac:(lia)) as (q & Hqp & Hqi).
  assert (q <= i) by (apply Z.divide_pos_le; auto; lia).
  destruct (Z.eq_dec q i) as [->|]; auto.
  exfalso. apply (Hq q Hqp ltac:(lia)). eapply Z.divide_trans; eauto.
Qed.

Lemma prime_ge2 p : prime p -> 2 <= p. Proof. apply prime_ge_2. Qed.

Lemma no_small_divisor_prime i n :
  1 < n -> 2 <= i -> n < i * i -> (forall q, prime q -> q < i -> ~ (q | n)) -> prime n.
Proof.
  intros Hn Hi Hii Hq. destruct (prime_dec n) as [Hp|Hp]; auto. exfalso.
  destruct (not_prime_divide n Hn Hp) as (d & Hd & (e & He)).
  assert (He2 : 1 < e < n) by nia.
  assert (d < i \/ e < i) as [Hl|Hl] by nia.
  - destruct (prime_divisor_exists d ltac:(lia)) as (q & Hqp & Hqd).
    assert (q <= d) by (apply Z.divide_pos_le; auto; lia).
    apply (Hq q Hqp ltac:(lia)). rewrite He. now apply Z.divide_mul_r.
  - destruct (prime_divisor_exists e ltac:(lia)) as (q & Hqp & Hqe).
    assert (q <= e) by (apply Z.divide_pos_le; auto; lia).
    apply (Hq q Hqp ltac:(lia)). rewrite He. now apply Z.divide_mul_l.
Qed.

Lemma no_prime_step i n :
  3 <= i -> Z.odd i = true -> ~ (i | n) ->
  (forall q, prime q -> q < i -> ~ (q | n)) ->
  (forall q, prime q -> q < i + 2 -> ~ (q | n)).
Proof.
  intros Hi Ho Hin Hq q Hqp Hql Hd.
  assert (q < i \/ q = i \/ q = i + 1) as [H|[->| ->]] by lia; [now apply (Hq q)|auto|].
  assert (H2 : (2 | i + 1)).
  { exists ((i + 1) / 2). rewrite Z.mul_comm. apply Z_div_exact_full_2; [lia|].
    rewrite Zmod_even. replace (Z.even (i + 1)) with (Z.odd i); [now rewrite Ho|].
    rewrite Z.even_add. change (Z.even 1) with false. rewrite <- Z.negb_odd. now destruct (Z.odd i). }
  apply prime_div_prime in H2; auto using prime_2. lia.
Qed.

Lemma divide_rem i n : i <> 0 -> (Z.rem n i =? 0) = true <-> (i | n).
Proof. intros Hi. rewrite Z.eqb_eq. apply Z.rem_divide; auto. Qed.

Lemma divide_rem_false i n : i <> 0 -> (Z.rem n i =? 0) = false <-> ~ (i | n).
Proof.
  intros Hi. rewrite <- divide_rem by auto. destruct (Z.rem n i =? 0); split; intros; congruence.
Qed.

Lemma divide_out_spec k i n : 2 <= i -> 0 < n < 2 ^ Z.of_nat k -> (i | n) ->
  exists n' a, divide_out k i n = Ret n' /\ 0 < n' < n /\ ~ (i | n') /\ 1 <= a /\ n = n' * i ^ a.
Proof.
  intros Hi Hn Hd. unfold divide_out.
  destruct (oloop_rule
    (fun n => let n' := Z.quot n i in
       if Z.rem n' i =? 0 then Cont n' else Done (Ret n'))
    (fun m => 0 < m <= n /\ (i | m) /\ exists a, 0 <= a /\ n = m * i ^ a)
    (fun m => m)
    (fun m => 0 < m < n /\ ~ (i | m) /\ exists a, 1 <= a /\ n = m * i ^ a) k n)
    as (n' & Hr & H1 & H2 & a & H3 & H4).
  - intros m (Hm & (c & Hc) & a & Ha & E). cbv zeta.
    assert (Hq : Z.quot m i = c). { rewrite Hc. apply Z.quot_mul; lia. }
    rewrite Hq. assert (0 < c < m) by nia.
    destruct (Z.rem c i =? 0) eqn:Er.
    + apply divide_rem in Er; [|lia]. repeat split; try lia; auto.
      exists (a + 1). split; [lia|]. rewrite Z.pow_add_r, Z.pow_1_r by lia. nia.
    + apply divide_rem_false in Er; [|lia]. eexists; split; [reflexivity|].
      repeat split; try lia; auto. exists (a + 1). split; [lia|].
      rewrite Z.pow_add_r, Z.pow_1_r by lia. nia.
  - repeat split; try lia; auto. exists 0. split; [lia|]. rewrite Z.pow_0_r; lia.
  - lia.
  - exists n', a. repeat split; auto; lia.
Qed.

Lemma prime_divide_pow q i a : prime q -> 0 <= a -> (q | i ^ a) -> (q | i).
Proof.
  intros Hq Ha. pattern a. apply natlike_ind; [| |exact Ha].
  - rewrite Z.pow_0_r. intros H. apply Z.divide_1_r_nonneg in H; [|pose proof (prime_ge2 q Hq); lia].
    pose proof (prime_ge2 q Hq); lia.
  - intros x Hx IH H. rewrite Z.pow_succ_r in H by lia.
    apply prime_mult in H; auto. destruct H; auto.
Qed.

(** *** at most 15 distinct primes divide a number below 2^64 *)

Definition prodl (l : list Z) : Z := fold_right Z.mul 1 l.

Lemma sorted_in_gt x l y : StronglySorted Z.lt (x :: l) -> In y l -> x < y.
Proof.
  intros H Hy. apply StronglySorted_inv in H as [_ H].
  rewrite Forall_forall in H. auto.
Qed.

Lemma prime_divide_prod q l : prime q -> Forall prime l -> (q | prodl l) -> In q l.
Proof.
  intros Hq. induction l as [|x l IH]; cbn [prodl fold_right]; intros Hl Hd.
  - apply Z.divide_1_r_nonneg in Hd; pose proof (prime_ge2 q Hq); lia.
  - inversion Hl as [|? ? Hx Hl']; subst. apply prime_mult in Hd; auto.
    destruct Hd as [Hd|Hd].
    + apply prime_div_prime in Hd; auto. now left.
    + right; auto.
Qed.

Lemma prodl_divides N l :
  StronglySorted Z.lt l -> Forall prime l -> (forall q, In q l -> (q | N)) -> (prodl l | N).
Proof.
  induction l as [|x l IH]; intros Hs Hp Hd.
  - cbn. apply Z.divide_1_l.
  - inversion Hp as [|? ? Hx Hl]; subst.
    assert (Hs' := Hs). apply StronglySorted_inv in Hs' as [Hs' _].
    destruct (IH Hs' Hl) as (k & Hk); [intros; apply Hd; now right|].
    assert (Hxd : (x | k * prodl l)) by (rewrite <- Hk; apply Hd; now left).
    apply prime_mult in Hxd; auto. destruct Hxd as [(j & Hj)|Hxd].
    + exists j. rewrite Hk, Hj. cbn [prodl fold_right]. fold (prodl l). ring.
    + apply prime_divide_prod in Hxd; auto.
      pose proof (sorted_in_gt x l x Hs Hxd). lia.
Qed.

Lemma composite a b : 1 < a -> 1 < b -> ~ prime (a * b).
Proof.
  intros Ha Hb Hp. assert (Hd : (a | a * b)) by (exists b; ring).
  apply prime_divisors in Hd; auto. destruct Hd as [?|[?|[?|?]]]; nia.
Qed.

Ltac not_prime_tac a b H :=
  exfalso; refine (composite a b _ _ _); [lia|lia|exact H].

Fixpoint ge_pointwise (l bs : list Z) : Prop :=
  match l, bs with
  | x :: l, b :: bs => b <= x /\ ge_pointwise l bs
  | _, _ => True
  end.

Definition primes16 : list Z := [2;3;5;7;11;13;17;19;23;29;31;37;41;43;47;53].

Lemma next_prime_table :
  forall q, prime q ->
  (2 < q -> 3 <= q) /\ (3 < q -> 5 <= q) /\ (5 < q -> 7 <= q) /\ (7 < q -> 11 <= q) /\
  (11 < q -> 13 <= q) /\ (13 < q -> 17 <= q) /\ (17 < q -> 19 <= q) /\ (19 < q -> 23 <= q) /\
  (23 < q -> 29 <= q) /\ (29 < q -> 31 <= q) /\ (31 < q -> 37 <= q) /\ (37 < q -> 41 <= q) /\
  (41 < q -> 43 <= q) /\ (43 < q -> 47 <= q) /\ (47 < q -> 53 <= q).
Proof.
  intros q Hq.
  assert (E2 : forall k, 1 < k -> q <> 2 * k).
  { intros k Hk ->. now apply (composite 2 k). }
  assert (E3 : forall k, 1 < k -> q <> 3 * k).
  { intros k Hk ->. now apply (composite 3 k). }
  assert (E5 : forall k, 1 < k -> q <> 5 * k).
  { intros k Hk ->. now apply (composite 5 k). }
  assert (E7 : forall k, 1 < k -> q <> 7 * k).
  { intros k Hk ->. now apply (composite 7 k). }
  pose proof (E2 2). pose proof (E2 3). pose proof (E2 4). pose proof (E2 5). pose proof (E2 6).
  pose proof (E2 7). pose proof (E2 8). pose proof (E2 9). pose proof (E2 10). pose proof (E2 11).
  pose proof (E2 12). pose proof (E2 13). pose proof (E2 14). pose proof (E2 15). pose proof (E2 16).
  pose proof (E2 17). pose proof (E2 18). pose proof (E2 19). pose proof (E2 20). pose proof (E2 21).
  pose proof (E2 22). pose proof (E2 23). pose proof (E2 24). pose proof (E2 25). pose proof (E2 26).
  pose proof (E3 3). pose proof (E3 5). pose proof (E3 7). pose proof (E3 9). pose proof (E3 11).
  pose proof (E3 13). pose proof (E3 15). pose proof (E3 17). pose proof (E5 5). pose proof (E5 7).
  pose proof (E7 7). clear E2 E3 E5 E7.
  repeat split; intros; lia.
Qed.

Lemma primes_pointwise : forall bs b, 
  (forall q, prime q -> b < q -> match bs with [] => True | c :: _ => c <= q end) ->
  (forall pre c d post, bs = pre ++ c :: d :: post -> forall q, prime q -> c < q -> d <= q) ->
  forall l, StronglySorted Z.lt l -> Forall prime l -> (forall x, In x l -> b < x) ->
  ge_pointwise l bs.
Proof.
  induction bs as [|c bs IH]; intros b Hb Hbs l Hs Hp Hl; [destruct l; exact I|].
  destruct l as [|x l]; [exact I|]. cbn [ge_pointwise].
  inversion Hp as [|? ? Hx Hp']; subst.
  assert (Hcx : c <= x) by (apply (Hb x); auto; apply Hl; now left).
  split; [exact Hcx|].
  apply (IH c).
  - intros q Hq Hcq. destruct bs as [|d bs]; [exact I|].
    apply (Hbs [] c d bs eq_refl q Hq Hcq).
  - intros pre c' d post E. apply (Hbs (c :: pre) c' d post). cbn. now rewrite E.
  - now apply StronglySorted_inv in Hs.
  - exact Hp'.
  - intros y Hy. pose proof (sorted_in_gt x l y Hs Hy). lia.
Qed.

Lemma primes16_pointwise l :
  StronglySorted Z.lt l -> Forall prime l -> ge_pointwise l primes16.
Proof.
  intros Hs Hp. apply (primes_pointwise primes16 1); auto.
  - intros q Hq _. cbn. pose proof (prime_ge2 q Hq); lia.
  - intros pre c d post E q Hq Hcq.
    pose proof (next_prime_table q Hq) as T.
    unfold primes16 in E.
    do 15 (destruct pre as [|? pre]; [injection E; intros; subst; lia|];
           cbn [app] in E; apply (f_equal (@tl Z)) in E; cbn [tl] in E).
    destruct pre as [|? pre]; [discriminate E|]. destruct pre; discriminate E.
  - intros x Hx. rewrite Forall_forall in Hp. pose proof (prime_ge2 x (Hp x Hx)). lia.
Qed.

Lemma ge_pointwise_prod l bs :
  (forall b, In b bs -> 1 <= b) -> (length bs <= length l)%nat -> ge_pointwise l bs ->
  (forall x, In x l -> 1 <= x) -> prodl bs <= prodl l.
Proof.
  revert bs. induction l as [|x l IH]; intros bs Hb Hlen Hg Hl.
  - destruct bs; cbn in *; [lia|lia].
  - destruct bs as [|b bs].
    + cbn [prodl fold_right]. fold (prodl l).
      assert (1 <= prodl l).
      { clear -Hl. induction l as [|y l IH]; cbn [prodl fold_right]; [lia|]. fold (prodl l).
        assert (1 <= y) by (apply Hl; right; now left).
        assert (1 <= prodl l) by (apply IH; intros z [->|Hz]; apply Hl; [now left|right; now right]). nia. }
      assert (1 <= x) by (apply Hl; now left). nia.
    + cbn [ge_pointwise] in Hg. destruct Hg as [Hbx Hg].
      cbn [prodl fold_right]. fold (prodl l). fold (prodl bs).
      assert (prodl bs <= prodl l).
      { apply IH; auto.
        - intros c Hc; apply Hb; now right.
        - cbn in Hlen; lia.
        - intros y Hy; apply Hl; now right. }
      assert (1 <= b) by (apply Hb; now left).
      assert (1 <= prodl bs).
      { clear -Hb. induction bs as [|y l IH]; cbn [prodl fold_right]; [lia|]. fold (prodl l).
        assert (1 <= y) by (apply Hb; right; now left).
        assert (1 <= prodl l) by (apply IH; intros z [->|Hz]; apply Hb; [now left|right; now right]). nia. }
      nia.
Qed.

Lemma few_prime_factors N l :
  0 < N < 32589158477190044730 -> StronglySorted Z.lt l -> Forall prime l ->
  (forall q, In q l -> (q | N)) -> (length l <= 15)%nat.
Proof.
  intros HN Hs Hp Hd.
  destruct (Nat.le_gt_cases (length l) 15) as [|Hlen]; auto. exfalso.
  pose proof (prodl_divides N l Hs Hp Hd) as Hdiv.
  apply Z.divide_pos_le in Hdiv; [|lia].
  pose proof (ge_pointwise_prod l primes16) as H.
  assert (prodl primes16 <= prodl l).
  { apply H.
    - intros b Hb. cbn in Hb. repeat destruct Hb as [<-|Hb]; try lia. 
    - cbn [length primes16]. lia.
    - now apply primes16_pointwise.
    - intros x Hx. rewrite Forall_forall in Hp. pose proof (prime_ge2 x (Hp x Hx)); lia. }
  vm_compute (prodl primes16) in H0. lia.
Qed.

(** ** get_prime_factors *)

Lemma push_factor_ok l i : (length l <= 15)%nat -> push_factor l i = Ret (l ++ [i]).
Proof.
  intros H. unfold push_factor. replace (length l <? 16)%nat with true; auto.
  symmetry. apply Nat.ltb_lt. lia.
Qed.

Lemma sorted_snoc l i :
  StronglySorted Z.lt l -> (forall x, In x l -> x < i) -> StronglySorted Z.lt (l ++ [i]).
Proof.
  induction l as [|x l IH]; intros Hs Hi; cbn [app].
  - constructor; constructor.
  - apply StronglySorted_inv in Hs as [Hs Hf]. constructor.
    + apply IH; auto. intros y Hy; apply Hi; now right.
    + apply Forall_app; split; auto. constructor; auto. apply Hi; now left.
Qed.

Definition gpf_inv (n0 : Z) (s : Z * Z * list Z) : Prop :=
  let '(i, n, l) := s in
  3 <= i /\ Z.odd i = true /\ 0 < n /\ 2 * n <= n0 /\ 2 * ((i - 2) * (i - 2)) <= n0 /\
  StronglySorted Z.lt l /\ Forall prime l /\
  (forall x, In x l -> x < i) /\
  (forall q, prime q -> ((q | n0) <-> In q l \/ (q | n))) /\
  (forall q, prime q -> q < i -> ~ (q | n)).

Lemma get_prime_factors_spec M n :
  2 ^ 31 - 1 <= M -> 0 < n <= M -> n < 2 ^ 64 -> (2 | n) ->
  exists l, get_prime_factors M n = Ret l /\ StronglySorted Z.lt l /\ (length l <= 15)%nat /\
            (forall q, In q l <-> prime q /\ (q | n)).
Proof.
  intros HM Hn H64 H2. change (2 ^ 31) with 2147483648 in HM.
  change (2 ^ 64) with 18446744073709551616 in H64.
  unfold get_prime_factors.
  replace (Z.rem n 2 =? 0) with true by (symmetry; apply divide_rem; auto; lia).
  cbn [assert_ bind]. rewrite push_factor_ok by (cbn; lia). cbn [app bind].
  destruct (divide_out_spec (bits n) 2 n ltac:(lia)) as (n1 & a & -> & Hn1 & H2n & Ha & En); auto.
  { split; [lia|]. apply bits_ok; lia. }
  cbn [bind].
  assert (Hspec : forall q, prime q -> ((q | n) <-> In q [2] \/ (q | n1))).
  { intros q Hq. split.
    - intros Hd. rewrite En in Hd. apply prime_mult in Hd; auto. destruct Hd as [Hd|Hd]; [now right|].
      left. apply prime_divide_pow in Hd; auto; [|lia].
      apply prime_div_prime in Hd; auto using prime_2. left; lia.
    - intros [[<-|[]]|Hd]; auto. rewrite En. now apply Z.divide_mul_l. }
  assert (Hn1' : 2 * n1 <= n).
  { assert (2 ^ 1 <= 2 ^ a) by (apply Z.pow_le_mono_r; lia). change (2 ^ 1) with 2 in *. nia. }
  assert (Hsorted2 : StronglySorted Z.lt [2]) by (repeat constructor).
  assert (Hlen : forall l, StronglySorted Z.lt l -> Forall prime l ->
                 (forall q, In q l -> (q | n)) -> (length l <= 15)%nat).
  { intros l Hs Hp Hd. apply (few_prime_factors n); auto. lia. }
  destruct (n1 =? 1) eqn:E1.
  { apply Z.eqb_eq in E1. subst n1. exists [2].
    split; [reflexivity|]. split; [exact Hsorted2|]. split; [cbn; lia|].
    intros q. split.
    - intros [<-|[]]. split; [apply prime_2|auto].
    - intros [Hq Hd]. apply Hspec in Hd; auto. destruct Hd as [Hd|Hd]; auto.
      apply Z.divide_1_r_nonneg in Hd; pose proof (prime_ge2 q Hq); lia. }
  apply Z.eqb_neq in E1.
  assert (Hinit : gpf_inv n (3, n1, [2])).
  { unfold gpf_inv. split; [lia|]. split; [reflexivity|]. split; [lia|]. split; [lia|].
    split; [lia|]. split; [auto|]. split; [constructor; [apply prime_2|constructor]|].
    split; [intros x [<-|[]]; lia|]. split; [exact Hspec|].
    intros q Hq Hq3 Hd. assert (q = 2) by (pose proof (prime_ge2 q Hq); lia). subst. auto. }
  destruct (oloop_rule (gpf_body M) (gpf_inv n) (fun s => n + 2 - fst (fst s))
     (fun r => let '(n2, l) := r in exists i, gpf_inv n (i, n2, l) /\ n2 < i * i)
     (bits n) (3, n1, [2])) as ([n2 l] & Hr & i & Hinv & Hii); [|exact Hinit| |].
  { intros [[i m] l] (Hi & Ho & Hm & Hmn & Hin & Hs & Hp & Hl & Hd & Hq). unfold gpf_body.
    assert (Hiub : i < M - 2 /\ i * i <= M).
    { destruct (Z_le_gt_dec i 1000); [nia|]. nia. }
    rewrite ck_ok by nia. cbn [obind].
    destruct (i * i <=? m) eqn:Eii.
    2:{ apply Z.leb_gt in Eii. eexists; split; [reflexivity|].
        exists i. split; [|lia]. repeat (split; [assumption|]). assumption. }
    apply Z.leb_le in Eii.
    assert (Ho2 : Z.odd (i + 2) = true).
    { rewrite Z.odd_add, Ho. reflexivity. }
    destruct (Z.rem m i =? 0) eqn:Er.
    - apply divide_rem in Er; [|lia].
      assert (Hip : prime i) by (apply (least_divisor_prime i m); auto; lia).
      assert (Hin0 : (i | n)) by (apply Hd; auto).
      assert (Hlen' : (length l <= 14)%nat).
      { assert (length (l ++ [i]) <= 15)%nat.
        { apply Hlen.
          - now apply sorted_snoc.
          - apply Forall_app; split; auto.
          - intros q Hql. apply in_app_or in Hql as [Hql|[<-|[]]]; auto.
            rewrite Forall_forall in Hp. apply Hd; auto. }
        rewrite app_length in H. cbn in H. lia. }
      rewrite push_factor_ok by lia. cbn [obind].
      destruct (divide_out_spec (bits m) i m ltac:(lia)) as (m' & b & -> & Hm' & Him' & Hb & Em); auto.
      { split; [lia|apply bits_ok; lia]. }
      cbn [obind]. rewrite ck_ok by lia. cbn [obind fst].
      split; [|nia]. unfold gpf_inv.
      assert (Hdm : (m' | m)) by (exists (i ^ b); rewrite Em; ring).
      split; [lia|]. split; [auto|]. split; [lia|]. split; [lia|]. split; [nia|].
      split; [now apply sorted_snoc|]. split; [apply Forall_app; split; auto|].
      split. { intros x Hx. apply in_app_or in Hx as [Hx|[<-|[]]]; [|lia]. apply Hl in Hx; lia. }
      split.
      { intros q Hqp. rewrite (Hd q Hqp). rewrite in_app_iff. split.
        - intros [Hql|Hqm]; [now left; left|]. rewrite Em in Hqm. apply prime_mult in Hqm; auto.
          destruct Hqm as [Hqm|Hqm]; [now right|]. left; right.
          apply prime_divide_pow in Hqm; auto; [|lia]. apply prime_div_prime in Hqm; auto. now left.
        - intros [[Hql|[<-|[]]]|Hqm]; auto. right. eapply Z.divide_trans; eauto. }
      apply no_prime_step; auto. intros q Hqp Hqi Hqm. apply (Hq q Hqp Hqi).
      eapply Z.divide_trans; eauto.
    - apply divide_rem_false in Er; [|lia]. rewrite ck_ok by lia. cbn [obind fst].
      split; [|nia]. unfold gpf_inv.
      split; [lia|]. split; [auto|]. split; [lia|]. split; [lia|]. split; [nia|].
      split; [auto|]. split; [auto|]. split; [intros x Hx; apply Hl in Hx; lia|].
      split; [auto|]. apply no_prime_step; auto. }
  { cbn [fst]. split; [lia|]. apply bits_ok; lia. }
  rewrite Hr. cbn [bind].
  destruct Hinv as (Hi & Ho & Hm & Hmn & Hin & Hs & Hp & Hl & Hd & Hq).
  destruct (n2 =? 1) eqn:E2.
  - apply Z.eqb_eq in E2. subst n2. exists l. split; [reflexivity|]. split; [auto|].
    assert (HF : forall q, In q l <-> prime q /\ (q | n)).
    { intros q. split.
      + intros Hql. rewrite Forall_forall in Hp. split; auto. apply Hd; auto.
      + intros [Hqp Hqn]. apply Hd in Hqn; auto. destruct Hqn as [|Hqn]; auto.
        apply Z.divide_1_r_nonneg in Hqn; pose proof (prime_ge2 q Hqp); lia. }
    split; [|exact HF]. apply Hlen; auto. intros q Hql. now apply HF.
  - apply Z.eqb_neq in E2.
    assert (Hn2 : prime n2) by (apply (no_small_divisor_prime i n2); auto; lia).
    assert (Hn2i : i <= n2).
    { destruct (Z_le_gt_dec i n2); auto. exfalso. apply (Hq n2 Hn2 ltac:(lia)). apply Z.divide_refl. }
    assert (Hs2 : StronglySorted Z.lt (l ++ [n2])).
    { apply sorted_snoc; auto. intros x Hx; apply Hl in Hx; lia. }
    assert (HF : forall q, In q (l ++ [n2]) <-> prime q /\ (q | n)).
    { intros q. rewrite in_app_iff. split.
      + intros [Hql|[<-|[]]].
        * rewrite Forall_forall in Hp. split; auto. apply Hd; auto.
        * split; auto. apply Hd; auto. right. apply Z.divide_refl.
      + intros [Hqp Hqn]. apply Hd in Hqn; auto. destruct Hqn as [|Hqn]; auto.
        right. left. apply prime_div_prime in Hqn; auto. }
    assert (HL : (length (l ++ [n2]) <= 15)%nat).
    { apply Hlen; auto.
      - apply Forall_app; split; auto.
      - intros q Hql. now apply HF. }
    exists (l ++ [n2]).
    split; [apply push_factor_ok; rewrite app_length in HL; cbn in HL; lia|].
    auto.
Qed.

(** ** find_generator *)

Lemma StronglySorted_NoDup l : StronglySorted Z.lt l -> NoDup l.
Proof.
  induction l as [|x l IH]; intros H; [constructor|].
  constructor.
  - intros Hin. pose proof (sorted_in_gt x l x H Hin). lia.
  - apply IH. now apply StronglySorted_inv in H.
Qed.

Lemma find_generator_spec M p :
  2 ^ 31 - 1 <= M -> M < 2 ^ 64 -> prime p -> p <= M ->
  exists g, find_generator M p = Ret g /\ primitive_root p g.
Proof.
  intros HM HM64 Hp HpM. pose proof (prime_ge2 p Hp) as H2.
  assert (HM' := HM). change (2 ^ 31) with 2147483648 in HM'.
  unfold find_generator. rewrite ck_ok by lia. cbn [bind].
  destruct (p =? 2) eqn:E2.
  { apply Z.eqb_eq in E2. subst p. exists 1. split; [reflexivity|].
    apply primitive_root_test; auto; [lia|].
    intros q Hq Hd. apply Z.divide_1_r_nonneg in Hd; pose proof (prime_ge2 q Hq); lia. }
  apply Z.eqb_neq in E2.
  assert (Heven : (2 | p - 1)).
  { destruct (Z.Even_or_Odd p) as [(c & Hc)|(c & Hc)].
    - exfalso. assert (H : (2 | p)) by (exists c; lia).
      apply prime_div_prime in H; auto using prime_2; lia.
    - exists c; lia. }
  destruct (get_prime_factors_spec M (p - 1)) as (l & -> & Hs & Hlen & Hl); auto; try lia.
  cbn [bind].
  destruct (primroot_list p Hp l (StronglySorted_NoDup l Hs)) as (g0 & Hg0 & Hg1 & _).
  { intros q Hq. now apply Hl. }
  assert (Hg0' : 2 <= g0 < p).
  { destruct (Z.eq_dec g0 1) as [->|]; [|lia]. exfalso.
    apply (Hg1 2); [apply Hl; split; auto using prime_2|].
    rewrite Z.pow_1_l; [apply Z.mod_1_l; lia|]. apply Z.div_pos; lia. }
  assert (Hlen2 : (1 <= length l)%nat).
  { assert (In 2 l) by (apply Hl; split; auto using prime_2). destruct l; [contradiction|cbn; lia]. }
  set (len := Z.of_nat (length l)).
  destruct (oloop_rule (gen_body M p (p - 1) l)
     (fun s => let '(i, n) := s in (i <= length l)%nat /\ 2 <= n <= g0 /\
        forall j, (j < i)%nat -> n ^ ((p - 1) / nth j l 0) mod p <> 1)
     (fun s => let '(i, n) := s in (g0 - n) * (len + 1) + (len - Z.of_nat i))
     (fun n => primitive_root p n) (bits (20 * p)) (0%nat, 2)) as (g & Hg & Hpr).
  - intros [i n] (Hi & Hn & Hj). unfold gen_body.
    destruct (i <? length l)%nat eqn:Ei.
    + apply Nat.ltb_lt in Ei.
      assert (Hin : In (nth i l 0) l) by (apply nth_In; auto).
      assert (Hq := proj1 (Hl _) Hin). destruct Hq as [Hqp Hqd].
      pose proof (prime_ge2 _ Hqp) as Hq2.
      rewrite Z.quot_div_nonneg by lia.
      assert (Hnn : 0 <= (p - 1) / nth i l 0) by (apply Z.div_pos; lia).
      rewrite power_mod_spec by lia. cbn [obind].
      destruct (n ^ ((p - 1) / nth i l 0) mod p =? 1) eqn:Ev.
      * apply Z.eqb_eq in Ev.
        assert (n <> g0). { intros ->. apply (Hg1 _ Hin). exact Ev. }
        rewrite ck_ok by lia. cbn [obind]. split.
        { repeat split; try lia. }
        { unfold len. change (Z.of_nat 0) with 0. nia. }
      * apply Z.eqb_neq in Ev. split.
        { repeat split; try lia. intros j Hji.
          destruct (Nat.eq_dec j i) as [->|]; auto. apply Hj; lia. }
        { unfold len. rewrite Nat2Z.inj_succ. nia. }
    + apply Nat.ltb_ge in Ei. eexists; split; [reflexivity|].
      apply primitive_root_test; auto; [lia|]. intros q Hq Hd.
      assert (Hin : In q l) by (apply Hl; auto).
      apply (In_nth l q 0) in Hin as (j & Hjl & <-). apply Hj. lia.
  - repeat split; try lia.
  - change (Z.of_nat 0) with 0. unfold len. split; [nia|]. apply bits_ok. nia.
  - exists g. auto.
Qed.

(** ** first_divisor, is_prime, next_prime *)

(** No overflow happens as long as (i+2)^2 fits for the largest candidate i;
    [n <= M - 4 * sqrt M - 4] is a sufficient bound, stated without a square root. *)
Definition fd_safe (M n : Z) : Prop := exists r, 0 <= r /\ n < r * r /\ (r + 1) * (r + 1) <= M.

Lemma first_divisor_spec M n : 2 ^ 31 - 1 <= M -> n <= M -> fd_safe M n ->
  exists d, first_divisor M n = Ret d /\
    (n <= 1 -> d = n) /\
    (1 < n -> prime d /\ (d | n) /\ forall q, prime q -> (q | n) -> d <= q).
Proof.
  intros HM HnM (r & Hr & Hnr & HrM). change (2 ^ 31) with 2147483648 in HM.
  unfold first_divisor. destruct (n <=? 1) eqn:E1.
  { apply Z.leb_le in E1. exists n. repeat split; auto; lia. }
  apply Z.leb_gt in E1. destruct (Z.rem n 2 =? 0) eqn:E2.
  { apply divide_rem in E2; [|lia]. exists 2. split; [reflexivity|]. split; [lia|].
    intros _. split; [apply prime_2|]. split; auto. intros q Hq _. apply prime_ge2; auto. }
  apply divide_rem_false in E2; [|lia].
  destruct (oloop_rule (fd_body M n)
     (fun i => 3 <= i /\ Z.odd i = true /\ (i - 2) * (i - 2) <= n /\ forall q, prime q -> q < i -> ~ (q | n))
     (fun i => n + 2 - i)
     (fun d => prime d /\ (d | n) /\ forall q, prime q -> (q | n) -> d <= q) (bits n) 3) as (d & Hd & Hspec).
  - intros i (Hi & Ho & Hin & Hq). unfold fd_body.
    assert (Hir : i <= r + 1) by nia.
    assert (i * i <= M) by nia.
    rewrite ck_ok by nia. cbn [obind].
    destruct (i * i <=? n) eqn:Eii.
    + apply Z.leb_le in Eii.
      destruct (Z.rem n i =? 0) eqn:Er.
      * apply divide_rem in Er; [|lia]. eexists; split; [reflexivity|].
        split; [apply (least_divisor_prime i n); auto; lia|]. split; auto.
        intros q Hqp Hqd. destruct (Z_le_gt_dec i q); auto. exfalso. apply (Hq q Hqp ltac:(lia) Hqd).
      * apply divide_rem_false in Er; [|lia]. rewrite ck_ok by nia. cbn [obind].
        split; [|nia]. split; [lia|]. split; [rewrite Z.odd_add, Ho; reflexivity|].
        split; [nia|]. apply no_prime_step; auto.
    + apply Z.leb_gt in Eii. eexists; split; [reflexivity|].
      assert (Hnp : prime n) by (apply (no_small_divisor_prime i n); auto; lia).
      split; auto. split; [apply Z.divide_refl|].
      intros q Hqp Hqd. apply prime_div_prime in Hqd; auto. lia.
  - split; [lia|]. split; [reflexivity|]. split; [lia|].
    intros q Hq Hq3 Hd. assert (q = 2) by (pose proof (prime_ge2 q Hq); lia). subst; auto.
  - split; [lia|apply bits_ok; lia].
  - exists d. split; auto. split; [lia|auto].
Qed.

Lemma is_prime_spec M n : 2 ^ 31 - 1 <= M -> n <= M -> fd_safe M n ->
  exists b, is_prime M n = Ret b /\ (b = true <-> prime n).
Proof.
  intros HM HnM Hs. unfold is_prime. destruct (n >? 1) eqn:E.
  - rewrite Z.gtb_ltb in E; apply Z.ltb_lt in E.
    destruct (first_divisor_spec M n HM HnM Hs) as (d & -> & _ & Hd). cbn [bind].
    destruct (Hd ltac:(lia)) as (Hdp & Hdn & Hmin).
    eexists; split; [reflexivity|]. rewrite Z.eqb_eq. split.
    + intros <-; auto.
    + intros Hn. apply prime_div_prime in Hdn; auto.
  - rewrite Z.gtb_ltb in E; apply Z.ltb_ge in E. exists false. split; auto.
    split; [discriminate|]. intros H. pose proof (prime_ge2 n H). lia.
Qed.

Lemma fd_safe_mono M n m : m <= n -> fd_safe M n -> fd_safe M m.
Proof. intros H (r & Hr & H1 & H2). exists r. repeat split; lia. Qed.

(** next_prime returns the least prime >= n, given some prime q >= n below the
    overflow limit (k iterations bits suffice to reach it). *)
Lemma next_prime_spec M n q k : 2 ^ 31 - 1 <= M -> q <= M -> fd_safe M q -> prime q -> n <= q ->
  - M - 1 <= n -> q - n < 2 ^ Z.of_nat k ->
  exists r, next_prime k M n = Ret r /\ prime r /\ n <= r <= q /\ forall s, prime s -> n <= s -> r <= s.
Proof.
  intros HM HqM Hs Hq Hnq HnM Hk. unfold next_prime.
  destruct (oloop_rule
     (fun n => b <~ is_prime M n ;; if b then Done (Ret n) else (n' <~ ck M (n + 1) ;; Cont n'))
     (fun m => n <= m <= q /\ forall s, prime s -> n <= s -> m <= s)
     (fun m => q - m)
     (fun r => prime r /\ n <= r <= q /\ forall s, prime s -> n <= s -> r <= s) k n) as (r & Hr & H).
  - intros m (Hm & Hmin).
    destruct (is_prime_spec M m HM ltac:(lia) (fd_safe_mono M q m ltac:(lia) Hs)) as (b & -> & Hb).
    cbn [obind]. destruct b.
    + eexists; split; [reflexivity|]. split; [now apply Hb|]. split; [lia|auto].
    + assert (Hnp : ~ prime m) by (intros Hx; apply Hb in Hx; discriminate).
      assert (m <> q) by (intros ->; auto).
      rewrite ck_ok by lia. cbn [obind]. split; [|lia]. split; [lia|].
      intros s Hs' Hns. specialize (Hmin s Hs' Hns).
      assert (m <> s) by (intros ->; auto). lia.
  - split; [lia|auto].
  - lia.
  - exists r; auto.
Qed.

(** ** factors_into *)

Inductive smooth (ps : list Z) : Z -> Prop :=
| smooth_1 : smooth ps 1
| smooth_mul q n : In q ps -> smooth ps n -> smooth ps (q * n).

Lemma smooth_mono ps ps' n : incl ps ps' -> smooth ps n -> smooth ps' n.
Proof. intros H. induction 1; constructor; auto. Qed.

Lemma smooth_pos ps n : Forall prime ps -> smooth ps n -> 0 < n.
Proof.
  intros H. induction 1 as [|q n Hq Hs IH]; [lia|].
  rewrite Forall_forall in H. pose proof (prime_ge2 q (H q Hq)). nia.
Qed.

Lemma smooth_prime_div ps n q : Forall prime ps -> smooth ps n -> prime q -> (q | n) -> In q ps.
Proof.
  intros H Hs Hq. induction Hs as [|r n Hr Hs IH]; intros Hd.
  - apply Z.divide_1_r_nonneg in Hd; pose proof (prime_ge2 q Hq); lia.
  - apply prime_mult in Hd; auto. destruct Hd as [Hd|Hd]; auto.
    rewrite Forall_forall in H. apply prime_div_prime in Hd; auto. now subst.
Qed.

Lemma smooth_pow ps q a n : In q ps -> 0 <= a -> smooth ps n -> smooth ps (n * q ^ a).
Proof.
  intros Hq Ha Hs. pattern a. apply natlike_ind; [| |exact Ha].
  - rewrite Z.pow_0_r, Z.mul_1_r. auto.
  - intros b Hb IH. rewrite Z.pow_succ_r by lia.
    replace (n * (q * q ^ b)) with (q * (n * q ^ b)) by ring. now constructor.
Qed.

Lemma smooth_div ps q n : Forall prime ps -> In q ps -> smooth ps (q * n) -> smooth ps n.
Proof.
  intros H Hq Hs. remember (q * n) as m eqn:E. revert q n Hq E.
  rewrite Forall_forall in H.
  induction Hs as [|r m Hr Hs IH]; intros q n Hq E.
  - pose proof (prime_ge2 q (H q Hq)). exfalso. assert (q = 1) by (apply Z.divide_1_r_nonneg; [lia|exists n; lia]). lia.
  - pose proof (prime_ge2 q (H q Hq)). pose proof (prime_ge2 r (H r Hr)).
    destruct (Z.eq_dec q r) as [->|Hne].
    + assert (m = n) by nia. now subst.
    + assert (Hd : (q | r * m)) by (exists n; lia).
      apply prime_mult in Hd; [|now apply H]. destruct Hd as [Hd|(c & Hc)].
      * apply prime_div_prime in Hd; auto; congruence.
      * assert (n = r * c) by nia. subst n. constructor; auto. apply (IH q c); auto. lia.
Qed.

Lemma strip_spec k q n : 2 <= q -> 0 < n < 2 ^ Z.of_nat k ->
  exists n' a, strip k q n = Ret n' /\ 0 < n' <= n /\ 0 <= a /\ n = n' * q ^ a /\ ~ (q | n').
Proof.
  intros Hq Hn. unfold strip.
  destruct (oloop_rule (fun n => if Z.rem n q =? 0 then Cont (Z.quot n q) else Done (Ret n))
    (fun m => 0 < m <= n /\ exists a, 0 <= a /\ n = m * q ^ a) (fun m => m)
    (fun m => 0 < m <= n /\ ~ (q | m) /\ exists a, 0 <= a /\ n = m * q ^ a) k n)
    as (n' & Hr & H1 & H2 & a & H3 & H4).
  - intros m (Hm & a & Ha & E). destruct (Z.rem m q =? 0) eqn:Er.
    + apply divide_rem in Er; [|lia]. destruct Er as (c & Hc).
      assert (Hqc : Z.quot m q = c). { rewrite Hc. apply Z.quot_mul; lia. }
      rewrite Hqc. assert (0 < c < m) by nia. split; [|lia]. split; [lia|].
      exists (a + 1). split; [lia|]. rewrite Z.pow_add_r, Z.pow_1_r by lia. nia.
    + apply divide_rem_false in Er; [|lia]. eexists; split; [reflexivity|].
      split; [lia|]. split; auto. exists a; auto.
  - split; [lia|]. exists 0. rewrite Z.pow_0_r. lia.
  - lia.
  - exists n', a. repeat split; auto; lia.
Qed.

Lemma factors_into_loop_spec k ps : Forall prime ps -> forall n, 0 < n < 2 ^ Z.of_nat k ->
  exists r, factors_into_loop k n ps = Ret r /\ 0 < r /\ (r = 1 <-> smooth ps n).
Proof.
  intros Hps n Hn.
  assert (G : forall ps, Forall prime ps -> forall n, 0 < n < 2 ^ Z.of_nat k ->
    exists r s, factors_into_loop k n ps = Ret r /\ 0 < r /\ n = r * s /\ smooth ps s /\
       (forall q, In q ps -> ~ (q | r))).
  { clear. induction ps as [|q ps IH]; intros Hps n Hn.
    - exists n, 1. cbn. split; [auto|]. split; [lia|]. split; [lia|]. split; [constructor|intros ? []].
    - inversion Hps as [|? ? Hq Hps']; subst. pose proof (prime_ge2 q Hq).
      destruct (strip_spec k q n ltac:(lia) Hn) as (n' & a & Hr & Hn' & Ha & E & Hnd).
      destruct (IH Hps' n' ltac:(lia)) as (r & s & Hr2 & Hr0 & E2 & Hs & Hndr).
      exists r, (s * q ^ a). cbn [factors_into_loop]. rewrite Hr. cbn [bind].
      split; auto. split; auto. split; [rewrite E, E2; ring|].
      split; [apply smooth_pow; [now left|lia|]; apply (smooth_mono ps); auto; intros x Hx; now right|].
      intros q0 [<-|Hq0]; auto. intros Hd. apply Hnd. rewrite E2. now apply Z.divide_mul_l. }
  destruct (G ps Hps n Hn) as (r & s & Hr & Hr0 & E & Hs & Hnd).
  exists r. split; auto. split; auto. split.
  - intros ->. rewrite E, Z.mul_1_l. auto.
  - intros Hsm. destruct (Z.eq_dec r 1); auto. exfalso.
    destruct (prime_divisor_exists r ltac:(lia)) as (q & Hq & Hqr).
    apply (Hnd q); auto. apply (smooth_prime_div ps n q); auto.
    rewrite E. now apply Z.divide_mul_l.
Qed.

Lemma factors_into_spec n ps : 0 < n -> Forall prime ps ->
  exists b, factors_into n ps = Ret b /\ (b = true <-> smooth ps n).
Proof.
  intros Hn Hps. unfold factors_into.
  destruct (factors_into_loop_spec (bits (Z.abs n)) ps Hps n) as (r & -> & Hr & Hs).
  { split; [lia|]. apply bits_ok; lia. }
  cbn [bind]. eexists; split; [reflexivity|]. rewrite Z.eqb_eq. exact Hs.
Qed.

(** ** isqrt *)

Lemma isqrt_spec M n : 0 <= n < M -> exists g, isqrt M n = Ret g /\ 0 <= g /\ g * g <= n < (g + 1) * (g + 1).
Proof.
  intros Hn. unfold isqrt.
  replace (n >=? 0) with true by (symmetry; rewrite Z.geb_leb; apply Z.leb_le; lia).
  cbn [assert_ bind]. destruct (n =? 0) eqn:E.
  { apply Z.eqb_eq in E. subst. exists 0. repeat split; auto; lia. }
  apply Z.eqb_neq in E.
  (* loop-head invariant: iguess = n / guess, guess >= floor sqrt, guess <= n *)
  destruct (oloop_rule (isqrt_body M n)
     (fun s => let '(g, ig) := s in 1 <= g <= n /\ ig = n / g /\ n < (g + 1) * (g + 1) /\ (ig < g \/ (g = n /\ ig = 1)))
     (fun s => fst s)
     (fun g => 0 <= g /\ g * g <= n < (g + 1) * (g + 1)) (bits (2 * n + 2)) (n, 1)) as (g & Hg & H).
  - intros [g ig] (Hg & -> & Hlb & Hdec). unfold isqrt_body.
    pose proof (Z.div_mod n g ltac:(lia)) as Hdm. pose proof (Z.mod_pos_bound n g ltac:(lia)).
    set (q := n / g) in *.
    assert (Hq : 1 <= q) by nia.
    assert (Hsum : g + q <= n + 1).
    { nia. }
    rewrite ck_ok by lia. cbn [obind].
    rewrite Z.quot_div_nonneg by lia.
    pose proof (Z.div_mod (g + q) 2 ltac:(lia)) as Hdm2.
    pose proof (Z.mod_pos_bound (g + q) 2 ltac:(lia)).
    set (h := (g + q) / 2) in *.
    assert (Hh : 1 <= h) by lia.
    replace (h =? 0) with false by (symmetry; apply Z.eqb_neq; lia).
    rewrite Z.quot_div_nonneg by lia.
    pose proof (Z.div_mod n h ltac:(lia)) as Hdm3.
    pose proof (Z.mod_pos_bound n h ltac:(lia)).
    set (iq := n / h) in *.
    (* AM-GM: (h+1)^2 > n *)
    assert (Ham : n < (h + 1) * (h + 1)).
    { assert (n < g * (q + 1)) by nia.
      assert (g + q + 1 <= 2 * (h + 1)) by lia.
      assert (4 * (g * (q + 1)) <= (g + (q + 1)) * (g + (q + 1))).
      { assert (0 <= (g - (q + 1)) * (g - (q + 1))) by apply Z.square_nonneg. nia. }
      nia. }
    destruct (h >? iq) eqn:Eh.
    + rewrite Z.gtb_ltb in Eh; apply Z.ltb_lt in Eh. cbn [fst].
      assert (h < g).
      { destruct Hdec as [H'|[H' H'']]; [lia|]. nia. }
      split; [|lia]. split; [lia|]. split; [reflexivity|]. split; [exact Ham|]. left. exact Eh.
    + rewrite Z.gtb_ltb in Eh; apply Z.ltb_ge in Eh. eexists; split; [reflexivity|].
      split; [lia|]. split; [nia|exact Ham].
  - split; [lia|]. split; [symmetry; apply Z.div_same; lia|]. split; [nia|]. right. auto.
  - cbn [fst]. split; [lia|]. apply bits_ok; lia.
  - exists g; auto.
Qed.

(** ** choose_radix, modulo *)

Lemma isqrt_maybe_spec M n : 0 <= n < M ->
  exists g, isqrt_maybe M n = Ret g /\ 0 <= g /\ (g <> 0 -> g * g = n) /\ (forall s, 0 <= s -> s * s = n -> g = s).
Proof.
  intros Hn. unfold isqrt_maybe. destruct (isqrt_spec M n Hn) as (g & -> & Hg & Hb). cbn [bind].
  rewrite ck_ok by nia. cbn [bind]. destruct (g * g =? n) eqn:E.
  - apply Z.eqb_eq in E. exists g. repeat split; auto. intros s Hs Es. destruct (Z.lt_trichotomy g s) as [?|[?|?]]; nia.
  - apply Z.eqb_neq in E. exists 0. repeat split; auto; try lia. intros s Hs Es. exfalso. assert (g = s); [|nia]. destruct (Z.lt_trichotomy g s) as [?|[?|?]]; nia.
Qed.

Lemma choose_radix_spec M r n :
  2 ^ 31 - 1 <= M -> 1 <= n < M -> fd_safe M n -> - M <= r ->
  exists d, choose_radix M r n = Ret d /\
    (0 < r -> (d = r /\ (r | n)) \/ (d = 0 /\ ~ (r | n))) /\
    (r = 0 -> 1 < n -> prime d /\ (d | n) /\ forall q, prime q -> (q | n) -> d <= q) /\
    (r < 0 -> (1 < d /\ n = (- r) * (d * d)) \/ (d = 0 /\ forall q, 1 < q -> n <> (- r) * (q * q))) /\
    (d = 0 \/ (0 < d /\ (d | n))).
Proof.
  intros HM Hn Hs Hr. unfold choose_radix. destruct (r >? 0) eqn:E.
  - rewrite Z.gtb_ltb in E; apply Z.ltb_lt in E. unfold divides.
    eexists; split; [reflexivity|]. destruct (Z.rem n r =? 0) eqn:Er.
    + apply divide_rem in Er; [|lia]. split; [intros _; now left|]. split; [lia|]. split; [lia|]. right; auto.
    + apply divide_rem_false in Er; [|lia]. split; [intros _; now right|]. split; [lia|]. split; [lia|]. now left.
  - rewrite Z.gtb_ltb in E; apply Z.ltb_ge in E. destruct (r =? 0) eqn:E0.
    + apply Z.eqb_eq in E0. subst r.
      destruct (first_divisor_spec M n HM ltac:(lia) Hs) as (d & -> & H1 & H2).
      exists d. split; [reflexivity|]. split; [lia|]. split; [auto|]. split; [lia|].
      right. destruct (Z.eq_dec n 1) as [->|].
      * rewrite H1 by lia. split; [lia|apply Z.divide_refl].
      * destruct (H2 ltac:(lia)) as (Hp & Hd & _). split; auto. pose proof (prime_ge2 d Hp); lia.
    + apply Z.eqb_neq in E0. change (0 - r) with (- r). rewrite ck_ok by lia. cbn [bind].
      unfold divides. destruct ((n >? - r) && (Z.rem n (- r) =? 0)) eqn:Ec.
      * apply andb_prop in Ec as [Ec1 Ec2]. rewrite Z.gtb_ltb in Ec1; apply Z.ltb_lt in Ec1.
        apply divide_rem in Ec2; [|lia]. destruct Ec2 as (c & Hc).
        assert (Hq : Z.quot n (- r) = c) by (rewrite Hc; apply Z.quot_mul; lia).
        rewrite Hq. assert (1 < c) by nia. assert (c <= n) by nia.
        destruct (isqrt_maybe_spec M c ltac:(lia)) as (g & -> & Hg & Hg1 & Hg2).
        exists g. split; [reflexivity|]. split; [lia|]. split; [lia|].
        destruct (Z.eq_dec g 0) as [->|Hgn].
        -- split; [|now left]. intros _. right. split; auto. intros q Hq1 Eq.
           assert (c = q * q) by nia. specialize (Hg2 q ltac:(lia) ltac:(lia)). lia.
        -- specialize (Hg1 Hgn). split.
           ++ intros _. left. split; [nia|]. nia.
           ++ right. split; [lia|]. exists (g * - r). nia.
      * eexists; split; [reflexivity|]. split; [lia|]. split; [lia|]. split; [|now left].
        intros _. right. split; auto. intros q Hq1 Eq.
        apply andb_false_iff in Ec as [Ec|Ec].
        -- rewrite Z.gtb_ltb in Ec; apply Z.ltb_ge in Ec. assert (4 <= q * q) by nia. nia.
        -- apply divide_rem_false in Ec; [|lia]. apply Ec. exists (q * q). lia.
Qed.

Lemma modulo_spec M a n : 0 < n <= M -> - M - 1 <= a <= M -> modulo M a n = Ret (a mod n).
Proof.
  intros Hn Ha. unfold modulo.
  replace (n >? 0) with true by (symmetry; rewrite Z.gtb_ltb; apply Z.ltb_lt; lia).
  cbn [assert_ bind]. destruct (a >=? 0) eqn:E.
  - rewrite Z.geb_leb in E; apply Z.leb_le in E. rewrite Z.rem_mod_nonneg by lia. reflexivity.
  - rewrite Z.geb_leb in E; apply Z.leb_gt in E.
    rewrite (ck_ok M (a + 1)) by lia. cbn [bind]. rewrite (ck_ok M (- (a + 1))) by lia. cbn [bind].
    rewrite (ck_ok M (n - 1)) by lia. cbn [bind].
    rewrite Z.rem_mod_nonneg by lia.
    pose proof (Z.mod_pos_bound (- (a + 1)) n ltac:(lia)).
    rewrite ck_ok by lia. f_equal.
    pose proof (Z.div_mod (- (a + 1)) n ltac:(lia)).
    apply Z.mod_unique with (- ((- (a + 1)) / n) - 1); [left; lia|]. nia.
Qed.

(** ** Boundary behaviour: where the C code does overflow *)

(** isqrt(INT_MAX) computes INT_MAX + 1. *)
Lemma isqrt_overflow M : 0 < M -> isqrt M M = UB.
Proof.
  intros HM. unfold isqrt.
  replace (M >=? 0) with true by (symmetry; rewrite Z.geb_leb; apply Z.leb_le; lia).
  cbn [assert_ bind]. replace (M =? 0) with false by (symmetry; apply Z.eqb_neq; lia).
  assert (H : forall k, loop k (isqrt_body M M) (M, 1) = Done UB).
  { induction k as [|k IH]; cbn [loop].
    - unfold isqrt_body. unfold ck at 1.
      replace (M + 1 <=? M) with false by (symmetry; apply Z.leb_gt; lia).
      rewrite andb_false_r. reflexivity.
    - rewrite IH. reflexivity. }
  unfold oloop. now rewrite H.
Qed.

(** trial division of a prime n whose square root is too close to the largest
    square that fits overflows in  i*i <= n *)
Lemma first_divisor_overflow M n : prime n -> 2 < n <= M ->
  (exists r, Z.odd r = true /\ 3 <= r /\ (r - 2) * (r - 2) <= n /\ M < r * r) ->
  first_divisor M n = UB.
Proof.
  intros Hp Hn (r & Hro & Hr3 & Hr1 & Hr2). unfold first_divisor.
  replace (n <=? 1) with false by (symmetry; apply Z.leb_gt; lia).
  replace (Z.rem n 2 =? 0) with false.
  2:{ symmetry. apply divide_rem_false; [lia|]. intros H. apply prime_div_prime in H; auto using prime_2. lia. }
  destruct (loop_rule (fd_body M n)
    (fun i => 3 <= i <= r /\ Z.odd i = true) (fun i => r - i) (fun o => o = UB)) with (k := bits n) (s := 3) as (o & Ho & ->).
  - intros i (Hi & Hio). unfold fd_body.
    destruct (Z.eq_dec i r) as [->|Hne].
    + unfold ck at 1. replace (r * r <=? M) with false by (symmetry; apply Z.leb_gt; lia).
      rewrite andb_false_r. reflexivity.
    + assert (i <= r - 2).
      { assert (i <> r - 1); [|lia]. intros ->. rewrite Z.odd_sub, Hro in Hio. discriminate. }
      assert (i * i <= n) by nia. rewrite ck_ok by nia. cbn [obind].
      replace (i * i <=? n) with true by (symmetry; apply Z.leb_le; lia).
      replace (Z.rem n i =? 0) with false.
      2:{ symmetry. apply divide_rem_false; [lia|]. intros Hdv. apply prime_divisors in Hdv; auto. nia. }
      rewrite ck_ok by nia. cbn [obind]. split; [|lia]. split; [lia|].
      rewrite Z.odd_add, Hio. reflexivity.
  - split; [lia|reflexivity].
  - split; [lia|]. apply bits_ok. nia.
  - unfold oloop. now rewrite Ho.
Qed.
