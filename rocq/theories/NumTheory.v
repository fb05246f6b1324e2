(** * Number theory over Z used by the Rader and primes.c proofs:
    Fermat's little theorem, the root bound modulo a prime, existence of
    primitive roots, and the fact that a primitive root enumerates 1..p-1. *)
From Coq Require Import ZArith Znumtheory List Lia Bool Permutation.
Import ListNotations.
Open Scope Z_scope.

Definition zrange (a : Z) (n : nat) : list Z := map (fun i => a + Z.of_nat i) (seq 0 n).

Lemma in_zrange a n x : In x (zrange a n) <-> a <= x < a + Z.of_nat n.
Proof.
  unfold zrange. rewrite in_map_iff. split.
  - intros (i & <- & Hi). apply in_seq in Hi. lia.
  - intros H. exists (Z.to_nat (x - a)). split; [lia|]. apply in_seq. lia.
Qed.

Lemma NoDup_zrange a n : NoDup (zrange a n).
Proof.
  unfold zrange. apply FinFun.Injective_map_NoDup; [|apply seq_NoDup].
  intros i j H. lia.
Qed.

Lemma length_zrange a n : length (zrange a n) = n.
Proof. unfold zrange. now rewrite map_length, seq_length. Qed.

Lemma NoDup_map_inj {A B} (f : A -> B) l :
  (forall x y, In x l -> In y l -> f x = f y -> x = y) -> NoDup l -> NoDup (map f l).
Proof.
  induction l as [|x l IH]; intros Hinj Hnd; cbn; [constructor|].
  inversion Hnd as [|? ? Hx Hl]; subst. constructor.
  - intros Hin. apply in_map_iff in Hin as (y & Hy & Hyl).
    apply Hinj in Hy; [subst; auto|now right|now left].
  - apply IH; auto. intros a b Ha Hb. apply Hinj; now right.
Qed.

(** ** Fermat *)

Definition prodZ (l : list Z) : Z := fold_right Z.mul 1 l.

Lemma prodZ_perm l l' : Permutation l l' -> prodZ l = prodZ l'.
Proof.
  unfold prodZ. induction 1; cbn [fold_right]; try congruence; try ring.
Qed.

Lemma prodZ_map_mod p a l : 0 < p ->
  prodZ (map (fun x => (a * x) mod p) l) mod p = (a ^ Z.of_nat (length l) * prodZ l) mod p.
Proof.
  intros Hp. induction l as [|x l IH].
  - cbn [map length prodZ fold_right]. change (Z.of_nat 0) with 0. rewrite Z.pow_0_r. f_equal.
  - cbn [map length prodZ fold_right]. fold (prodZ l).
    fold (prodZ (map (fun x => (a * x) mod p) l)).
    rewrite Nat2Z.inj_succ, Z.pow_succ_r by lia.
    rewrite Zmult_mod, IH, Zmod_mod, <- Zmult_mod. f_equal. ring.
Qed.

Lemma prime_not_div_small p x : prime p -> 0 < x < p -> ~ (p | x).
Proof. intros Hp Hx Hd. apply Z.divide_pos_le in Hd; lia. Qed.

Lemma mod0_divide p x : 0 < p -> x mod p = 0 <-> (p | x).
Proof. intros Hp. apply Z.mod_divide; lia. Qed.

Lemma mod_eq_divide p x y : 0 < p -> x mod p = y mod p <-> (p | x - y).
Proof.
  intros Hp. split.
  - intros H. apply mod0_divide; auto. rewrite Zminus_mod, H, Z.sub_diag. apply Z.mod_0_l; lia.
  - intros (k & Hk). replace x with (y + k * p) by lia. apply Z_mod_plus_full.
Qed.

Lemma small_divide_eq p x y : 0 < p -> 0 <= x < p -> 0 <= y < p -> (p | x - y) -> x = y.
Proof.
  intros Hp Hx Hy H. apply mod_eq_divide in H; auto. now rewrite !Z.mod_small in H by lia.
Qed.

Lemma cancel_mod p a x y : prime p -> ~ (p | a) -> (a * x) mod p = (a * y) mod p -> x mod p = y mod p.
Proof.
  intros Hp Ha H. pose proof (prime_ge_2 p Hp).
  apply mod_eq_divide in H; [|lia]. apply mod_eq_divide; [lia|].
  replace (a * x - a * y) with (a * (x - y)) in H by ring.
  apply prime_mult in H; auto. tauto.
Qed.

Lemma prodZ_range_not_div p n : prime p -> Z.of_nat n < p -> ~ (p | prodZ (zrange 1 n)).
Proof.
  intros Hp Hn.
  assert (G : forall l, (forall x, In x l -> 0 < x < p) -> ~ (p | prodZ l)).
  { induction l as [|x l IH]; cbn [prodZ fold_right]; intros Hl Hd.
    - apply Z.divide_1_r_nonneg in Hd; pose proof (prime_ge_2 p Hp); lia.
    - apply prime_mult in Hd; auto. destruct Hd as [Hd|Hd].
      + apply (prime_not_div_small p x); auto. apply Hl; now left.
      + apply IH; auto. intros y Hy; apply Hl; now right. }
  apply G. intros x Hx. apply in_zrange in Hx. lia.
Qed.

Lemma fermat p a : prime p -> ~ (p | a) -> a ^ (p - 1) mod p = 1.
Proof.
  intros Hp Ha. pose proof (prime_ge_2 p Hp) as H2.
  set (n := Z.to_nat (p - 1)). set (l := zrange 1 n).
  assert (Hperm : Permutation (map (fun x => (a * x) mod p) l) l).
  { apply NoDup_Permutation_bis.
    - apply NoDup_map_inj; [|apply NoDup_zrange]. intros x y Hx Hy E.
      apply in_zrange in Hx. apply in_zrange in Hy.
      apply cancel_mod in E; auto. rewrite !Z.mod_small in E by lia. auto.
    - rewrite map_length. lia.
    - intros y Hy. apply in_map_iff in Hy as (x & <- & Hx). apply in_zrange in Hx.
      apply in_zrange. pose proof (Z.mod_pos_bound (a * x) p ltac:(lia)).
      assert ((a * x) mod p <> 0); [|lia].
      intros E. apply mod0_divide in E; [|lia]. apply prime_mult in E; auto.
      destruct E as [E|E]; auto. apply (prime_not_div_small p x); auto. lia. }
  apply prodZ_perm in Hperm. apply (f_equal (fun z => z mod p)) in Hperm.
  rewrite prodZ_map_mod in Hperm by lia.
  unfold l in Hperm. rewrite length_zrange in Hperm.
  replace (Z.of_nat n) with (p - 1) in Hperm by lia.
  replace (prodZ (zrange 1 n) mod p) with ((prodZ (zrange 1 n) * 1) mod p) in Hperm by (f_equal; ring).
  rewrite (Z.mul_comm (a ^ (p - 1))) in Hperm.
  apply cancel_mod in Hperm; auto.
  - rewrite Hperm. apply Z.mod_1_l; lia.
  - apply prodZ_range_not_div; auto. lia.
Qed.

(** ** Root bound *)

Fixpoint heval (a : Z) (cs : list Z) (x : Z) : Z :=
  match cs with [] => a | c :: cs => heval (a * x + c) cs x end.

Fixpoint qrest (r b : Z) (cs : list Z) : list Z :=
  match cs with [] => [] | c :: cs => b :: qrest r (b * r + c) cs end.

Lemma length_qrest r cs : forall b, length (qrest r b cs) = length cs.
Proof. induction cs; cbn; auto. Qed.

Lemma heval_diff x r cs : forall a b q, a - b = (x - r) * q ->
  heval a cs x - heval b cs r = (x - r) * heval q (qrest r b cs) x.
Proof.
  induction cs as [|c cs IH]; cbn [heval qrest]; intros a b q H; auto.
  apply IH. nia.
Qed.

Lemma root_bound p : prime p -> forall n cs, length cs = n -> forall a, ~ (p | a) ->
  forall rs, NoDup rs -> (forall x, In x rs -> 0 <= x < p) ->
  (forall x, In x rs -> (p | heval a cs x)) -> (length rs <= n)%nat.
Proof.
  intros Hp. pose proof (prime_ge_2 p Hp).
  induction n as [|n IH]; intros cs Hlen a Ha rs Hnd Hb Hr.
  - destruct cs; [|discriminate]. destruct rs as [|r rs]; [cbn; lia|].
    exfalso. apply Ha. apply (Hr r). now left.
  - destruct cs as [|c cs]; [discriminate|]. destruct rs as [|r rs]; [cbn; lia|].
    inversion Hnd as [|? ? Hrn Hnd']; subst. cbn [length]. apply le_n_S.
    apply (IH (qrest r (a * r + c) cs)) with (a := a); auto.
    + rewrite length_qrest. now injection Hlen.
    + intros x Hx. apply Hb. now right.
    + intros x Hx.
      pose proof (heval_diff x r cs (a * x + c) (a * r + c) a ltac:(ring)) as E.
      assert (Hd : (p | (x - r) * heval a (qrest r (a * r + c) cs) x)).
      { rewrite <- E. apply Z.divide_sub_r; [apply (Hr x); now right|apply (Hr r); now left]. }
      apply prime_mult in Hd; auto. destruct Hd as [Hd|Hd]; auto.
      exfalso. apply Hrn. apply small_divide_eq in Hd; [subst; auto|lia|apply Hb; now right|apply Hb; now left].
Qed.

Lemma heval_zeros k x : forall a, heval a (repeat 0 k ++ [-1]) x = a * x ^ (Z.of_nat k + 1) - 1.
Proof.
  induction k as [|k IH]; intros a; cbn [repeat app heval].
  - change (Z.of_nat 0 + 1) with 1. rewrite Z.pow_1_r. ring.
  - rewrite IH. rewrite Nat2Z.inj_succ.
    replace (Z.succ (Z.of_nat k) + 1) with (Z.succ (Z.of_nat k + 1)) by lia.
    rewrite Z.pow_succ_r by lia. ring.
Qed.

Lemma nonroot_exists p d : prime p -> 1 <= d < p - 1 ->
  exists x, 1 <= x < p /\ x ^ d mod p <> 1.
Proof.
  intros Hp Hd.
  set (l := zrange 1 (Z.to_nat (p - 1))).
  destruct (existsb (fun x => negb (x ^ d mod p =? 1)) l) eqn:E.
  - apply existsb_exists in E as (x & Hx & E). apply in_zrange in Hx.
    exists x. split; [lia|]. intros E'. rewrite E' in E. discriminate.
  - exfalso.
    assert (length l <= Z.to_nat d)%nat.
    { apply (root_bound p Hp (Z.to_nat d) (repeat 0 (Z.to_nat (d - 1)) ++ [-1])) with (a := 1).
      - rewrite app_length, repeat_length. cbn. lia.
      - intros H. apply Z.divide_1_r_nonneg in H; lia.
      - apply NoDup_zrange.
      - intros x Hx. apply in_zrange in Hx. lia.
      - intros x Hx. rewrite heval_zeros.
        replace (Z.of_nat (Z.to_nat (d - 1)) + 1) with d by lia.
        apply mod_eq_divide; [lia|].
        assert (E' : (x ^ d mod p =? 1) = true).
        { destruct (x ^ d mod p =? 1) eqn:E1; auto.
          assert (existsb (fun x => negb (x ^ d mod p =? 1)) l = true).
          { apply existsb_exists. exists x. rewrite E1. auto. }
          congruence. }
        apply Z.eqb_eq in E'. rewrite Z.mul_1_l, E'. rewrite Z.mod_small; lia. }
    unfold l in H. rewrite length_zrange in H. lia.
Qed.

(** ** Powers modulo p *)


Lemma pow_mod_congr p x y n : 0 < p -> 0 <= n -> x mod p = y mod p -> x ^ n mod p = y ^ n mod p.
Proof.
  intros Hp Hn H. pattern n. apply natlike_ind; [reflexivity| |exact Hn].
  intros m Hm IH. rewrite !Z.pow_succ_r by lia.
  rewrite Zmult_mod, H, IH, <- Zmult_mod. reflexivity.
Qed.

Lemma pow_one p x n k : 1 < p -> 0 <= n -> 0 <= k -> x ^ n mod p = 1 -> x ^ (n * k) mod p = 1.
Proof.
  intros Hp Hn Hk H. rewrite Z.pow_mul_r by lia.
  rewrite (pow_mod_congr p _ 1) by (try lia; rewrite H; symmetry; apply Z.mod_1_l; lia).
  rewrite Z.pow_1_l by lia. apply Z.mod_1_l; lia.
Qed.

Lemma pow_one_bezout p x a b d : 1 < p -> 0 < a -> 0 < b -> 0 < d ->
  (exists u v, u * a + v * b = d) ->
  x ^ a mod p = 1 -> x ^ b mod p = 1 -> x ^ d mod p = 1.
Proof.
  intros Hp Ha Hb Hd (u & v & E) Hxa Hxb.
  (* exponents shifted to be nonnegative: k large *)
  set (k := Z.abs u + Z.abs v).
  assert (H1 : x ^ ((u + k * b) * a) mod p = 1).
  { rewrite Z.mul_comm. apply pow_one; auto; try lia. nia. }
  assert (Hk : 0 <= k) by lia.
  assert (H2 : x ^ (b * (k * a - v)) mod p = 1).
  { apply pow_one; auto; try lia. nia. }
  assert (E2 : (u + k * b) * a = d + b * (k * a - v)) by nia.
  rewrite E2, Z.pow_add_r in H1; [|lia|apply Z.mul_nonneg_nonneg; nia].
  rewrite Zmult_mod, H2, Z.mul_1_r, Zmod_mod in H1. exact H1.
Qed.

Lemma split_power q N : 2 <= q -> 0 < N ->
  exists m a, 0 <= a /\ 0 < m /\ N = m * q ^ a /\ ~ (q | m).
Proof.
  intros Hq HN. assert (H : 0 <= N) by lia. revert HN.
  pattern N. apply Zlt_0_ind; [|exact H]. clear N H. intros N IH _ HN.
  destruct (Zdivide_dec q N) as [(c & Hc)|Hnd].
  - destruct (IH c ltac:(nia) ltac:(nia)) as (m & a & Ha & Hm & E & Hnd).
    exists m, (a + 1). repeat split; auto; try lia.
    rewrite Z.pow_add_r, Z.pow_1_r by lia. rewrite Hc, E. ring.
  - exists N, 0. rewrite Z.pow_0_r. repeat split; auto; lia.
Qed.

Lemma Znumtheory_prime_divisor n : 1 < n -> exists q, prime q /\ (q | n).
Proof.
  intros Hn. assert (H : 0 <= n) by lia. revert Hn.
  pattern n. apply Zlt_0_ind; [|exact H]. clear n H. intros n IH _ Hn.
  destruct (prime_dec n) as [Hp|Hp]; [exists n; split; auto; apply Z.divide_refl|].
  destruct (not_prime_divide n Hn Hp) as (d & Hd & Hdn).
  destruct (IH d ltac:(lia) ltac:(lia)) as (q & Hq & Hqd).
  exists q; split; auto. eapply Z.divide_trans; eauto.
Qed.

Section PrimRoot.
  Variable p : Z.
  Hypothesis Hp : prime p.
  Let N := p - 1.

  Lemma p_ge2 : 2 <= p. Proof. apply prime_ge_2; exact Hp. Qed.

  Lemma fermatN x : 1 <= x < p -> x ^ N mod p = 1.
  Proof. intros Hx. apply fermat; auto. apply prime_not_div_small; auto. lia. Qed.

  (** an element of q-power order, not killed by N/q *)
  Lemma q_part q : prime q -> (q | N) -> 
    exists y a, 1 <= y < p /\ 0 <= a /\ (q ^ a | N) /\ y ^ (q ^ a) mod p = 1 /\ y ^ (N / q) mod p <> 1.
  Proof.
    intros Hq HqN. pose proof p_ge2. pose proof (prime_ge_2 q Hq).
    assert (HN : 0 < N). { destruct HqN as (c & Hc). unfold N in *. nia. }
    destruct (split_power q N ltac:(lia) HN) as (m & a & Ha & Hm & EN & Hnd).
    assert (Hqa : 0 < q ^ a) by (apply Z.pow_pos_nonneg; lia).
    destruct HqN as (c & Hc).
    assert (Hdiv : N / q = c) by (rewrite Hc; apply Z.div_mul; lia).
    assert (Hcb : 1 <= c < N) by nia.
    destruct (nonroot_exists p c Hp ltac:(fold N; lia)) as (x & Hx & Hxc).
    assert (HxN := fermatN x Hx).
    exists (x ^ m mod p), a.
    assert (Hy : 1 <= x ^ m mod p < p).
    { pose proof (Z.mod_pos_bound (x ^ m) p ltac:(lia)).
      assert (x ^ m mod p <> 0); [|lia]. intros E0.
      assert (x ^ N mod p = 0).
      { rewrite EN, Z.pow_mul_r by lia.
        rewrite (pow_mod_congr p _ 0) by (try lia; now rewrite E0).
        rewrite Z.pow_0_l by lia. apply Z.mod_0_l; lia. }
      lia. }
    split; [exact Hy|]. split; [exact Ha|].
    split; [exists m; lia|].
    assert (Hym : forall k, 0 <= k -> (x ^ m mod p) ^ k mod p = x ^ (m * k) mod p).
    { intros k Hk. rewrite Z.pow_mul_r by lia. apply pow_mod_congr; try lia. apply Zmod_mod. }
    split.
    - rewrite Hym by lia. rewrite <- EN. exact HxN.
    - rewrite Hdiv, Hym by lia. intros E1.
      apply Hxc.
      assert (Hz : forall k, 0 <= k -> (x ^ c mod p) ^ k mod p = x ^ (c * k) mod p).
      { intros k Hk. rewrite Z.pow_mul_r by lia. apply pow_mod_congr; try lia. apply Zmod_mod. }
      assert (Hz1 : (x ^ c mod p) ^ 1 mod p = 1).
      { apply (pow_one_bezout p (x ^ c mod p) m q 1); try lia.
        - assert (Hrp : rel_prime q m) by (apply prime_rel_prime; auto).
          apply rel_prime_bezout in Hrp. destruct Hrp as [u v E]. exists v, u. lia.
        - rewrite Hz by lia. rewrite <- E1. f_equal. f_equal. ring.
        - rewrite Hz by lia. rewrite <- Hc. exact HxN. }
      rewrite Z.pow_1_r, Zmod_mod in Hz1. exact Hz1.
  Qed.

  Lemma primroot_list : forall l, NoDup l -> (forall q, In q l -> prime q /\ (q | N)) ->
    exists g, 1 <= g < p /\ (forall q, In q l -> g ^ (N / q) mod p <> 1) /\
              (forall q, prime q -> (q | N) -> ~ In q l -> g ^ (N / q) mod p = 1).
  Proof.
    pose proof p_ge2 as H2.
    induction l as [|q l IH]; intros Hnd Hl.
    - exists 1. split; [lia|]. split; [intros ? []|]. intros q Hq HqN _.
      rewrite Z.pow_1_l; [apply Z.mod_1_l; lia|]. apply Z.div_pos; unfold N; try lia.
      pose proof (prime_ge_2 q Hq); lia.
    - inversion Hnd as [|? ? Hqn Hnd']; subst.
      destruct (IH Hnd') as (g & Hg & Hg1 & Hg2); [intros; apply Hl; now right|].
      destruct (Hl q (or_introl eq_refl)) as [Hq HqN].
      destruct (q_part q Hq HqN) as (y & a & Hy & Ha & Hqa & Hy1 & Hy2).
      pose proof (prime_ge_2 q Hq).
      assert (Hgy : 1 <= (g * y) mod p < p).
      { pose proof (Z.mod_pos_bound (g * y) p ltac:(lia)).
        assert ((g * y) mod p <> 0); [|lia]. intros E. apply mod0_divide in E; [|lia].
        apply prime_mult in E; auto. destruct E as [E|E];
          revert E; apply prime_not_div_small; auto; lia. }
      assert (Hpow : forall k, 0 <= k -> ((g * y) mod p) ^ k mod p = ((g ^ k mod p) * (y ^ k mod p)) mod p).
      { intros k Hk. rewrite <- Zmult_mod, <- Z.pow_mul_l. apply pow_mod_congr; try lia. apply Zmod_mod. }
      assert (Hy3 : forall q0, prime q0 -> (q0 | N) -> q0 <> q -> y ^ (N / q0) mod p = 1).
      { intros q0 Hq0 Hq0N Hne. pose proof (prime_ge_2 q0 Hq0).
        assert (Hd : (q ^ a | N / q0)).
        { apply Gauss with q0.
          - replace (q0 * (N / q0)) with N; auto. destruct Hq0N as (c & ->). rewrite Z.div_mul by lia. ring.
          - apply rel_prime_sym. apply prime_rel_prime; auto. intros Hd.
            assert (Hd' : (q0 | q)).
            { clear - Hd Hq0 Ha. revert Hd. pattern a. apply natlike_ind; [| |exact Ha].
              - rewrite Z.pow_0_r. intros Hd. apply Z.divide_1_r_nonneg in Hd; pose proof (prime_ge_2 q0 Hq0); lia.
              - intros k Hk IH Hd. rewrite Z.pow_succ_r in Hd by lia. apply prime_mult in Hd; auto. tauto. }
            apply prime_div_prime in Hd'; auto. }
        assert (0 < q ^ a) by (apply Z.pow_pos_nonneg; lia).
        assert (0 <= N / q0) by (apply Z.div_pos; unfold N; lia).
        destruct Hd as (c & Hcd). rewrite Hcd in *. rewrite Z.mul_comm. apply pow_one; auto; lia. }
      assert (Hnn : forall q0, prime q0 -> 0 <= N / q0).
      { intros q0 Hq0. pose proof (prime_ge_2 q0 Hq0). apply Z.div_pos; unfold N; lia. }
      exists ((g * y) mod p). split; [exact Hgy|]. split.
      + intros q0 [<-|Hq0].
        * rewrite Hpow by auto. rewrite (Hg2 q Hq HqN Hqn). rewrite Z.mul_1_l, Zmod_mod. exact Hy2.
        * destruct (Hl q0 (or_intror Hq0)) as [Hq0p Hq0N].
          rewrite Hpow by auto. rewrite (Hy3 q0) by (auto; intros ->; auto).
          rewrite Z.mul_1_r, Zmod_mod. now apply Hg1.
      + intros q0 Hq0 Hq0N Hni.
        rewrite Hpow by auto. rewrite (Hy3 q0), (Hg2 q0); auto.
        * rewrite Z.mul_1_l. apply Z.mod_1_l; lia.
        * intros Hin; apply Hni; now right.
        * intros ->; apply Hni; now left.
  Qed.

  (** testing all prime q | p-1 is enough for being a primitive root *)
  Lemma order_full g : 1 <= g < p ->
    (forall q, prime q -> (q | N) -> g ^ (N / q) mod p <> 1) ->
    forall k, 0 < k < N -> g ^ k mod p <> 1.
  Proof.
    intros Hg Hq k Hk E. pose proof p_ge2.
    set (d := Z.gcd k N).
    assert (Hd0 : 0 < d) by (pose proof (Z.gcd_nonneg k N); assert (d <> 0) by (intros E0; apply Z.gcd_eq_0_l in E0; lia); lia).
    assert (Hdk : (d | k)) by apply Z.gcd_divide_l.
    assert (HdN : (d | N)) by apply Z.gcd_divide_r.
    assert (Hdle : d <= k) by (apply Z.divide_pos_le; auto; lia).
    assert (Egd : g ^ d mod p = 1).
    { apply (pow_one_bezout p g k N d); try lia.
      - destruct (Z.gcd_bezout k N d eq_refl) as (u & v & Euv). exists u, v. exact Euv.
      - apply fermatN; auto. }
    destruct HdN as (c & Hc).
    assert (1 < c) by nia.
    destruct (Znumtheory_prime_divisor c ltac:(lia)) as (q & Hqp & (e & He)).
    pose proof (prime_ge_2 q Hqp).
    assert (HqN : (q | N)) by (exists (e * d); rewrite Hc, He; ring).
    apply (Hq q Hqp HqN).
    assert (ENq : N / q = d * e) by (rewrite Hc, He; replace (e * q * d) with (d * e * q) by ring; apply Z.div_mul; lia).
    rewrite ENq. apply pow_one; auto; nia.
  Qed.

  (** distinct exponents below the order give distinct powers *)
  Lemma pow_inj g : 1 <= g < p ->
    (forall k, 0 < k < N -> g ^ k mod p <> 1) ->
    forall i j, 0 <= i < N -> 0 <= j < N -> g ^ i mod p = g ^ j mod p -> i = j.
  Proof.
    intros Hg Hk. pose proof p_ge2.
    assert (G : forall i j, 0 <= i -> i < j < N -> g ^ i mod p <> g ^ j mod p).
    { intros i j Hi Hj E. apply (Hk (j - i)); [lia|].
      replace j with (i + (j - i)) in E by ring. rewrite Z.pow_add_r in E by lia.
      replace (g ^ i) with (g ^ i * 1) in E at 1 by ring.
      apply cancel_mod in E; auto.
      - rewrite <- E. apply Z.mod_1_l; lia.
      - intros Hd. assert (Hd' : (p | g)).
        { clear E. revert Hd. pattern i. apply natlike_ind; [| |exact Hi].
          - rewrite Z.pow_0_r. intros Hd. apply Z.divide_1_r_nonneg in Hd; lia.
          - intros k Hk0 IH Hd. rewrite Z.pow_succ_r in Hd by lia. apply prime_mult in Hd; auto. tauto. }
        revert Hd'. apply prime_not_div_small; auto; lia. }
    intros i j Hi Hj E. destruct (Z.lt_trichotomy i j) as [L|[L|L]]; auto.
    - exfalso. apply (G i j); auto; lia.
    - exfalso. apply (G j i); auto; lia.
  Qed.

  Lemma pow_range g k : 1 <= g < p -> 0 <= k -> 1 <= g ^ k mod p < p.
  Proof.
    intros Hg Hk. pose proof p_ge2. pose proof (Z.mod_pos_bound (g ^ k) p ltac:(lia)).
    assert (g ^ k mod p <> 0); [|lia]. intros E. apply mod0_divide in E; [|lia].
    revert E. pattern k. apply natlike_ind; [| |exact Hk].
    - rewrite Z.pow_0_r. intros Hd. apply Z.divide_1_r_nonneg in Hd; lia.
    - intros j Hj IH Hd. rewrite Z.pow_succ_r in Hd by lia. apply prime_mult in Hd; auto.
      destruct Hd as [Hd|Hd]; auto. revert Hd. apply prime_not_div_small; auto; lia.
  Qed.

  Lemma pow_surj g : 1 <= g < p ->
    (forall k, 0 < k < N -> g ^ k mod p <> 1) ->
    forall x, 1 <= x < p -> exists k, 0 <= k < N /\ g ^ k mod p = x.
  Proof.
    intros Hg Hk x Hx. pose proof p_ge2.
    set (n := Z.to_nat N).
    assert (Hincl : incl (zrange 1 n) (map (fun k => g ^ k mod p) (zrange 0 n))).
    { apply NoDup_length_incl.
      - apply NoDup_map_inj; [|apply NoDup_zrange]. intros i j Hi Hj. apply in_zrange in Hi.
        apply in_zrange in Hj. apply pow_inj; auto; unfold n, N in *; lia.
      - rewrite map_length, !length_zrange. lia.
      - intros y Hy. apply in_map_iff in Hy as (k & <- & Hkr). apply in_zrange in Hkr.
        apply in_zrange. pose proof (pow_range g k Hg ltac:(lia)). unfold n, N; lia. }
    assert (Hin : In x (zrange 1 n)) by (apply in_zrange; unfold n, N; lia).
    apply Hincl in Hin. apply in_map_iff in Hin as (k & Ek & Hkr). apply in_zrange in Hkr.
    exists k. split; auto. unfold n, N in *. lia.
  Qed.
End PrimRoot.

(** [primitive_root p g]: the powers of [g] enumerate the nonzero residues. *)
Definition primitive_root (p g : Z) : Prop :=
  1 <= g < p /\
  forall x, 1 <= x < p -> exists! k, 0 <= k < p - 1 /\ g ^ k mod p = x.

Lemma primitive_root_test p g : prime p -> 1 <= g < p ->
  (forall q, prime q -> (q | p - 1) -> g ^ ((p - 1) / q) mod p <> 1) -> primitive_root p g.
Proof.
  intros Hp Hg Hq. split; auto. intros x Hx.
  pose proof (order_full p Hp g Hg Hq) as Hk.
  destruct (pow_surj p Hp g Hg Hk x Hx) as (k & Hk1 & Hk2).
  exists k. split; auto. intros j [Hj1 Hj2].
  apply (pow_inj p Hp g Hg Hk); auto. congruence.
Qed.
