(** * Correctness of the twiddle policies of genfft/twiddle.ml *)
From Coq Require Import Reals ZArith List Lia Lra Bool.
From Verif Require Import NumTheory Cplx SpecR2R RSum Offs TwModel GenExpr GenCplx GenFft GenNum GenMain GenTrig GenTrigProofs GenTwid.
Import ListNotations.
Open Scope Z_scope.

(** ** Integers *)
Lemma upow_ok m : forall fuel n, 0 <= n -> (Z.to_nat n < fuel)%nat -> upow fuel m n = Some (m ^ n).
Proof.
  induction fuel as [|f IH]; intros n Hn Hf; [lia|]. cbn [upow]. destruct (Z.eqb_spec n 0) as [->|N]; [reflexivity|].
  rewrite IH by lia. cbn [option_map]. f_equal. replace n with (Z.succ (n - 1)) at 2 by lia. rewrite Z.pow_succ_r by lia. reflexivity.
Qed.
Lemma tpow_ok m n : 0 <= n -> tpow m n = Some (m ^ n).
Proof. intros H. apply upow_ok; lia. Qed.
Lemma uis_pow_ok m : 2 <= m -> forall fuel n, 1 <= n -> (Z.to_nat n < fuel)%nat ->
  exists b, uis_pow fuel m n = Some b /\ (b = true <-> exists e, 0 <= e /\ n = m ^ e).
Proof.
  intros Hm. induction fuel as [|f IH]; intros n Hn Hf; [lia|]. cbn [uis_pow].
  destruct (Z.eqb_spec n 1) as [->|N1].
  { exists true. split; auto. split; auto. intros _. exists 0. split; [lia|reflexivity]. }
  destruct (Z.eqb_spec (omod n m) 0) as [E|E].
  - apply Z.eqb_eq, omod_zero in E; [|lia]. destruct E as (q & Eq). assert (0 < q) by nia.
    replace (odiv n m) with q by (rewrite odiv_pos by lia; rewrite Eq, Z.div_mul by lia; reflexivity).
    destruct (IH q) as (b & -> & H1); [lia|nia|]. exists b. split; auto. rewrite H1. split.
    + intros (e & He & ->). exists (Z.succ e). split; [lia|]. rewrite Z.pow_succ_r by lia. rewrite Eq. ring.
    + intros (e & He & E). assert (e <> 0) by (intros ->; cbn in E; lia). exists (e - 1). split; [lia|].
      replace e with (Z.succ (e - 1)) in E by lia. rewrite Z.pow_succ_r in E by lia. nia.
  - exists false. split; auto. split; [discriminate|]. intros (e & He & E'). exfalso. apply E.
    assert (e <> 0) by (intros ->; cbn in E'; lia). replace e with (Z.succ (e - 1)) in E' by lia. rewrite Z.pow_succ_r in E' by lia.
    rewrite omod_pos by lia. rewrite E', Z.mul_comm. apply Z.mod_mul. lia.
Qed.
Lemma is_pow_ok m n : 2 <= m -> 1 <= n -> exists b, is_pow m n = Some b /\ (b = true <-> exists e, 0 <= e /\ n = m ^ e).
Proof. intros H1 H2. apply uis_pow_ok; lia. Qed.
Lemma ulog_ok m : 2 <= m -> forall fuel e, 0 <= e -> (Z.to_nat e < fuel)%nat -> ulog fuel m (m ^ e) = Some e.
Proof.
  intros Hm. induction fuel as [|f IH]; intros e He Hf; [lia|]. cbn [ulog].
  destruct (Z.eqb_spec e 0) as [->|N]; [reflexivity|].
  assert (P : e < m ^ e) by (apply Z.pow_gt_lin_r; lia).
  destruct (Z.eqb_spec (m ^ e) 1) as [E|_]; [lia|].
  replace (odiv (m ^ e) m) with (m ^ (e - 1)).
  - rewrite IH by lia. cbn [option_map]. f_equal. lia.
  - replace e with (Z.succ (e - 1)) at 2 by lia. rewrite Z.pow_succ_r by lia.
    rewrite odiv_pos by (try apply Z.mul_nonneg_nonneg; try apply Z.pow_nonneg; lia). rewrite Z.mul_comm, Z.div_mul by lia. reflexivity.
Qed.
Lemma tlog_ok m e : 2 <= m -> 0 <= e -> tlog m (m ^ e) = Some e.
Proof. intros H1 H2. apply ulog_ok; auto. pose proof (Z.pow_gt_lin_r m e ltac:(lia) ltac:(lia)). lia. Qed.
Lemma ulpst_ok m : 2 <= m -> forall fuel i, 1 <= i -> (Z.to_nat i < fuel)%nat ->
  exists e, 0 <= e /\ ulpst fuel m i = Some (m ^ e) /\ m ^ e <= i < m ^ (e + 1).
Proof.
  intros Hm. induction fuel as [|f IH]; intros i Hi Hf; [lia|]. cbn [ulpst].
  destruct (is_pow_ok m i Hm Hi) as (b & -> & Hb). destruct b.
  - destruct (proj1 Hb eq_refl) as (e & He & ->). exists e. split; auto. split; auto. split; [lia|].
    apply Z.pow_lt_mono_r; lia.
  - assert (i <> 1). { intros ->. assert (false = true) by (apply Hb; exists 0; split; [lia|reflexivity]). discriminate. }
    destruct (IH (i - 1)) as (e & He & -> & H1 & H2); [lia|lia|]. exists e. split; auto. split; auto. split; [lia|].
    assert (i <> m ^ (e + 1)); [|lia]. intros E. assert (false = true) by (apply Hb; exists (e + 1); split; [lia|exact E]). discriminate.
Qed.
Lemma lpst_ok m i : 2 <= m -> 1 <= i ->
  exists e, 0 <= e /\ largest_power_smaller_than m i = Some (m ^ e) /\ m ^ e <= i < m ^ (e + 1).
Proof. intros H1 H2. apply ulpst_ok; auto. Qed.
Lemma usplt_ok m E : 2 <= m -> 0 <= E -> forall fuel i, 1 <= i <= m ^ E -> (Z.to_nat (m ^ E - i) < fuel)%nat ->
  exists e, 0 <= e /\ usplt fuel m i = Some (m ^ e) /\ i <= m ^ e.
Proof.
  intros Hm HE. induction fuel as [|f IH]; intros i Hi Hf; [lia|]. cbn [usplt].
  destruct (is_pow_ok m i Hm (proj1 Hi)) as (b & -> & Hb). destruct b.
  - destruct (proj1 Hb eq_refl) as (e & He & ->). exists e. split; auto. split; auto. lia.
  - assert (i <> m ^ E). { intros E1. assert (false = true) by (apply Hb; exists E; split; [lia|exact E1]). discriminate. }
    destruct (IH (i + 1)) as (e & He & -> & H1); [lia|lia|]. exists e. split; auto. split; auto. lia.
Qed.
Lemma splt_ok m i : 2 <= m -> 1 <= i -> exists e, 0 <= e /\ smallest_power_larger_than m i = Some (m ^ e) /\ i <= m ^ e.
Proof.
  intros Hm Hi. destruct (lpst_ok m i Hm Hi) as (e & He & _ & H1 & H2).
  apply (usplt_ok m (e + 1)); auto; try lia. replace (e + 1) with (Z.succ e) in * by lia. rewrite Z.pow_succ_r in * by lia.
  assert (m * m ^ e <= m * i) by (apply Z.mul_le_mono_nonneg_l; lia). lia.
Qed.
Lemma uterms_ok n : 1 <= n -> forall fuel i p s, 0 <= i -> p = 3 ^ i -> 2 * s = 3 ^ i - 1 -> (Z.to_nat (n - 1 - s) < fuel)%nat ->
  (forall e, 0 <= e < i -> 3 ^ e - 1 < 2 * (n - 1)) ->
  exists t, 0 <= t /\ uterms fuel i p s n = Some t /\ 2 * (n - 1) <= 3 ^ t - 1 /\ (forall e, 0 <= e < t -> 3 ^ e - 1 < 2 * (n - 1)).
Proof.
  intros Hn. induction fuel as [|f IH]; intros i p s Hi Hp Hs Hf H; [lia|]. cbn [uterms].
  rewrite Z.geb_leb. destruct (Z.leb_spec (n - 1) s).
  - exists i. split; auto. split; auto. split; [lia|auto].
  - assert (P : 0 < 3 ^ i) by (apply Z.pow_pos_nonneg; lia).
    assert (S : 3 ^ (i + 1) = 3 * 3 ^ i) by (replace (i + 1) with (Z.succ i) by lia; rewrite Z.pow_succ_r by lia; reflexivity).
    apply IH; try lia. intros e He. destruct (Z.eq_dec e i) as [->|]; [lia|]. apply H. lia.
Qed.
Lemma terms_ok n : 1 <= n -> exists t, 0 <= t /\ terms_needed 0 1 0 n = Some t /\ 2 * (n - 1) <= 3 ^ t - 1 /\ (forall e, 0 <= e < t -> 3 ^ e - 1 < 2 * (n - 1)).
Proof. intros Hn. apply uterms_ok; auto; try lia. Qed.
Lemma zr_len n : 0 <= n -> length (zr n) = Z.to_nat n.
Proof. intros H. unfold zr, zrange. now rewrite map_length, seq_length. Qed.
Lemma nth_map_zr {A} (f : Z -> A) n i : 0 <= i < n -> nth_error (map f (zr n)) (Z.to_nat i) = Some (f i).
Proof.
  intros H. replace n with (i + (1 + (n - 1 - i))) by lia. rewrite zr_add, map_app by lia.
  rewrite nth_error_app2 by (rewrite map_length, zr_len; lia).
  rewrite map_length, zr_len, Nat.sub_diag by lia. rewrite zr_add by lia. rewrite zr_1. cbn. rewrite Z.add_0_r. reflexivity.
Qed.

(** ** The exponents in a row of the twiddle table of a codelet of size n *)
Definition row_exps (n : Z) (p : list tw_instr) : list Z :=
  flat_map (fun a => match op a with TW_FULL => map (Z.add 1) (zr (n - 1)) | TW_CEXP => [ii a] | _ => [] end) p.
Lemma row_exps_app n p q : row_exps n (p ++ q) = row_exps n p ++ row_exps n q.
Proof. apply flat_map_app. Qed.

Lemma log2_list v : forall k L, 0 <= L -> (1 <= k)%nat -> Z.of_nat k <= 2 ^ L -> (L = 0 \/ 2 ^ (L - 1) < Z.of_nat k) ->
  exists l, omapM (fun i => if i >? 0 then
                         option_map (fun b : bool => if b then [mkin TW_CEXP v i] else []) (is_pow 2 i)
                       else Some []) (zr (Z.of_nat k)) = Some l /\ concat l = map (fun e => mkin TW_CEXP v (2 ^ e)) (zr L).
Proof.
  assert (OA : forall {A B} (f : A -> option B) l a b y, omapM f l = Some b -> f a = Some y -> omapM f (l ++ [a]) = Some (b ++ [y])).
  { induction l as [|c l IH]; cbn; intros a b y H1 H2.
    - injection H1 as <-. rewrite H2. reflexivity.
    - destruct (f c); [|discriminate]. destruct (omapM f l) eqn:E; [|discriminate]. injection H1 as <-. erewrite IH; eauto. reflexivity. }
  induction k as [|k IH]; intros L HL Hk H1 H2; [lia|].
  destruct (Nat.eq_dec k 0) as [->|Nk].
  { exists [[]]. split; [reflexivity|]. destruct H2 as [->|H2]; [reflexivity|].
    assert (L - 1 < 0 \/ 0 <= L - 1) as [?|?] by lia; [replace L with 0 by lia; reflexivity|].
    assert (0 < 2 ^ (L - 1)) by (apply Z.pow_pos_nonneg; lia). lia. }
  rewrite Nat2Z.inj_succ. unfold Z.succ. rewrite zr_succ by lia.
  destruct (is_pow_ok 2 (Z.of_nat k) ltac:(lia) ltac:(lia)) as (b & Eb & Hb). destruct b.
  - destruct (proj1 Hb eq_refl) as (e & He & Ee). assert (EL : L = e + 1).
    { assert (e < L). { apply (Z.pow_lt_mono_r_iff 2); lia. }
      destruct H2 as [->|H2]; [lia|]. assert (L - 1 <= e); [|lia]. apply (Z.pow_le_mono_r_iff 2); lia. }
    subst L. destruct (IH e) as (l & E1 & E2); try lia.
    { destruct (Z.eq_dec e 0); [auto|right]. rewrite Ee. apply Z.pow_lt_mono_r; lia. }
    exists (l ++ [[mkin TW_CEXP v (Z.of_nat k)]]). split.
    + apply OA; auto. destruct (Z.gtb_spec (Z.of_nat k) 0); [|lia]. rewrite Eb. reflexivity.
    + rewrite concat_app, E2, zr_succ, map_app by lia. cbn. rewrite Ee. reflexivity.
  - assert (NP : forall e, 0 <= e -> Z.of_nat k <> 2 ^ e).
    { intros e He E. assert (false = true) by (apply Hb; eauto). discriminate. }
    assert (0 < L). { destruct (Z.eq_dec L 0) as [->|]; [|lia]. cbn in H1. lia. }
    destruct (IH L) as (l & E1 & E2); try lia.
    { right. destruct H2 as [->|H2]; [lia|]. assert (Z.of_nat k <> 2 ^ (L - 1)) by (apply NP; lia). lia. }
    exists (l ++ [[]]). split.
    + apply OA; auto. destruct (Z.gtb_spec (Z.of_nat k) 0); [|lia]. rewrite Eb. reflexivity.
    + rewrite concat_app, E2. cbn. apply app_nil_r.
Qed.

(** what the twiddle instructions and the number of twiddle factors of each policy are *)
Definition pol_exps (p : policy) (n : Z) (es : list Z) : Prop :=
  match p with
  | LOAD_ALL => es = map (Z.add 1) (zr (n - 1))
  | LOG2 => exists L, 0 <= L /\ n <= 2 ^ L /\ (L = 0 \/ 2 ^ (L - 1) < n) /\ es = map (fun e => 2 ^ e) (zr L)
  | LOG3 => exists t, 0 <= t /\ terms_needed 0 1 0 n = Some t /\ 2 * (n - 1) <= 3 ^ t - 1 /\
      (forall e, 0 <= e < t -> 3 ^ e - 1 < 2 * (n - 1)) /\ es = map (fun e => Z.min (3 ^ e) (n - 1)) (zr t)
  end.
Lemma interval_zr' n : interval 0 n = zr n.
Proof. unfold interval, zr. now rewrite Z.sub_0_r. Qed.
Lemma flat_map_cexp v (f : Z -> Z) n l : flat_map (fun a => match op a with TW_FULL => map (Z.add 1) (zr (n - 1)) | TW_CEXP => [ii a] | _ => [] end)
   (map (fun e => mkin TW_CEXP v (f e)) l) = map f l.
Proof. induction l as [|a l IH]; cbn; auto. now rewrite IH. Qed.
Lemma omapM_some {A B} (f : A -> option B) g l : (forall i, In i l -> f i = Some (g i)) -> omapM f l = Some (map g l).
Proof.
  induction l as [|a l IH]; intros H; [reflexivity|]. cbn. rewrite H by now left. rewrite IH; [reflexivity|]. intros; apply H; now right.
Qed.
(** the instructions always exist, end with TW_NEXT 1, and the number of twiddle factors is
    the number of reals in a row of the table *)
Lemma policy_desc p v n : 1 <= n -> exists body,
  twdesc p v n = Some (body ++ [mkin TW_NEXT 1 0]) /\
  twidlen p n = Some (2 * Z.of_nat (length (row_exps n body))) /\
  pol_exps p n (row_exps n body) /\
  Forall (fun a => op a <> TW_NEXT /\ op a <> TW_COS /\ op a <> TW_SIN /\ op a <> TW_HALF /\ iv a = v /\ (op a = TW_FULL -> ii a = n) /\
     (op a = TW_CEXP -> 0 < ii a < n \/ n = 1)) body.
Proof.
  intros Hn. destruct p.
  - exists [mkin TW_FULL v n]. cbn [row_exps flat_map op app twdesc twidlen pol_exps]. rewrite app_nil_r. split; auto.
    rewrite map_length, zr_len by lia. split; [f_equal; lia|]. split; auto.
    constructor; [|constructor]. cbn. repeat split; congruence.
  - destruct (lpst_ok 2 (2 * n - 1)) as (L & HL & E1 & H1 & H2); [lia|lia|].
    assert (S1 : 2 ^ (L + 1) = 2 * 2 ^ L) by (replace (L + 1) with (Z.succ L) by lia; rewrite Z.pow_succ_r by lia; reflexivity).
    assert (B : L = 0 \/ 2 ^ (L - 1) < n).
    { destruct (Z.eq_dec L 0); [auto|right]. assert (2 ^ L = 2 * 2 ^ (L - 1)) by (replace L with (Z.succ (L - 1)) at 1 by lia; rewrite Z.pow_succ_r by lia; reflexivity). lia. }
    destruct (log2_list v (Z.to_nat n) L) as (l & E2 & E3); try lia.
    rewrite Z2Nat.id in E2 by lia.
    exists (map (fun e => mkin TW_CEXP v (2 ^ e)) (zr L)). split; [|split; [|split]].
    + cbn [twdesc]. rewrite interval_zr', E2. cbn [option_map]. rewrite E3. reflexivity.
    + cbn [twidlen]. rewrite E1, tlog_ok by lia. cbn [option_map]. unfold row_exps. rewrite flat_map_cexp, map_length, zr_len by lia. f_equal. lia.
    + exists L. unfold row_exps. rewrite flat_map_cexp. split; [lia|]. split; [lia|]. split; auto.
    + apply Forall_forall. intros a Ha. apply in_map_iff in Ha as (e & <- & He). apply in_zr in He. cbn.
      repeat split; try congruence. intros _. left. assert (0 < 2 ^ e) by (apply Z.pow_pos_nonneg; lia).
      assert (2 ^ e <= 2 ^ (L - 1)) by (apply Z.pow_le_mono_r; lia). lia.
  - destruct (terms_ok n Hn) as (t & Ht & E1 & H1 & H2).
    exists (map (fun e => mkin TW_CEXP v (Z.min (3 ^ e) (n - 1))) (zr t)). split; [|split; [|split]].
    + cbn [twdesc twidlen]. rewrite E1. cbn [option_map]. rewrite Z.mul_comm, odiv_pos, Z.div_mul by lia.
      rewrite interval_zr'. rewrite (omapM_some _ (fun e => mkin TW_CEXP v (Z.min (3 ^ e) (n - 1)))); [reflexivity|].
      intros i Hi. apply in_zr in Hi. rewrite tpow_ok by lia. reflexivity.
    + cbn [twidlen]. rewrite E1. cbn [option_map]. unfold row_exps.
      rewrite (flat_map_cexp v (fun e => Z.min (3 ^ e) (n - 1))), map_length, zr_len by lia. f_equal. lia.
    + exists t. unfold row_exps. rewrite (flat_map_cexp v (fun e => Z.min (3 ^ e) (n - 1))). auto.
    + apply Forall_forall. intros a Ha. apply in_map_iff in Ha as (e & <- & He). apply in_zr in He. cbn.
      repeat split; try congruence. intros _. assert (0 < 3 ^ e) by (apply Z.pow_pos_nonneg; lia). lia.
Qed.

Lemma conj_cis a : Cplx.conj (cis a) = cis (- a).
Proof. apply C_eq; unfold Cplx.conj, cis; cbn; [now rewrite cos_neg|now rewrite sin_neg]. Qed.

(** ** Every policy multiplies element i by exp(sign * i theta i).  [D] is a way to give values to
    expressions for which the products of the policy are products. *)
Section Pol.
  Variable pheq : expr -> expr -> bool.
  Variable M : magic.
  Variable uca : bool.
  Variable D : option ce -> C -> Prop.
  Hypothesis D_one : D (Some zone) C1.
  Hypothesis D_mul : forall x y a b, D x a -> D y b -> D (tctimes pheq M uca x y) (a * b)%C.
  Hypothesis D_mulj : forall x y a b, D x a -> D y b -> D (tctimesj pheq M uca x y) (Cplx.conj a * b)%C.
  Variable theta : R.
  Variable w : signal.
  Variable es : list Z.
  Hypothesis Hw : forall l e, 0 <= l -> nth_error es (Z.to_nat l) = Some e -> D (w l) (cis (theta * IZR e)).
  Local Notation good g i := (D (g i) (cis (theta * IZR i))).

  Lemma D_eq x a b : D x a -> a = b -> D x b.
  Proof. now intros H <-. Qed.
  Lemma cis_0' : cis (theta * IZR 0) = C1.
  Proof. rewrite Rmult_0_r. apply cis_0. Qed.

  Lemma log2_ok n L : 1 <= n <= 2 ^ L -> 0 <= L -> es = map (fun e => 2 ^ e) (zr L) ->
    forall fuel i, 0 <= i < n -> (Z.to_nat i < fuel)%nat -> good (urec_array fuel n (log2_body pheq M uca w)) i.
  Proof.
    intros Hn HL Hes. assert (Hp : forall e, 0 <= e -> 2 ^ e < n -> good w e \/ True) by auto.
    assert (HD : forall fuel e, 0 <= e -> 2 ^ e < n -> (0 < fuel)%nat -> good (urec_array fuel n (log2_body pheq M uca w)) (2 ^ e)).
    { intros fuel e He H Hf. destruct fuel as [|k]; [lia|]. cbn [urec_array]. unfold log2_body at 1.
      assert (0 < 2 ^ e) by (apply Z.pow_pos_nonneg; lia).
      destruct (Z.eqb_spec (2 ^ e) 0); [lia|]. destruct (is_pow_ok 2 (2 ^ e)) as (b & -> & Hb); [lia|lia|].
      destruct b; [|exfalso; assert (false = true) by (apply Hb; eauto); discriminate].
      rewrite tlog_ok by lia. apply Hw; auto. rewrite Hes. rewrite (nth_map_zr (fun e => 2 ^ e)); [reflexivity|].
      split; [lia|]. apply (Z.pow_lt_mono_r_iff 2); lia. }
    clear Hp. induction fuel as [|k IH]; intros i Hi Hf; [lia|]. 
    destruct (Z.eq_dec i 0) as [->|N0].
    { cbn [urec_array]. unfold log2_body at 1. cbn [Z.eqb]. eapply D_eq; [apply D_one|]. now rewrite cis_0'. }
    destruct (is_pow_ok 2 i) as (b & Eb & Hb); [lia|lia|]. destruct b.
    { destruct (proj1 Hb eq_refl) as (e & He & ->). apply HD; auto; lia. }
    cbn [urec_array]. unfold log2_body at 1. destruct (Z.eqb_spec i 0); [lia|]. rewrite Eb.
    destruct (lpst_ok 2 i) as (e & He & -> & H1 & H2); [lia|lia|]. cbn zeta.
    assert (0 < 2 ^ e) by (apply Z.pow_pos_nonneg; lia).
    rewrite !array_in by lia. eapply D_eq.
    - apply D_mul; [apply HD; lia|apply IH; lia].
    - rewrite <- cis_add. f_equal. rewrite minus_IZR. ring.
  Qed.

  Lemma log3_ok n t : 2 <= n -> 0 <= t -> 2 * (n - 1) <= 3 ^ t - 1 -> (forall e, 0 <= e < t -> 3 ^ e - 1 < 2 * (n - 1)) ->
    es = map (fun e => Z.min (3 ^ e) (n - 1)) (zr t) ->
    forall fuel i, 0 <= i < n -> (Z.to_nat i + 1 < fuel)%nat ->
    good (urec_array fuel (3 * n) (log3_body pheq M uca n t (3 ^ (t - 1)) w)) i.
  Proof.
    intros Hn Ht H1 H2 Hes. set (B := log3_body pheq M uca n t (3 ^ (t - 1)) w).
    assert (T1 : 1 <= t). { destruct (Z.eq_dec t 0) as [->|]; [change (3 ^ 0) with 1 in H1; lia|lia]. }
    assert (Lt : forall e, 0 <= e -> 3 ^ e <= n - 1 -> e < t).
    { intros e He H. apply Z.nle_gt. intros C. assert (3 ^ t <= 3 ^ e) by (apply Z.pow_le_mono_r; lia). lia. }
    assert (HP : forall fuel e, 0 <= e -> 3 ^ e <= n - 1 -> (0 < fuel)%nat -> good (urec_array fuel (3 * n) B) (3 ^ e)).
    { intros fuel e He H Hf. destruct fuel as [|k]; [lia|]. cbn [urec_array]. unfold B at 1, log3_body at 1.
      assert (0 < 3 ^ e) by (apply Z.pow_pos_nonneg; lia).
      destruct (Z.eqb_spec (3 ^ e) 0); [lia|]. destruct (is_pow_ok 3 (3 ^ e)) as (b & -> & Hb); [lia|lia|].
      destruct b; [|exfalso; assert (false = true) by (apply Hb; eauto); discriminate].
      rewrite tlog_ok by lia. apply Hw; auto. rewrite Hes. rewrite (nth_map_zr (fun e => Z.min (3 ^ e) (n - 1))).
      - f_equal. lia.
      - split; [lia|]. auto. }
    assert (HL : forall fuel, n <= 3 ^ (t - 1) -> (0 < fuel)%nat -> good (urec_array fuel (3 * n) B) (n - 1)).
    { intros fuel H Hf. destruct (is_pow_ok 3 (n - 1)) as (b & Eb & Hb); [lia|lia|]. destruct b.
      - destruct (proj1 Hb eq_refl) as (e & He & E). rewrite E. apply HP; lia.
      - destruct fuel as [|k]; [lia|]. cbn [urec_array]. unfold B at 1, log3_body at 1.
        destruct (Z.eqb_spec (n - 1) 0); [lia|]. rewrite Eb.
        rewrite Z.eqb_refl, Z.geb_leb. destruct (Z.leb_spec n (3 ^ (t - 1))); [|lia]. cbn [andb].
        apply Hw; [lia|]. rewrite Hes, (nth_map_zr (fun e => Z.min (3 ^ e) (n - 1))) by lia. f_equal. lia. }
    induction fuel as [|k IH]; intros i Hi Hf; [lia|].
    destruct (Z.eq_dec i 0) as [->|N0].
    { cbn [urec_array]. unfold B at 1, log3_body at 1. cbn [Z.eqb]. eapply D_eq; [apply D_one|]. now rewrite cis_0'. }
    destruct (is_pow_ok 3 i) as (b & Eb & Hb); [lia|lia|]. destruct b.
    { destruct (proj1 Hb eq_refl) as (e & He & ->). apply HP; auto; lia. }
    cbn [urec_array]. unfold B at 1, log3_body at 1. destruct (Z.eqb_spec i 0); [lia|]. rewrite Eb.
    destruct ((i =? n - 1) && (3 ^ (t - 1) >=? n)) eqn:El.
    { apply andb_true_iff in El as [E1 E2]. apply Z.eqb_eq in E1 as ->. rewrite Z.geb_leb in E2. apply Z.leb_le in E2.
      apply Hw; [lia|]. rewrite Hes, (nth_map_zr (fun e => Z.min (3 ^ e) (n - 1))) by lia. f_equal. lia. }
    destruct (splt_ok 3 i) as (e & He & -> & G1); [lia|lia|].
    rewrite Z.geb_leb. destruct (Z.leb_spec (3 ^ e) (i + i)) as [G2|G2].
    - assert (Odd : 3 ^ e <> i + i).
      { intros E. assert (O : Z.odd (3 ^ e) = true) by (rewrite Z.odd_pow; [reflexivity|destruct (Z.eq_dec e 0) as [->|]; [change (3 ^ 0) with 1 in E; lia|lia]]).
        rewrite E, Z.odd_add, xorb_nilpotent in O. discriminate. }
      assert (Et : e < t). { apply Z.nle_gt. intros C. assert (3 ^ t <= 3 ^ e) by (apply Z.pow_le_mono_r; lia). lia. }
      assert (Em : 3 ^ e <= 3 ^ (t - 1)) by (apply Z.pow_le_mono_r; lia).
      cbn zeta. rewrite !array_in by lia. eapply D_eq.
      + eapply (D_mulj _ _ _ (cis (theta * IZR (Z.min (3 ^ e) (n - 1))))); [apply (IH (Z.min (3 ^ e) (n - 1) - i)); lia|].
        destruct (Z.min_spec (3 ^ e) (n - 1)) as [[? ->]|[? ->]].
        * apply HP; lia.
        * destruct (Z.eq_dec (3 ^ e) (n - 1)) as [E|E]; [rewrite <- E; apply HP; lia|apply HL; lia].
      + rewrite conj_cis, <- cis_add. f_equal. rewrite minus_IZR.
        destruct (Z.min_spec (3 ^ e) (n - 1)) as [[? ->]|[? ->]]; ring.
    - destruct (lpst_ok 3 i) as (f & Hfn & -> & F1 & F2); [lia|lia|].
      assert (0 < 3 ^ f) by (apply Z.pow_pos_nonneg; lia).
      rewrite !array_in by lia. eapply D_eq.
      + apply D_mul; [apply (IH (i - 3 ^ f)); lia|apply HP; lia].
      + rewrite <- cis_add. f_equal. rewrite minus_IZR. ring.
  Qed.

  (** the multiplication by twiddle factors *)
  Lemma bytwiddle_ok p n sign f i a : (p = LOG3 -> 2 <= n) -> pol_exps p n es -> sign = 1 \/ sign = -1 -> 0 <= i < n ->
    D (f i) a -> D (bytwiddle pheq M p uca n sign w f i) (cis (IZR sign * theta * IZR i) * a)%C.
  Proof.
    intros H2 He Hs Hi Hf.
    assert (MB : forall g, (0 < i -> good g i) -> D (make_bytwiddle pheq M sign uca g f i) (cis (IZR sign * theta * IZR i) * a)%C).
    { intros g Hg. unfold make_bytwiddle. destruct (Z.eqb_spec i 0) as [->|N].
      - eapply D_eq; [exact Hf|]. rewrite Rmult_0_r, cis_0. ring.
      - assert (0 < i) by lia. destruct Hs as [->| ->].
        + change (1 =? 1) with true. cbn iota. eapply D_eq; [apply D_mul; [apply Hg; auto|exact Hf]|]. do 2 f_equal. ring.
        + change (-1 =? 1) with false. cbn iota. eapply D_eq; [apply D_mulj; [apply Hg; auto|exact Hf]|]. rewrite conj_cis. do 2 f_equal. ring. }
    destruct p; cbn [bytwiddle].
    - apply MB. intros Hp. apply Hw; [lia|]. cbn in He. rewrite He, nth_map_zr by lia. f_equal. lia.
    - destruct He as (L & HL & H3 & _ & He). apply MB. intros Hp. apply (log2_ok n L); auto; lia.
    - specialize (H2 eq_refl). destruct He as (t & Ht & -> & H3 & H4 & He).
      assert (T1 : 1 <= t). { destruct (Z.eq_dec t 0) as [->|]; [change (3 ^ 0) with 1 in H3; lia|lia]. }
      rewrite tpow_ok by lia. apply MB. intros Hp. apply log3_ok; auto. lia.
  Qed.
End Pol.
