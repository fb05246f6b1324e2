(** * The wisdom hash tables: invariant and abstraction to a set of records. *)
From Coq Require Import ZArith Znumtheory List Lia Bool Permutation.
From Verif Require Import Base NumTheory PrimesModel PrimesProofs Offs HashModel.
Import ListNotations.
Open Scope Z_scope.

(** ** The probe sequence *)
Definition MAXP : Z := 2 ^ 31 - 1.
Definition pb (p : Z) (s : sig) (i : Z) : Z := (h1 p s + i * h2 p s) mod p.

Lemma u32_id z : 0 <= z < 2 ^ 32 -> u32 z = z.
Proof. intros H. unfold u32. now apply Z.mod_small. Qed.
Lemma addmod_spec a b p : 0 <= a < p -> 0 <= b < p -> p <= MAXP -> addmod a b p = (a + b) mod p.
Proof.
  intros Ha Hb Hp. unfold MAXP in Hp. unfold addmod. cbv zeta. rewrite (u32_id (a + b)) by lia.
  destruct (Z.leb_spec p (a + b)) as [L|L].
  - rewrite u32_id by lia. apply Z.mod_unique with (q := 1); lia.
  - symmetry. apply Z.mod_small. lia.
Qed.
Lemma h1_range p s : 0 < p -> 0 <= h1 p s < p.
Proof. intros H. unfold h1. now apply Z.mod_pos_bound. Qed.
Lemma h2_range p s : 2 <= p -> p <= MAXP -> 1 <= h2 p s < p.
Proof.
  intros H1 H2. unfold MAXP in H2. unfold h2. rewrite (u32_id (p - 1)) by lia.
  pose proof (Z.mod_pos_bound (s1 s) (p - 1) ltac:(lia)). rewrite u32_id by lia. lia.
Qed.
Lemma pb_range p s i : 0 < p -> 0 <= pb p s i < p.
Proof. intros H. unfold pb. now apply Z.mod_pos_bound. Qed.
Lemma pb_0 p s : 0 < p -> pb p s 0 = h1 p s.
Proof. intros H. unfold pb. rewrite Z.mul_0_l, Z.add_0_r. apply Z.mod_small. now apply h1_range. Qed.
Lemma pb_p p s : 0 < p -> pb p s p = h1 p s.
Proof.
  intros H. unfold pb. rewrite Z.add_mod, (Z.mul_comm p), Z.mod_mul, Z.add_0_r, Z.mod_mod by lia.
  apply Z.mod_small. now apply h1_range.
Qed.
Lemma pb_next p s i : 2 <= p -> p <= MAXP -> addmod (pb p s i) (h2 p s) p = pb p s (i + 1).
Proof.
  intros H1 H2. pose proof (h2_range p s H1 H2). rewrite addmod_spec; try lia; [|apply pb_range; lia].
  unfold pb. rewrite Z.add_mod_idemp_l by lia. f_equal. ring.
Qed.
Lemma pb_inj p s i j : prime p -> p <= MAXP -> 0 <= i < p -> 0 <= j < p -> pb p s i = pb p s j -> i = j.
Proof.
  intros Hp Hm Hi Hj E. pose proof (prime_ge_2 p Hp) as H2. pose proof (h2_range p s H2 Hm) as Hd.
  unfold pb in E. assert (D : (p | (i - j) * h2 p s)).
  { apply Z.mod_divide; [lia|]. replace ((i - j) * h2 p s) with (h1 p s + i * h2 p s - (h1 p s + j * h2 p s)) by ring.
    rewrite Zminus_mod, E, Z.sub_diag. apply Z.mod_0_l. lia. }
  apply prime_mult in D as [D|D]; auto.
  - destruct D as [k Hk]. assert (k = 0) by nia. subst k. lia.
  - apply Z.divide_pos_le in D; lia.
Qed.
Lemma pb_surj p s g : prime p -> p <= MAXP -> 0 <= g < p -> exists i, 0 <= i < p /\ pb p s i = g.
Proof.
  intros Hp Hm Hg. pose proof (prime_ge_2 p Hp) as H2. pose proof (h2_range p s H2 Hm) as Hd.
  assert (R : rel_prime (h2 p s) p).
  { apply rel_prime_sym, prime_rel_prime; auto. intros D. apply Z.divide_pos_le in D; lia. }
  apply rel_prime_bezout in R. destruct R as [u v E].
  exists (((g - h1 p s) * u) mod p). split; [apply Z.mod_pos_bound; lia|].
  unfold pb. rewrite Z.add_mod, Z.mul_mod_idemp_l by lia. rewrite <- Z.add_mod by lia.
  replace (h1 p s + (g - h1 p s) * u * h2 p s) with (g + ((h1 p s - g) * v) * p).
  - rewrite Z.mod_add by lia. now apply Z.mod_small.
  - transitivity (h1 p s + (g - h1 p s) * (u * h2 p s)); [|ring]. replace (u * h2 p s) with (1 - v * p) by lia. ring.
Qed.

(** ** Records *)
Definition rec_of (l : slot) : record := mkrec (skey l) (fl (sflags l)) (fu (sflags l)) (ftl (sflags l)) (sndx l).
Definition live_at (ht : hashtab) (g : Z) : bool := slive (sols ht g).
Definition records (ht : hashtab) : list record :=
  map (fun g => rec_of (sols ht g)) (filter (live_at ht) (zr (hashsiz ht))).
Definition rflags (r : record) : flags_t := mkfl (rl r) (ru r) (rtl r) false.

Lemma subsumes_bless a n b a' b' : fl a = fl a' -> fu a = fu a' -> ftl a = ftl a' -> fl b = fl b' -> fu b = fu b' -> ftl b = ftl b' ->
  subsumes a n b = subsumes a' n b'.
Proof. intros E1 E2 E3 E4 E5 E6. unfold subsumes. rewrite E1, E2, E3, E4, E5, E6. reflexivity. Qed.
Lemma LEQ_refl x : LEQ x x = true.
Proof. unfold LEQ. rewrite Z.land_diag. apply Z.eqb_refl. Qed.
Lemma LEQ_trans x y z : LEQ x y = true -> LEQ y z = true -> LEQ x z = true.
Proof.
  unfold LEQ. rewrite !Z.eqb_eq. intros H1 H2. rewrite <- H1 at 1. rewrite <- Z.land_assoc, H2. exact H1.
Qed.
Lemma LEQ_antisym x y : LEQ x y = true -> LEQ y x = true -> x = y.
Proof. unfold LEQ. rewrite !Z.eqb_eq. intros H1 H2. rewrite <- H1. rewrite Z.land_comm. exact H2. Qed.
Lemma subsumes_refl f n : subsumes f n f = true.
Proof. unfold subsumes. rewrite !LEQ_refl, Z.leb_refl. now destruct (negb _). Qed.
Lemma md5eq_iff a b : md5eq a b = true <-> a = b.
Proof.
  unfold md5eq. rewrite !andb_true_iff, !Z.eqb_eq. destruct a, b; cbn. split.
  - intros [[[-> ->] ->] ->]. reflexivity.
  - intros E. injection E as -> -> -> ->. auto.
Qed.

(** ** Invariant *)
Record WF (ht : hashtab) : Prop := {
  wf_p : prime (hashsiz ht);
  wf_max : hashsiz ht <= MAXP;
  wf_nelem : nelem ht = Z.of_nat (length (records ht));
  wf_room : nelem ht < hashsiz ht;
  wf_live : forall g, 0 <= g < hashsiz ht -> live_at ht g = true -> svalid (sols ht g) = true;
  wf_ndx : forall g, 0 <= g < hashsiz ht -> live_at ht g = true -> 0 <= sndx (sols ht g) < 2 ^ 12;
  wf_reach : forall g, 0 <= g < hashsiz ht -> live_at ht g = true ->
    exists i, 0 <= i < hashsiz ht /\ pb (hashsiz ht) (skey (sols ht g)) i = g /\
      forall j, 0 <= j < i -> svalid (sols ht (pb (hashsiz ht) (skey (sols ht g)) j)) = true }.
Lemma WF_2 ht : WF ht -> 2 <= hashsiz ht.
Proof. intros W. apply prime_ge_2, (wf_p _ W). Qed.

Lemma slot_at_ok ht g : 0 <= g < hashsiz ht -> slot_at ht g = Ret (sols ht g).
Proof.
  intros H. unfold slot_at. destruct (Z.leb_spec 0 g); [|lia]. destruct (Z.ltb_spec g (hashsiz ht)); [|lia]. reflexivity.
Qed.

(** ** records of a table with one slot replaced *)
Definition others (ht : hashtab) (g : Z) : list record :=
  map (fun g => rec_of (sols ht g)) (filter (live_at ht) (filter (fun x => negb (x =? g)) (zr (hashsiz ht)))).
Definition opt_rec (l : slot) : list record := if slive l then [rec_of l] else [].
Lemma zr_split p g : 0 <= g < p -> Permutation (zr p) (g :: filter (fun x => negb (x =? g)) (zr p)).
Proof.
  intros H. apply NoDup_Permutation.
  - apply NoDup_zr.
  - constructor.
    + rewrite filter_In. intros [_ E]. rewrite Z.eqb_refl in E. discriminate.
    + apply NoDup_filter, NoDup_zr.
  - intros x. cbn [In]. rewrite filter_In, !in_zr. destruct (Z.eqb_spec x g); cbn; split; intros; try lia; intuition (auto; try lia).
Qed.
Lemma Permutation_filter {A} (f : A -> bool) l l' : Permutation l l' -> Permutation (filter f l) (filter f l').
Proof.
  induction 1; cbn.
  - constructor.
  - destruct (f x); auto.
  - destruct (f x), (f y); auto. constructor.
  - etransitivity; eauto.
Qed.
Lemma records_split ht g : 0 <= g < hashsiz ht -> Permutation (records ht) (opt_rec (sols ht g) ++ others ht g).
Proof.
  intros H. unfold records, others, opt_rec.
  rewrite (Permutation_map _ (Permutation_filter _ _ _ (zr_split _ g H))). cbn [filter].
  change (live_at ht g) with (slive (sols ht g)). destruct (slive (sols ht g)); reflexivity.
Qed.
Lemma others_put ht g n l : others (put ht g n l) g = others ht g.
Proof.
  unfold others, put. cbn [hashsiz]. unfold live_at. cbn [sols].
  induction (zr (hashsiz ht)) as [|x xs IH]; [reflexivity|]. cbn [filter]. destruct (Z.eqb_spec x g) as [->|N]; cbn [negb]; auto.
  cbn [filter]. destruct (Z.eqb_spec x g) as [E|_]; [contradiction|]. destruct (slive (sols ht x)); auto. cbn [map].
  destruct (Z.eqb_spec x g) as [E|_]; [contradiction|]. f_equal. exact IH.
Qed.
Lemma records_put ht g n l : 0 <= g < hashsiz ht -> Permutation (records (put ht g n l)) (opt_rec l ++ others ht g).
Proof.
  intros H. rewrite (records_split (put ht g n l) g) by exact H. rewrite others_put. unfold put at 1. cbn [sols]. now rewrite Z.eqb_refl.
Qed.
Lemma records_ext ht ht' : hashsiz ht' = hashsiz ht ->
  (forall g, 0 <= g < hashsiz ht -> sols ht' g = sols ht g) -> records ht' = records ht.
Proof.
  intros E H. unfold records. rewrite E.
  assert (forall l, (forall g, In g l -> 0 <= g < hashsiz ht) ->
    map (fun g => rec_of (sols ht' g)) (filter (live_at ht') l) = map (fun g => rec_of (sols ht g)) (filter (live_at ht) l)) as Q.
  { induction l as [|g l IH]; intros Hl; [reflexivity|]. cbn [filter].
    assert (LE : live_at ht' g = live_at ht g) by (unfold live_at; rewrite H by (apply Hl; now left); reflexivity). rewrite LE.
    destruct (live_at ht g); cbn [map]; rewrite IH by (intros; apply Hl; now right); auto. rewrite H by (apply Hl; now left). reflexivity. }
  apply Q. intros g. apply in_zr.
Qed.
Lemma records_len_le ht : 0 <= hashsiz ht -> Z.of_nat (length (records ht)) <= hashsiz ht.
Proof.
  intros H. unfold records. rewrite map_length.
  assert (length (filter (live_at ht) (zr (hashsiz ht))) <= length (zr (hashsiz ht)))%nat.
  { generalize (zr (hashsiz ht)). induction l as [|x l IH]; cbn; auto. destruct (live_at ht x); cbn; lia. }
  unfold zr, zrange in *. rewrite map_length, seq_length in *. lia.
Qed.
Lemma in_records ht r : In r (records ht) <-> exists g, 0 <= g < hashsiz ht /\ live_at ht g = true /\ r = rec_of (sols ht g).
Proof.
  unfold records. rewrite in_map_iff. split.
  - intros (g & <- & H). apply filter_In in H as [H1 H2]. apply in_zr in H1. eauto.
  - intros (g & H1 & H2 & ->). exists g. split; auto. apply filter_In. split; auto. now apply in_zr.
Qed.

(** ** fill and kill *)
Lemma kill_ok ht g : WF ht -> 0 <= g < hashsiz ht -> live_at ht g = true ->
  exists ht', kill_slot ht g = Ret ht' /\ WF ht' /\ hashsiz ht' = hashsiz ht /\ nelem ht' = nelem ht - 1 /\
    (forall g', svalid (sols ht' g') = svalid (sols ht g') \/ g' = g) /\ svalid (sols ht' g) = true /\ slive (sols ht' g) = false /\
    (forall g', g' <> g -> sols ht' g' = sols ht g').
Proof.
  intros W Hg Hl. unfold kill_slot. rewrite slot_at_ok by auto. cbn [bind]. eexists. split; [reflexivity|].
  set (l := mkslot true false _ _ _). set (ht' := put ht g _ l).
  assert (SG : sols ht' g = l) by (unfold ht', put; cbn [sols]; now rewrite Z.eqb_refl).
  assert (SO : forall g', g' <> g -> sols ht' g' = sols ht g')
    by (intros g' N; unfold ht', put; cbn [sols]; destruct (Z.eqb_spec g' g); [contradiction|reflexivity]).
  pose proof (wf_live _ W g Hg Hl) as Hv.
  assert (SV : forall g', svalid (sols ht g') = true -> svalid (sols ht' g') = true).
  { intros g' H. destruct (Z.eq_dec g' g) as [->|N]; [now rewrite SG|now rewrite SO]. }
  assert (EL : Z.of_nat (length (records ht')) = Z.of_nat (length (records ht)) - 1).
  { unfold ht'. rewrite (Permutation_length (records_put ht g _ l Hg)). rewrite (Permutation_length (records_split ht g Hg)).
    unfold opt_rec. cbn [slive l app]. unfold live_at in Hl. rewrite Hl. cbn [app length]. lia. }
  assert (EN : nelem ht' = nelem ht - 1).
  { unfold ht', put. cbn [nelem]. pose proof (wf_room _ W). pose proof (wf_nelem _ W). pose proof (wf_max _ W). unfold MAXP in *. apply u32_id. lia. }
  split; [constructor|split; [reflexivity|split; [exact EN|split; [|split; [now rewrite SG|split; [now rewrite SG|exact SO]]]]]].
  - apply (wf_p _ W).
  - apply (wf_max _ W).
  - rewrite EN, EL, (wf_nelem _ W). reflexivity.
  - rewrite EN. pose proof (wf_room _ W). cbn [ht' put hashsiz]. lia.
  - intros g' Hg' H. destruct (Z.eq_dec g' g) as [->|N]; [now rewrite SG|]. unfold live_at in H. rewrite SO in * by auto. now apply (wf_live _ W).
  - intros g' Hg' H. destruct (Z.eq_dec g' g) as [->|N]; [unfold live_at in H; rewrite SG in H; discriminate|].
    unfold live_at in H. rewrite SO in H by auto. rewrite SO by auto. now apply (wf_ndx _ W).
  - intros g' Hg' H. destruct (Z.eq_dec g' g) as [->|N]; [unfold live_at in H; rewrite SG in H; discriminate|].
    unfold live_at in H. rewrite SO in H by auto. rewrite SO by auto. cbn [ht' put hashsiz] in Hg' |- *.
    destruct (wf_reach _ W g' Hg' H) as (i & Hi & E & V). exists i. split; [exact Hi|]. split; [exact E|]. intros j Hj. apply SV, V, Hj.
  - intros g'. destruct (Z.eq_dec g' g) as [->|N]; [now right|left; now rewrite SO].
Qed.

Lemma fill_ok ht s f n g : WF ht -> 0 <= g < hashsiz ht -> live_at ht g = false -> nelem ht + 1 < hashsiz ht -> 0 <= n < 2 ^ 12 ->
  (exists i, 0 <= i < hashsiz ht /\ pb (hashsiz ht) s i = g /\ forall j, 0 <= j < i -> svalid (sols ht (pb (hashsiz ht) s j)) = true) ->
  exists ht', fill_slot ht s f n g = Ret ht' /\ WF ht' /\ hashsiz ht' = hashsiz ht /\
    Permutation (records ht') (mkrec s (fl f) (fu f) (ftl f) n :: records ht).
Proof.
  intros W Hg Hl Hr Hn RE. unfold fill_slot. rewrite slot_at_ok by auto. cbn [bind].
  rewrite (Z.mod_small n) by auto. rewrite Z.eqb_refl. cbn [assert_ bind]. eexists. split; [reflexivity|].
  set (l := mkslot true true s _ n). set (ht' := put ht g _ l).
  assert (SG : sols ht' g = l) by (unfold ht', put; cbn [sols]; now rewrite Z.eqb_refl).
  assert (SO : forall g', g' <> g -> sols ht' g' = sols ht g')
    by (intros g' N; unfold ht', put; cbn [sols]; destruct (Z.eqb_spec g' g); [contradiction|reflexivity]).
  assert (SV : forall g', svalid (sols ht g') = true -> svalid (sols ht' g') = true).
  { intros g' H. destruct (Z.eq_dec g' g) as [->|N]; [now rewrite SG|now rewrite SO]. }
  assert (PE : Permutation (records ht') (mkrec s (fl f) (fu f) (ftl f) n :: records ht)).
  { unfold ht'. rewrite (records_put ht g _ l Hg). rewrite (records_split ht g Hg). unfold opt_rec. cbn [slive l].
    unfold live_at in Hl. rewrite Hl. cbn [app]. reflexivity. }
  assert (EN : nelem ht' = nelem ht + 1).
  { unfold ht', put. cbn [nelem]. pose proof (wf_nelem _ W). pose proof (wf_max _ W). unfold MAXP in *. apply u32_id. lia. }
  split; [|split; [reflexivity|exact PE]]. constructor.
  - apply (wf_p _ W).
  - apply (wf_max _ W).
  - rewrite EN, (Permutation_length PE), (wf_nelem _ W). cbn [length]. lia.
  - rewrite EN. exact Hr.
  - intros g' Hg' H. destruct (Z.eq_dec g' g) as [->|N]; [now rewrite SG|]. unfold live_at in H. rewrite SO in * by auto. now apply (wf_live _ W).
  - intros g' Hg' H. destruct (Z.eq_dec g' g) as [->|N]; [now rewrite SG|]. unfold live_at in H. rewrite SO in * by auto. now apply (wf_ndx _ W).
  - intros g' Hg' H. cbn [ht' put hashsiz] in Hg' |- *. destruct (Z.eq_dec g' g) as [->|N].
    + rewrite SG. cbn [skey l]. destruct RE as (i & Hi & E & V). exists i. split; [exact Hi|]. split; [exact E|]. intros j Hj. apply SV, V, Hj.
    + unfold live_at in H. rewrite SO in H by auto. rewrite SO by auto.
      destruct (wf_reach _ W g' Hg' H) as (i & Hi & E & V). exists i. split; [exact Hi|]. split; [exact E|]. intros j Hj. apply SV, V, Hj.
Qed.

(** ** hinsert0 *)
Lemma some_free ht : WF ht -> exists g, 0 <= g < hashsiz ht /\ live_at ht g = false.
Proof.
  intros W. pose proof (WF_2 _ W) as H2.
  destruct (existsb (fun g => negb (live_at ht g)) (zr (hashsiz ht))) eqn:E.
  - apply existsb_exists in E as (g & Hg & H). apply in_zr in Hg. apply negb_true_iff in H. eauto.
  - exfalso. assert (A : forall g, In g (zr (hashsiz ht)) -> live_at ht g = true).
    { intros g Hg. destruct (live_at ht g) eqn:L; auto. assert (existsb (fun g => negb (live_at ht g)) (zr (hashsiz ht)) = true).
      { apply existsb_exists. exists g. rewrite L. auto. } congruence. }
    pose proof (wf_room _ W) as R. rewrite (wf_nelem _ W) in R. unfold records in R. rewrite map_length in R.
    assert (F : filter (live_at ht) (zr (hashsiz ht)) = zr (hashsiz ht)).
    { revert A. generalize (zr (hashsiz ht)). induction l as [|x l IH]; intros A; cbn; auto. rewrite A by now left. f_equal. apply IH. intros; apply A; now right. }
    rewrite F in R. unfold zr, zrange in R. rewrite map_length, seq_length in R. lia.
Qed.
Lemma free_slot_ok ht s : WF ht ->
  forall (fuel : nat) i, 0 <= i -> (forall j, 0 <= j < i -> live_at ht (pb (hashsiz ht) s j) = true) ->
  hashsiz ht - i < Z.of_nat fuel ->
  exists k, i <= k < hashsiz ht /\ free_slot fuel ht (h2 (hashsiz ht) s) (pb (hashsiz ht) s i) = Ret (pb (hashsiz ht) s k) /\
    live_at ht (pb (hashsiz ht) s k) = false /\ forall j, 0 <= j < k -> live_at ht (pb (hashsiz ht) s j) = true.
Proof.
  intros W. pose proof (WF_2 _ W) as H2. pose proof (wf_max _ W) as HM. set (p := hashsiz ht) in *.
  assert (B : forall i, 0 <= i -> (forall j, 0 <= j < i -> live_at ht (pb p s j) = true) -> i < p).
  { intros i Hi A. destruct (Z.lt_ge_cases i p) as [L|L]; auto. exfalso. destruct (some_free ht W) as (g & Hg & F).
    destruct (pb_surj p s g (wf_p _ W) HM Hg) as (j & Hj & E). rewrite <- E in F. rewrite A in F by lia. discriminate. }
  induction fuel as [|fuel IH]; intros i Hi A Hf; pose proof (B i Hi A) as Li; [lia|].
  cbn [free_slot]. rewrite slot_at_ok by (apply pb_range; lia). cbn [bind]. fold (live_at ht (pb p s i)).
  change (slive (sols ht (pb p s i))) with (live_at ht (pb p s i)).
  destruct (live_at ht (pb p s i)) eqn:L.
  - fold p. rewrite pb_next by auto. destruct (IH (i + 1)) as (k & Hk & E & F & Q); [lia| |lia|].
    + intros j Hj. destruct (Z.eq_dec j i) as [->|N]; auto. apply A. lia.
    + exists k. split; [lia|]. auto.
  - exists i. split; [lia|]. auto.
Qed.
Lemma hinsert0_ok ht s f n : WF ht -> nelem ht + 1 < hashsiz ht -> 0 <= n < 2 ^ 12 ->
  exists ht', hinsert0 ht s f n = Ret ht' /\ WF ht' /\ hashsiz ht' = hashsiz ht /\
    Permutation (records ht') (mkrec s (fl f) (fu f) (ftl f) n :: records ht).
Proof.
  intros W Hr Hn. pose proof (WF_2 _ W) as H2. unfold hinsert0. rewrite <- (pb_0 _ s) by lia.
  destruct (free_slot_ok ht s W (S (Z.to_nat (hashsiz ht))) 0) as (k & Hk & E & F & Q); [lia| |lia|].
  - intros j Hj. lia.
  - rewrite E. cbn [bind]. apply fill_ok; auto.
    + apply pb_range. lia.
    + exists k. split; [lia|]. split; auto. intros j Hj. apply (wf_live _ W); auto. apply pb_range. lia.
Qed.

(** ** growth *)
Lemma mersenne31 : prime MAXP.
Proof.
  destruct (is_prime_spec INT_MAX64 MAXP) as (b & E & H).
  - unfold INT_MAX64. lia.
  - unfold INT_MAX64, MAXP. lia.
  - exists 46341. unfold MAXP, INT_MAX64. lia.
  - apply H. assert (is_prime INT_MAX64 MAXP = Ret true) as E2 by (vm_compute; reflexivity). congruence.
Qed.
Lemma empty_table_WF p : prime p -> p <= MAXP -> WF (mkht p 0 (fun _ => empty_slot)).
Proof.
  intros Hp Hm. pose proof (prime_ge_2 p Hp).
  assert (R0 : records (mkht p 0 (fun _ => empty_slot)) = []).
  { unfold records. cbn [hashsiz]. generalize (zr p). induction l as [|x l IH]; auto. }
  constructor; cbn [hashsiz nelem]; auto; try (intros g Hg L; discriminate).
  - now rewrite R0.
  - lia.
Qed.
Lemma empty_table_records p : records (mkht p 0 (fun _ => empty_slot)) = [].
Proof. unfold records. cbn [hashsiz]. generalize (zr p). induction l as [|x l IH]; auto. Qed.

Lemma rehash_loop_ok old : (forall g, 0 <= g < hashsiz old -> live_at old g = true -> 0 <= sndx (sols old g) < 2 ^ 12) ->
  forall (cnt : nat) h ht, 0 <= h -> h + Z.of_nat cnt = hashsiz old -> WF ht ->
  let todo := filter (live_at old) (map (fun i => h + i) (zr (Z.of_nat cnt))) in
  nelem ht + Z.of_nat (length todo) < hashsiz ht ->
  exists ht', rehash_loop cnt old h ht = Ret ht' /\ WF ht' /\ hashsiz ht' = hashsiz ht /\
    Permutation (records ht') (map (fun g => rec_of (sols old g)) todo ++ records ht).
Proof.
  intros Hndx. induction cnt as [|cnt IH]; intros h ht Hh Hc W todo Hr; cbn [rehash_loop].
  - exists ht. split; [reflexivity|]. split; auto.
  - rewrite slot_at_ok by lia. cbn [bind].
    assert (ET : todo = (if live_at old h then [h] else []) ++ filter (live_at old) (map (fun i => h + 1 + i) (zr (Z.of_nat cnt)))).
    { unfold todo. replace (map (fun i => h + i) (zr (Z.of_nat (S cnt)))) with (h :: map (fun i => h + 1 + i) (zr (Z.of_nat cnt))).
      - cbn [filter]. destruct (live_at old h); reflexivity.
      - unfold zr, zrange. rewrite !Nat2Z.id. cbn [seq map]. f_equal; [lia|]. rewrite !map_map, <- seq_shift, map_map.
        apply map_ext. intros. lia. }
    clearbody todo. subst todo. rewrite app_length, Nat2Z.inj_add in Hr.
    change (slive (sols old h)) with (live_at old h). destruct (live_at old h) eqn:L; cbn [app length] in Hr |- *.
    + destruct (hinsert0_ok ht (skey (sols old h)) (sflags (sols old h)) (sndx (sols old h)) W) as (ht1 & E1 & W1 & S1 & P1).
      * lia.
      * apply Hndx; auto. lia.
      * rewrite E1. cbn [bind]. destruct (IH (h + 1) ht1) as (ht2 & E2 & W2 & S2 & P2); [lia|lia|auto| |].
        -- rewrite S1, (wf_nelem _ W1), (Permutation_length P1). cbn [length]. rewrite (wf_nelem _ W) in Hr. lia.
        -- exists ht2. split; auto. split; auto. split; [congruence|]. rewrite P2, P1. cbn [map app].
           symmetry. apply Permutation_cons_app. reflexivity.
    + cbn [bind]. destruct (IH (h + 1) ht) as (ht2 & E2 & W2 & S2 & P2); [lia|lia|auto|lia|].
      exists ht2. auto.
Qed.
Lemma minsz_spec n : 0 <= n < 2 ^ 31 -> minsz n = 1 + n + n / 8.
Proof. intros H. unfold minsz. apply u32_id. assert (n / 8 <= 2 ^ 28) by (apply Z.div_le_upper_bound; lia). assert (0 <= n / 8) by (apply Z.div_pos; lia). lia. Qed.
(** tables with fewer than 2^30 records can be grown *)
Lemma rehash_ok ht : 0 <= hashsiz ht -> nelem ht = Z.of_nat (length (records ht)) -> nelem ht < 2 ^ 30 ->
  (forall g, 0 <= g < hashsiz ht -> live_at ht g = true -> 0 <= sndx (sols ht g) < 2 ^ 12) ->
  exists ht', rehash ht (nextsz (nelem ht)) = Ret ht' /\ WF ht' /\ Permutation (records ht') (records ht) /\ minsz (nelem ht) < hashsiz ht'.
Proof.
  intros H0 Hn Hb Hndx. unfold rehash. set (n := nelem ht) in *. assert (0 <= n) by lia.
  assert (M1 : minsz n = 1 + n + n / 8) by (apply minsz_spec; lia).
  assert (D1 : 0 <= n / 8 <= n / 8) by (pose proof (Z.div_pos n 8); lia).
  assert (D2 : n / 8 <= 2 ^ 27) by (apply Z.div_le_upper_bound; lia).
  assert (M2 : nextsz n = 1 + minsz n + minsz n / 8) by (unfold nextsz; apply minsz_spec; lia).
  assert (D3 : 0 <= minsz n / 8) by (apply Z.div_pos; lia).
  assert (D4 : minsz n / 8 <= 2 ^ 28) by (apply Z.div_le_upper_bound; lia).
  destruct (next_prime_spec INT_MAX64 (nextsz n) MAXP 33) as (p & Ep & Hp & Bp & _).
  - unfold INT_MAX64. lia.
  - unfold INT_MAX64, MAXP. lia.
  - exists 46341. unfold MAXP, INT_MAX64. lia.
  - apply mersenne31.
  - unfold MAXP. lia.
  - unfold INT_MAX64. lia.
  - unfold MAXP. change (2 ^ Z.of_nat 33) with 8589934592. lia.
  - rewrite Ep. cbn [bind]. cbv zeta. rewrite (u32_id p) by (unfold MAXP in Bp; lia).
    destruct (rehash_loop_ok ht Hndx (Z.to_nat (hashsiz ht)) 0 (mkht p 0 (fun _ => empty_slot))) as (ht' & E & W & S & P).
    + lia.
    + lia.
    + apply empty_table_WF; auto. lia.
    + cbn [nelem hashsiz]. replace (map (fun i => 0 + i) (zr (Z.of_nat (Z.to_nat (hashsiz ht))))) with (zr (hashsiz ht)).
      * unfold n in *. rewrite Hn in *. unfold records in *. rewrite map_length in *. lia.
      * rewrite Z2Nat.id by auto. rewrite <- (map_id (zr (hashsiz ht))) at 1. apply map_ext. intros; lia.
    + exists ht'. split; auto. split; auto. split.
      * rewrite P, empty_table_records, app_nil_r. rewrite Z2Nat.id by auto. unfold records.
        replace (map (fun i => 0 + i) (zr (hashsiz ht))) with (zr (hashsiz ht)); [reflexivity|].
        rewrite <- (map_id (zr (hashsiz ht))) at 1. apply map_ext. intros; lia.
      * rewrite S. cbn [hashsiz]. lia.
Qed.
Lemma hgrow_ok ht : WF ht -> nelem ht < 2 ^ 30 ->
  exists ht', hgrow ht = Ret ht' /\ WF ht' /\ Permutation (records ht') (records ht) /\ nelem ht' + 1 < hashsiz ht'.
Proof.
  intros W Hb. unfold hgrow. pose proof (WF_2 _ W).
  assert (N0 : 0 <= nelem ht) by (rewrite (wf_nelem _ W); lia).
  pose proof (minsz_spec (nelem ht) ltac:(lia)) as M. assert (0 <= nelem ht / 8) by (apply Z.div_pos; lia).
  destruct (Z.leb_spec (hashsiz ht) (minsz (nelem ht))) as [L|L].
  - destruct (rehash_ok ht) as (ht' & E & W' & P & B); auto; try lia; [apply (wf_nelem _ W)|apply (wf_ndx _ W)|].
    exists ht'. split; auto. split; auto. split; auto. rewrite (wf_nelem _ W'), (Permutation_length P), <- (wf_nelem _ W). lia.
  - exists ht. split; auto. split; auto. split; auto. lia.
Qed.
Lemma mkhashtab_ok : exists ht, mkhashtab = Ret ht /\ WF ht /\ records ht = [].
Proof.
  unfold mkhashtab, hgrow. cbn [hashsiz nelem]. change (0 <=? minsz 0) with true. cbv iota.
  destruct (rehash_ok (mkht 0 0 (fun _ => empty_slot))) as (ht' & E & W & P & B); cbn [hashsiz nelem]; try lia; auto.
  exists ht'. cbn [nelem] in E. split; auto. split; auto. apply Permutation_nil. symmetry. exact P.
Qed.

(** ** insertion *)
Section Kill.
  Context (ht0 : hashtab) (W0 : WF ht0) (s : sig) (f : flags_t) (n : Z).
  Let p := hashsiz ht0.
  Definition hit (l : slot) : bool := slive l && md5eq s (skey l) && subsumes f n (sflags l).
  Record KI (i : Z) (ht : hashtab) (first : option Z) : Prop := {
    ki_wf : WF ht;
    ki_p : hashsiz ht = p;
    ki_valid : forall g, 0 <= g < p -> svalid (sols ht g) = svalid (sols ht0 g);
    ki_same : forall g, sols ht g = sols ht0 g \/ (hit (sols ht0 g) = true /\ slive (sols ht g) = false);
    ki_done : forall j, 0 <= j < i -> hit (sols ht (pb p s j)) = false /\ svalid (sols ht0 (pb p s j)) = true;
    ki_todo : forall j, i <= j < p -> sols ht (pb p s j) = sols ht0 (pb p s j);
    ki_first : match first with
      | Some g => exists j, 0 <= j < i /\ g = pb p s j /\ live_at ht g = false /\ nelem ht + 1 < p
      | None => forall g, sols ht g = sols ht0 g end }.
  Lemma KI_0 : KI 0 ht0 None.
  Proof. constructor; auto. intros; lia. Qed.
  Lemma kill_loop_ok : forall (fuel : nat) i ht first, 0 <= i < p -> KI i ht first -> p - i < Z.of_nat fuel ->
    exists ht' first' k, kill_loop fuel ht s f n (h1 p s) (h2 p s) (pb p s i) first = Ret (ht', first') /\ KI k ht' first' /\
      (k = p \/ (0 <= k < p /\ svalid (sols ht0 (pb p s k)) = false)).
  Proof.
    pose proof (WF_2 _ W0) as H2. pose proof (wf_max _ W0) as HM. fold p in H2, HM.
    induction fuel as [|fuel IH]; intros i ht first Hi K Hf; [lia|]. cbn [kill_loop].
    pose proof (pb_range p s i ltac:(lia)) as Hg. rewrite slot_at_ok by (rewrite (ki_p _ _ _ K); exact Hg). cbn [bind].
    destruct (svalid (sols ht (pb p s i))) eqn:V.
    2:{ exists ht, first, i. split; [reflexivity|]. split; auto. right. split; [lia|]. rewrite <- (ki_valid _ _ _ K); auto. }
    assert (V0 : svalid (sols ht0 (pb p s i)) = true) by (rewrite <- (ki_valid _ _ _ K); auto).
    change (slive (sols ht (pb p s i)) && md5eq s (skey (sols ht (pb p s i))) && subsumes f n (sflags (sols ht (pb p s i))))
      with (hit (sols ht (pb p s i))).
    pose proof (ki_todo _ _ _ K i ltac:(lia)) as T.
    destruct (hit (sols ht (pb p s i))) eqn:H.
    - assert (L : live_at ht (pb p s i) = true) by (unfold hit in H; apply andb_true_iff in H as [H _]; apply andb_true_iff in H as [H _]; exact H).
      destruct (kill_ok ht (pb p s i) (ki_wf _ _ _ K)) as (ht' & E & W' & Sz & Ne & Va & Vg & Lg & So); auto.
      { rewrite (ki_p _ _ _ K). exact Hg. }
      rewrite E. cbn [bind]. set (first' := match first with None => Some (pb p s i) | Some _ => first end).
      assert (K' : KI (i + 1) ht' first').
      { constructor; auto.
        - rewrite Sz. apply (ki_p _ _ _ K).
        - intros g Hg'. destruct (Va g) as [Q| ->]; [rewrite Q; now apply (ki_valid _ _ _ K)|]. congruence.
        - intros g. destruct (Z.eq_dec g (pb p s i)) as [->|N]; [right; rewrite <- T; auto|]. rewrite So by auto. apply (ki_same _ _ _ K).
        - intros j Hj. destruct (Z.eq_dec j i) as [->|N].
          + split; auto. unfold hit. now rewrite Lg.
          + assert (pb p s j <> pb p s i) as Np by (intros Q; apply pb_inj in Q; try lia; apply (wf_p _ W0)).
            rewrite So by auto. apply (ki_done _ _ _ K). lia.
        - intros j Hj. assert (pb p s j <> pb p s i) as Np by (intros Q; apply pb_inj in Q; try lia; apply (wf_p _ W0)).
          rewrite So by auto. apply (ki_todo _ _ _ K). lia.
        - unfold first'. pose proof (wf_room _ (ki_wf _ _ _ K)) as R. rewrite (ki_p _ _ _ K) in R. pose proof (ki_first _ _ _ K) as F. destruct first as [g|].
          + destruct F as (j & Hj & -> & Lf & Nf). exists j. split; [lia|]. split; auto. split; [|lia].
            unfold live_at in *. destruct (Z.eq_dec (pb p s j) (pb p s i)) as [Q|N]; [now rewrite Q|now rewrite So].
          + exists i. split; [lia|]. split; auto. split; [exact Lg|lia]. }
      rewrite (ki_p _ _ _ K). rewrite pb_next by auto.
      destruct (Z.eqb_spec (pb p s (i + 1)) (h1 p s)) as [Q|N].
      + exists ht', first', (i + 1). split; [reflexivity|]. split; auto. left.
        destruct (Z.eq_dec (i + 1) p) as [|N]; auto. rewrite <- (pb_0 p s) in Q by lia. apply pb_inj in Q; try lia; apply (wf_p _ W0).
      + assert (i + 1 <> p) by (intros Q; rewrite Q, pb_p in N by lia; contradiction).
        apply IH; auto; lia.
    - cbn [bind].
      assert (K' : KI (i + 1) ht first).
      { constructor; try apply K.
        - intros j Hj. destruct (Z.eq_dec j i) as [->|N]; [auto|]. apply (ki_done _ _ _ K). lia.
        - intros j Hj. apply (ki_todo _ _ _ K). lia.
        - pose proof (ki_first _ _ _ K) as F. destruct first as [g|]; auto. destruct F as (j & Hj & F). exists j. split; [lia|auto]. }
      rewrite (ki_p _ _ _ K). rewrite pb_next by auto.
      destruct (Z.eqb_spec (pb p s (i + 1)) (h1 p s)) as [Q|N].
      + exists ht, first, (i + 1). split; [reflexivity|]. split; auto. left.
        destruct (Z.eq_dec (i + 1) p) as [|N]; auto. rewrite <- (pb_0 p s) in Q by lia. apply pb_inj in Q; try lia; apply (wf_p _ W0).
      + assert (i + 1 <> p) by (intros Q; rewrite Q, pb_p in N by lia; contradiction).
        apply IH; auto; lia.
  Qed.
  (** after the loop no live slot of the table is subsumed by the new record *)
  Lemma KI_none k ht first : KI k ht first -> (k = p \/ (0 <= k < p /\ svalid (sols ht0 (pb p s k)) = false)) ->
    forall g, 0 <= g < p -> hit (sols ht g) = false.
  Proof.
    intros K Hk g Hg. destruct (hit (sols ht g)) eqn:H; auto. exfalso. unfold hit in H.
    apply andb_true_iff in H as [H Hs]. apply andb_true_iff in H as [Hl Hm]. apply md5eq_iff in Hm.
    destruct (wf_reach _ (ki_wf _ _ _ K) g) as (i & Hi & E & V); auto; [rewrite (ki_p _ _ _ K); auto|].
    rewrite (ki_p _ _ _ K) in *. rewrite <- Hm in *.
    assert (Vi : svalid (sols ht (pb p s i)) = true) by (apply (wf_live _ (ki_wf _ _ _ K)); [rewrite (ki_p _ _ _ K)|]; rewrite E; auto).
    assert (i < k).
    { destruct (Z.lt_ge_cases i k) as [|L]; auto. exfalso. destruct Hk as [->|[Hk1 Hk2]]; [lia|].
      rewrite <- (ki_valid _ _ _ K) in Hk2 by (apply pb_range; lia).
      destruct (Z.eq_dec k i) as [->|N]; [congruence|]. rewrite V in Hk2 by lia. discriminate. }
    destruct (ki_done _ _ _ K i ltac:(lia)) as [D _]. rewrite E in D. unfold hit in D. rewrite Hl, Hs, <- Hm in D.
    assert (md5eq s s = true) as Q by now apply md5eq_iff. cbn [andb] in D. rewrite Q in D. discriminate.
  Qed.
End Kill.

Definition killed_by (s : sig) (f : flags_t) (n : Z) (r : record) : bool :=
  md5eq s (rkey r) && subsumes f n (rflags r).
Lemma KI_records ht0 (W0 : WF ht0) s f n k ht first : KI ht0 s f n k ht first ->
  (forall g, 0 <= g < hashsiz ht0 -> hit s f n (sols ht g) = false) ->
  records ht = filter (fun r => negb (killed_by s f n r)) (records ht0).
Proof.
  intros K H. unfold records. rewrite (ki_p _ _ _ _ _ _ _ K).
  assert (Q : forall l, (forall g, In g l -> 0 <= g < hashsiz ht0) ->
    map (fun g => rec_of (sols ht g)) (filter (live_at ht) l) =
    filter (fun r => negb (killed_by s f n r)) (map (fun g => rec_of (sols ht0 g)) (filter (live_at ht0) l))).
  { induction l as [|g l IH]; intros Hl; [reflexivity|]. cbn [filter]. specialize (IH (fun g Hg => Hl g (or_intror Hg))).
    specialize (H g (Hl g (or_introl eq_refl))).
    assert (KB : forall x, slive x = true -> hit s f n x = killed_by s f n (rec_of x)).
    { intros x Lx. unfold hit, killed_by. rewrite Lx. cbn [andb rkey rec_of]. reflexivity. }
    destruct (ki_same _ _ _ _ _ _ _ K g) as [E|[E1 E2]].
    - assert (LE : live_at ht g = live_at ht0 g) by (unfold live_at; now rewrite E). rewrite LE, E in *.
      destruct (live_at ht0 g) eqn:L; auto. cbn [map filter].
      rewrite <- KB by auto. rewrite H. cbn [negb]. rewrite E. f_equal. exact IH.
    - assert (LE : live_at ht g = false) by exact E2. rewrite LE. assert (L0 : live_at ht0 g = true).
      { unfold hit in E1. apply andb_true_iff in E1 as [E1 _]. apply andb_true_iff in E1 as [E1 _]. exact E1. }
      rewrite L0. cbn [map filter]. rewrite <- KB by auto. rewrite E1. cbn [negb]. exact IH. }
  apply Q. intros g. apply in_zr.
Qed.

Theorem htab_insert_ok ht s f n : WF ht -> nelem ht < 2 ^ 30 -> 0 <= n < 2 ^ 12 ->
  exists ht', htab_insert ht s f n = Ret ht' /\ WF ht' /\
    Permutation (records ht') (mkrec s (fl f) (fu f) (ftl f) n :: filter (fun r => negb (killed_by s f n r)) (records ht)).
Proof.
  intros W Hb Hn. pose proof (WF_2 _ W) as H2. unfold htab_insert.
  destruct (kill_loop_ok ht W s f n (S (Z.to_nat (hashsiz ht))) 0 ht None) as (ht1 & first & k & E & K & Hk); [lia|now apply KI_0|lia|].
  rewrite pb_0 in E by lia. rewrite E. cbn [bind].
  pose proof (KI_none ht s f n k ht1 first K Hk) as NH. pose proof (KI_records ht W s f n k ht1 first K NH) as R.
  pose proof (ki_wf _ _ _ _ _ _ _ K) as W1. pose proof (ki_first _ _ _ _ _ _ _ K) as F. pose proof (ki_p _ _ _ _ _ _ _ K) as P.
  destruct first as [g|].
  - destruct F as (j & Hj & -> & L & N).
    assert (Hj' : 0 <= j < hashsiz ht).
    { destruct Hk as [->|[Hk _]]; lia. }
    destruct (fill_ok ht1 s f n (pb (hashsiz ht) s j) W1) as (ht' & E' & W' & S' & P'); auto.
    + rewrite P. apply pb_range. lia.
    + rewrite P. exact N.
    + rewrite P. exists j. split; [lia|]. split; auto. intros i Hi. rewrite (ki_valid _ _ _ _ _ _ _ K) by (apply pb_range; lia).
      destruct (ki_done _ _ _ _ _ _ _ K i ltac:(lia)) as [_ D]. exact D.
    + exists ht'. rewrite <- R. auto.
  - assert (Hb1 : nelem ht1 < 2 ^ 30).
    { rewrite (wf_nelem _ W1), R. rewrite (wf_nelem _ W) in Hb.
      assert (forall l, length (filter (fun r => negb (killed_by s f n r)) l) <= length l)%nat as Q.
      { induction l as [|x l IH]; cbn; auto. destruct (negb _); cbn; lia. }
      specialize (Q (records ht)). lia. }
    destruct (hgrow_ok ht1 W1 Hb1) as (ht2 & E2 & W2 & P2 & N2). rewrite E2. cbn [bind].
    destruct (hinsert0_ok ht2 s f n W2 N2 Hn) as (ht' & E' & W' & _ & P'). exists ht'. split; auto. split; auto.
    rewrite P', P2, R. reflexivity.
Qed.

(** ** lookup *)
Definition matches (s : sig) (f : flags_t) (r : record) : bool := md5eq s (rkey r) && subsumes (rflags r) (rndx r) f.
Section Look.
  Context (ht : hashtab) (W : WF ht) (s : sig) (f : flags_t).
  Let p := hashsiz ht.
  Definition ok (l : slot) : bool := slive l && md5eq s (skey l) && subsumes (sflags l) (sndx l) f.
  Definition LI (i : Z) (best : option (Z * slot)) : Prop :=
    (forall j, 0 <= j < i -> svalid (sols ht (pb p s j)) = true) /\
    match best with
    | None => forall j, 0 <= j < i -> ok (sols ht (pb p s j)) = false
    | Some (g, l) => (exists j, 0 <= j < i /\ g = pb p s j) /\ l = sols ht g /\ ok l = true /\
        forall j, 0 <= j < i -> ok (sols ht (pb p s j)) = true ->
          LEQ (fu (sflags (sols ht (pb p s j)))) (fu (sflags l)) = true -> fu (sflags (sols ht (pb p s j))) = fu (sflags l)
    end.
  Lemma lookup_loop_ok : forall (fuel : nat) i best, 0 <= i < p -> LI i best -> p - i < Z.of_nat fuel ->
    exists r k, lookup_loop fuel ht s f (h1 p s) (h2 p s) (pb p s i) best = Ret r /\ LI k r /\
      (k = p \/ (0 <= k < p /\ svalid (sols ht (pb p s k)) = false)).
  Proof.
    pose proof (WF_2 _ W) as H2. pose proof (wf_max _ W) as HM. fold p in H2, HM.
    induction fuel as [|fuel IH]; intros i best Hi K Hf; [lia|]. cbn [lookup_loop].
    pose proof (pb_range p s i ltac:(lia)) as Hg. rewrite slot_at_ok by exact Hg. cbn [bind].
    destruct (svalid (sols ht (pb p s i))) eqn:V.
    2:{ exists best, i. split; [reflexivity|]. split; auto. }
    change (slive (sols ht (pb p s i)) && md5eq s (skey (sols ht (pb p s i))) && subsumes (sflags (sols ht (pb p s i))) (sndx (sols ht (pb p s i))) f)
      with (ok (sols ht (pb p s i))).
    set (best' := if ok (sols ht (pb p s i)) then _ else best).
    assert (K' : LI (i + 1) best').
    { destruct K as [KV K]. split.
      - intros j Hj. destruct (Z.eq_dec j i) as [->|N]; auto. apply KV. lia.
      - unfold best'. destruct (ok (sols ht (pb p s i))) eqn:O.
        + destruct best as [[g b]|].
          * destruct K as ((j0 & Hj0 & Eg) & Eb & Ob & Mb).
            destruct (LEQ (fu (sflags (sols ht (pb p s i)))) (fu (sflags b))) eqn:LE.
            -- split; [exists i; split; [lia|auto]|]. split; auto. split; auto. intros j Hj Oj Lj.
               destruct (Z.eq_dec j i) as [->|N]; auto.
               assert (fu (sflags (sols ht (pb p s j))) = fu (sflags b)) as Q by (apply Mb; auto; [lia|eapply LEQ_trans; eauto]).
               apply LEQ_antisym; auto. rewrite Q. exact LE.
            -- split; [exists j0; split; [lia|auto]|]. split; auto. split; auto. intros j Hj Oj Lj.
               destruct (Z.eq_dec j i) as [->|N]; [congruence|]. apply Mb; auto. lia.
          * split; [exists i; split; [lia|auto]|]. split; auto. split; auto. intros j Hj Oj Lj.
            destruct (Z.eq_dec j i) as [->|N]; auto. rewrite K in Oj by lia. discriminate.
        + destruct best as [[g b]|].
          * destruct K as ((j0 & Hj0 & Eg) & Eb & Ob & Mb). split; [exists j0; split; [lia|auto]|]. split; auto. split; auto.
            intros j Hj Oj Lj. destruct (Z.eq_dec j i) as [->|N]; [congruence|]. apply Mb; auto. lia.
          * intros j Hj. destruct (Z.eq_dec j i) as [->|N]; auto. apply K. lia. }
    fold p. rewrite pb_next by auto.
    destruct (Z.eqb_spec (pb p s (i + 1)) (h1 p s)) as [Q|N].
    - exists best', (i + 1). split; [reflexivity|]. split; auto. left.
      destruct (Z.eq_dec (i + 1) p) as [|N]; auto. rewrite <- (pb_0 p s) in Q by lia. apply pb_inj in Q; try lia; apply (wf_p _ W).
    - assert (i + 1 <> p) by (intros Q; rewrite Q, pb_p in N by lia; contradiction).
      apply IH; auto; lia.
  Qed.
  Lemma ok_rec l : ok l = slive l && matches s f (rec_of l).
  Proof.
    unfold ok, matches. rewrite andb_assoc. reflexivity.
  Qed.
  (** a matching record occurs before the loop stops *)
  Lemma match_found k g : (k = p \/ (0 <= k < p /\ svalid (sols ht (pb p s k)) = false)) -> 0 <= g < p -> ok (sols ht g) = true ->
    exists i, 0 <= i < k /\ pb p s i = g.
  Proof.
    intros Hk Hg H. unfold ok in H. apply andb_true_iff in H as [H Hs]. apply andb_true_iff in H as [Hl Hm]. apply md5eq_iff in Hm.
    destruct (wf_reach _ W g Hg Hl) as (i & Hi & E & V). fold p in Hi, E, V. rewrite <- Hm in *.
    exists i. split; auto. destruct Hk as [->|[Hk1 Hk2]]; [lia|].
    destruct (Z.lt_ge_cases i k) as [|L]; [lia|]. exfalso. destruct (Z.eq_dec k i) as [->|N].
    - rewrite E in Hk2. rewrite (wf_live _ W) in Hk2; auto. discriminate.
    - rewrite V in Hk2 by lia. discriminate.
  Qed.
End Look.

Theorem htab_lookup_ok ht s f : WF ht -> exists r, htab_lookup ht s f = Ret r /\
  match r with
  | None => forall x, In x (records ht) -> matches s f x = false
  | Some (g, l) => 0 <= g < hashsiz ht /\ l = sols ht g /\ In (rec_of l) (records ht) /\ matches s f (rec_of l) = true /\
      forall x, In x (records ht) -> matches s f x = true -> LEQ (ru x) (ru (rec_of l)) = true -> ru x = ru (rec_of l)
  end.
Proof.
  intros W. pose proof (WF_2 _ W) as H2. unfold htab_lookup.
  destruct (lookup_loop_ok ht W s f (S (Z.to_nat (hashsiz ht))) 0 None) as (r & k & E & (V & L) & Hk); [lia| |lia|].
  - split; intros; lia.
  - rewrite pb_0 in E by lia. exists r. split; auto. destruct r as [[g l]|].
    + destruct L as ((j & Hj & Eg) & El & Ol & M). assert (Hg : 0 <= g < hashsiz ht) by (rewrite Eg; apply pb_range; lia).
      rewrite ok_rec in Ol. apply andb_true_iff in Ol as [O1 O2].
      split; auto. split; auto. split; [apply in_records; exists g; unfold live_at; rewrite <- El; auto|]. split; auto.
      intros x Hx Mx Lx. apply in_records in Hx as (g' & Hg' & Lg' & ->).
      assert (Ox : ok s f (sols ht g') = true) by (rewrite ok_rec; unfold live_at in Lg'; rewrite Lg'; exact Mx).
      destruct (match_found ht W s f k g' Hk Hg' Ox) as (i & Hi & Ei). rewrite <- Ei in *. apply M; auto.
    + intros x Hx. apply in_records in Hx as (g & Hg & Lg & ->). destruct (matches s f (rec_of (sols ht g))) eqn:Mx; auto.
      assert (Ox : ok s f (sols ht g) = true) by (rewrite ok_rec; unfold live_at in Lg; rewrite Lg; exact Mx).
      destruct (match_found ht W s f k g Hk Hg Ox) as (i & Hi & Ei). rewrite <- Ei in *. rewrite L in Ox by auto. discriminate.
Qed.
