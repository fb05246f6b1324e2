(** * C38: aligned allocation *)
From Coq Require Import ZArith List Bool Lia Permutation.
From Verif Require Import Base SpecAlloc AllocModel.
Import ListNotations.
Open Scope Z_scope.

(** ** Rounding down to a multiple of a power of two *)
Lemma mask_spec k x : 0 <= k <= 64 -> 0 <= x < W64 -> mask_align (2 ^ k) x = x - x mod 2 ^ k.
Proof.
  intros Hk Hx. unfold mask_align. rewrite Z.mod_small by lia.
  replace (W64 - 1 - (2 ^ k - 1)) with (Z.shiftl (Z.ones (64 - k)) k).
  2:{ rewrite Z.shiftl_mul_pow2, Z.ones_equiv by lia. rewrite Z.mul_pred_l. unfold W64. rewrite <- Z.pow_add_r by lia. replace (64 - k + k) with 64 by lia. lia. }
  transitivity (Z.ldiff x (Z.ones k)).
  2:{ rewrite Z.ldiff_ones_r by lia. rewrite Z.shiftl_mul_pow2, Z.shiftr_div_pow2 by lia. pose proof (Z.div_mod x (2 ^ k)). lia. }
  apply Z.bits_inj'. intros i Hi. rewrite Z.land_spec, Z.ldiff_spec.
  destruct (Z.ltb_spec i k).
  - rewrite Z.shiftl_spec_low by lia. rewrite Z.ones_spec_low by lia. now rewrite !andb_false_r.
  - rewrite Z.shiftl_spec by lia. rewrite (Z.ones_spec_high k i) by lia. cbn [negb]. rewrite andb_true_r.
    destruct (Z.ltb_spec i 64).
    + rewrite Z.ones_spec_low by lia. now rewrite andb_true_r.
    + rewrite Z.ones_spec_high by lia. rewrite andb_false_r. symmetry.
      destruct (Z.eq_dec x 0) as [->|Nx]; [apply Z.bits_0|]. apply Z.bits_above_log2; [lia|].
      apply Z.log2_lt_pow2; [lia|]. unfold W64 in Hx. apply Z.lt_le_trans with (2 ^ 64); [lia|]. apply Z.pow_le_mono_r; lia.
Qed.

(** ** Bytes of a pointer *)
Lemma in_heap_iff h a : in_heap h a = true <-> exists b, In b (h_blocks h) /\ inside b a.
Proof.
  unfold in_heap. rewrite existsb_exists. split; intros (b & Hb & H); exists b; (split; [auto|]); unfold inside in *.
  - apply andb_prop in H as [H1 H2]. apply Z.leb_le in H1. apply Z.ltb_lt in H2. lia.
  - apply andb_true_intro. rewrite Z.leb_le, Z.ltb_lt. lia.
Qed.
Lemma wr_bytes_ok : forall k h a v b, In b (h_blocks h) -> fst b <= a -> a + Z.of_nat k <= fst b + snd b ->
  exists h', wr_bytes k h a v = Ret h' /\ h_blocks h' = h_blocks h /\ (forall x, x < a \/ a + Z.of_nat k <= x -> h_bytes h' x = h_bytes h x) /\
    (forall i, 0 <= i < Z.of_nat k -> h_bytes h' (a + i) = (v / 256 ^ i) mod 256).
Proof.
  induction k as [|k IH]; intros h a v b Hb H1 H2.
  - exists h. cbn. split; [auto|]. split; [auto|]. split; [auto|]. intros; lia.
  - cbn [wr_bytes]. unfold wr_byte. assert (E : in_heap h a = true). { apply in_heap_iff. exists b. split; auto. unfold inside. lia. }
    rewrite E. cbn [bind]. destruct (IH (mkheap (h_blocks h) (fun x => if x =? a then v mod 256 else h_bytes h x)) (a + 1) (v / 256) b) as (h' & E' & B' & F' & V'); cbn [h_blocks]; auto; try lia.
    exists h'. split; [exact E'|]. split; [exact B'|]. split.
    + intros x Hx. rewrite F' by lia. cbn [h_bytes]. destruct (Z.eqb_spec x a); [lia|reflexivity].
    + intros i Hi. destruct (Z.eq_dec i 0) as [->|Ni].
      * rewrite Z.add_0_r, F' by lia. cbn [h_bytes]. rewrite Z.eqb_refl. now rewrite Z.pow_0_r, Z.div_1_r.
      * replace (a + i) with (a + 1 + (i - 1)) by lia. rewrite V' by lia. rewrite Z.div_div by (try apply Z.pow_pos_nonneg; lia).
        do 2 f_equal. rewrite <- Z.pow_succ_r by lia. f_equal. lia.
Qed.
Lemma rd_bytes_ok : forall k h a v b, In b (h_blocks h) -> fst b <= a -> a + Z.of_nat k <= fst b + snd b ->
  (forall i, 0 <= i < Z.of_nat k -> h_bytes h (a + i) = (v / 256 ^ i) mod 256) -> 0 <= v < 256 ^ Z.of_nat k -> rd_bytes k h a = Ret v.
Proof.
  induction k as [|k IH]; intros h a v b Hb H1 H2 V Hv.
  - cbn in *. f_equal. lia.
  - cbn [rd_bytes]. unfold rd_byte. assert (E : in_heap h a = true). { apply in_heap_iff. exists b. split; auto. unfold inside. lia. }
    rewrite E. cbn [bind]. rewrite (IH h (a + 1) (v / 256) b); auto; try lia.
    + cbn [bind]. f_equal. rewrite <- (Z.add_0_r a), (V 0) by lia. rewrite Z.pow_0_r, Z.div_1_r. pose proof (Z.div_mod v 256). lia.
    + intros i Hi. replace (a + 1 + i) with (a + (i + 1)) by lia. rewrite V by lia. rewrite Z.div_div by (try apply Z.pow_pos_nonneg; lia).
      do 2 f_equal. rewrite Z.pow_add_r by lia. lia.
    + replace (Z.of_nat (S k)) with (Z.of_nat k + 1) in Hv by lia. rewrite Z.pow_add_r in Hv by lia.
      split; [apply Z.div_pos; lia|]. apply Z.div_lt_upper_bound; lia.
Qed.

(** ** Invariant *)
(** [r_b]: the block of the system (address, size); [r_p], [r_n]: the pointer and the
    size asked for *)
Record rec := mkrec { r_b : Z; r_p : Z; r_n : Z }.
Definition blk_of (A : Z) (r : rec) : Z * Z := (r_b r, r_n r + A).
Definition usr_of (r : rec) : Z * Z := (r_p r, r_n r).
Record rec_ok (A : Z) (h : heap) (r : rec) : Prop := {
  ro_n : 0 <= r_n r;
  ro_b : 0 < r_b r /\ r_b r mod 8 = 0 /\ r_b r + r_n r + A < W64;
  ro_p : r_p r mod A = 0;
  ro_in : r_b r + 8 <= r_p r <= r_b r + A;
  ro_hdr : forall i, 0 <= i < 8 -> h_bytes h (r_p r - 8 + i) = (r_b r / 256 ^ i) mod 256
}.
Record inv (A : Z) (w : world) (rs : list rec) : Prop := {
  iv_live : w_live w = map usr_of rs;
  iv_rec : Forall (rec_ok A (w_heap w)) rs;
  iv_blocks : Permutation (h_blocks (w_heap w)) (map (blk_of A) rs ++ w_other w);
  iv_disj : ForallOrdPairs disjoint (h_blocks (w_heap w));
  iv_pos : Forall (fun b => 0 < fst b /\ 0 < snd b) (h_blocks (w_heap w))
}.
Lemma disjoint_sym b c : disjoint b c -> disjoint c b.
Proof. unfold disjoint. intros H a. specialize (H a). tauto. Qed.
Lemma FOP_perm (l l' : list (Z * Z)) : Permutation l l' -> ForallOrdPairs disjoint l -> ForallOrdPairs disjoint l'.
Proof.
  intros P. induction P as [|x l l' P IH|x y l|l l' l'' P1 IH1 P2 IH2]; intros H; auto.
  - inversion H; subst. constructor; auto. eapply Permutation_Forall; eauto.
  - inversion H as [|? ? H1 H2]; subst. inversion H2 as [|? ? H3 H4]; subst. inversion H1; subst.
    constructor; [constructor; auto; now apply disjoint_sym|]. constructor; auto.
Qed.
Lemma remove_spec p l l' : remove_block p l = Some l' -> exists sz, Permutation l ((p, sz) :: l').
Proof.
  revert l'. induction l as [|[b sz] l IH]; intros l' H; cbn in H; [discriminate|].
  destruct (Z.eqb_spec b p) as [->|N].
  - injection H as <-. eauto.
  - destruct (remove_block p l) as [l1|]; [|discriminate]. injection H as <-. destruct (IH l1 eq_refl) as (s & P). exists s. rewrite P. apply perm_swap.
Qed.
Lemma remove_some p l sz : In (p, sz) l -> exists l', remove_block p l = Some l'.
Proof.
  induction l as [|[b s] l IH]; intros H; [contradiction|]. cbn. destruct (Z.eqb_spec b p); [eauto|].
  destruct H as [H|H]; [congruence|]. destruct (IH H) as (l' & ->). eauto.
Qed.
Lemma FOP_In {A} (R : A -> A -> Prop) l x y : (forall a b, R a b -> R b a) -> ForallOrdPairs R l -> In x l -> In y l -> x = y \/ R x y.
Proof. intros S H Hx Hy. destruct (ForallOrdPairs_In H x y Hx Hy) as [E|[E|E]]; auto. Qed.
(** a block is determined by its address *)
Lemma same_block l p s s' : ForallOrdPairs disjoint l -> Forall (fun b => 0 < fst b /\ 0 < snd b) l -> In (p, s) l -> In (p, s') l -> s = s'.
Proof.
  intros H P H1 H2. rewrite Forall_forall in P. pose proof (P _ H1) as Q1. pose proof (P _ H2) as Q2. cbn in Q1, Q2.
  destruct (FOP_In disjoint l _ _ disjoint_sym H H1 H2) as [E|E]; [congruence|]. exfalso. apply (E p). unfold inside; cbn. lia.
Qed.
(** the records' blocks and the others', taken apart *)
Lemma inv_sep A w rs : 8 <= A -> inv A w rs ->
  (forall l1 r l2, rs = l1 ++ r :: l2 -> forall r', In r' (l1 ++ l2) -> disjoint (blk_of A r) (blk_of A r')) /\
  (forall r b, In r rs -> In b (w_other w) -> disjoint (blk_of A r) b).
Proof.
  intros HA I. pose proof (FOP_perm _ _ (iv_blocks _ _ _ I) (iv_disj _ _ _ I)) as F. split.
  - intros l1 r l2 -> r' Hr'. assert (F' : ForallOrdPairs disjoint (blk_of A r :: (map (blk_of A) (l1 ++ l2) ++ w_other w))).
    { eapply FOP_perm; [|exact F]. rewrite !map_app. cbn [map]. rewrite <- !app_assoc. cbn [app]. symmetry. apply Permutation_middle. }
    inversion F' as [|? ? F1 F2]; subst. rewrite Forall_forall in F1. apply F1. rewrite in_app_iff. left. now apply in_map.
  - intros r b Hr Hb. destruct (in_split r rs Hr) as (l1 & l2 & ->).
    assert (F' : ForallOrdPairs disjoint (blk_of A r :: (map (blk_of A) (l1 ++ l2) ++ w_other w))).
    { eapply FOP_perm; [|exact F]. rewrite !map_app. cbn [map]. rewrite <- !app_assoc. cbn [app]. symmetry. apply Permutation_middle. }
    inversion F' as [|? ? F1 F2]; subst. rewrite Forall_forall in F1. apply F1. rewrite in_app_iff. now right.
Qed.

Section C38.
(** MIN_ALIGNMENT: a power of two, at least 8 *)
Variable k : Z.
Hypothesis Hk : 3 <= k < 63.
Notation A := (2 ^ k).
Lemma A8 : 8 <= A /\ A < W64 /\ A mod 8 = 0.
Proof.
  split; [change 8 with (2 ^ 3); apply Z.pow_le_mono_r; lia|]. split; [apply Z.pow_lt_mono_r; lia|].
  replace k with (k - 3 + 3) by lia. rewrite Z.pow_add_r by lia. apply Z.mod_mul. lia.
Qed.

(** what our_malloc does with the block that it gets *)
Lemma our_malloc_ok n p0 h h0 : 0 <= n -> n + A < W64 -> sys_malloc h (our_malloc_size A n) p0 h0 ->
  (p0 = 0 /\ our_malloc A p0 h0 = Ret (0, h)) \/
  (0 < p0 /\ exists p h', our_malloc A p0 h0 = Ret (p, h') /\ rec_ok A h' (mkrec p0 p n) /\
     Forall (disjoint (p0, n + A)) (h_blocks h) /\ h_blocks h' = (p0, n + A) :: h_blocks h /\
     forall a, ~ inside (p0, n + A) a -> h_bytes h' a = h_bytes h a).
Proof.
  intros Hn Hs. destruct A8 as (A1 & A2 & A3). assert (Es : our_malloc_size A n = n + A) by (unfold our_malloc_size; apply Z.mod_small; lia). rewrite Es.
  intros [(-> & ->)|(H1 & H2 & H3 & H4 & H5 & H6)]; [left; auto|right]. split; auto.
  unfold our_malloc. destruct (Z.eqb_spec p0 0); [lia|].
  rewrite mask_spec by lia. set (p := p0 + A - (p0 + A) mod A).
  pose proof (Z.mod_pos_bound (p0 + A) A ltac:(lia)) as Mb.
  assert (E8 : (p0 + A) mod A mod 8 = 0).
  { assert (D : (8 | A)) by (now apply Z.mod_divide; lia). rewrite <- Znumtheory.Zmod_div_mod by (auto; lia). rewrite Z.add_mod, H2, A3 by lia. reflexivity. }
  assert (Hp : p0 + 8 <= p <= p0 + A).
  { unfold p. split; [|lia]. pose proof (Z.div_mod ((p0 + A) mod A) 8 ltac:(lia)). pose proof (Z.div_mod A 8 ltac:(lia)). lia. }
  destruct (wr_bytes_ok 8 h0 (p - 8) p0 (p0, n + A)) as (h' & E & B & F & V); cbn [fst snd]; try lia.
  { rewrite H5. now left. }
  unfold wr_ptr. rewrite E. cbn [bind]. exists p, h'. split; [reflexivity|]. split; [|split; [auto|split; [congruence|]]].
  - constructor; cbn [r_n r_b r_p]; auto; try lia.
    + unfold p.
      replace (p0 + A - (p0 + A) mod A) with ((p0 + A) / A * A); [apply Z.mod_mul; lia|]. pose proof (Z.div_mod (p0 + A) A). lia.
  - intros a Ha. unfold inside in Ha. cbn in Ha. rewrite F by lia. apply H6. unfold inside. cbn. lia.
Qed.

Lemma rec_ok_bytes h h' r : rec_ok A h r -> (forall i, 0 <= i < 8 -> h_bytes h' (r_p r - 8 + i) = h_bytes h (r_p r - 8 + i)) -> rec_ok A h' r.
Proof. intros [R1 R2 R3 R4 R5] H. constructor; auto. intros i Hi. rewrite H by auto. now apply R5. Qed.
(** header and user part are inside the block *)
Lemma rec_inside h r a : rec_ok A h r -> r_p r - 8 <= a < r_p r + r_n r -> inside (blk_of A r) a.
Proof. intros [R1 R2 R3 R4 R5] H. unfold inside, blk_of; cbn. lia. Qed.

Lemma our_free_ok w rs l1 r l2 : inv A w rs -> rs = l1 ++ r :: l2 ->
  exists h', our_free (r_p r) (w_heap w) = Ret h' /\ h_bytes h' = h_bytes (w_heap w) /\
    Permutation (h_blocks (w_heap w)) (blk_of A r :: h_blocks h').
Proof.
  intros I E. destruct A8 as (A1 & A2 & A3). pose proof (iv_rec _ _ _ I) as R. rewrite Forall_forall in R. assert (Hr : In r rs) by (rewrite E, in_app_iff; right; now left).
  destruct (R r Hr) as [R1 R2 R3 R4 R5]. unfold our_free. destruct (Z.eqb_spec (r_p r) 0); [lia|].
  assert (Hb : In (blk_of A r) (h_blocks (w_heap w))).
  { eapply Permutation_in; [symmetry; apply (iv_blocks _ _ _ I)|]. rewrite in_app_iff. left. now apply in_map. }
  unfold rd_ptr. rewrite (rd_bytes_ok 8 (w_heap w) (r_p r - 8) (r_b r) (blk_of A r)); auto; try (unfold blk_of; cbn; lia).
  2:{ unfold W64 in R2. change (256 ^ Z.of_nat 8) with (2 ^ 64). lia. }
  cbn [bind]. unfold sys_free. destruct (Z.eqb_spec (r_b r) 0); [lia|].
  destruct (remove_some (r_b r) (h_blocks (w_heap w)) (r_n r + A) Hb) as (l' & El). rewrite El. eexists. split; [reflexivity|]. cbn [h_bytes h_blocks]. split; auto.
  destruct (remove_spec _ _ _ El) as (sz & P). assert (sz = r_n r + A); [|subst; exact P].
  eapply (same_block _ (r_b r)); [apply (iv_disj _ _ _ I)|apply (iv_pos _ _ _ I)| |exact Hb].
  eapply Permutation_in; [symmetry; exact P|now left].
Qed.

Lemma FOP_cons_inv (b : Z * Z) l : ForallOrdPairs disjoint (b :: l) -> ForallOrdPairs disjoint l.
Proof. intros H. now inversion H. Qed.

(** writes of one byte in a place that belongs to nobody's header *)
Lemma inv_write w rs a v : inv A w rs -> (forall r, In r rs -> ~ (r_p r - 8 <= a < r_p r)) ->
  inv A (mkworld (set_byte (w_heap w) a v) (w_live w) (w_other w)) rs.
Proof.
  intros [I1 I2 I3 I4 I5] H. constructor; cbn [w_live w_heap w_other set_byte h_blocks]; auto.
  rewrite Forall_forall in *. intros r Hr. eapply rec_ok_bytes; [now apply I2|]. intros i Hi. unfold set_byte. cbn [h_bytes].
  destruct (Z.eqb_spec (r_p r - 8 + i) a); [|reflexivity]. exfalso. apply (H r Hr). lia.
Qed.

Lemma inv_step w w' rs : inv A w rs -> wstep A w w' -> exists rs', inv A w' rs'.
Proof.
  intros I S. destruct A8 as (A1 & A2 & A3). destruct S as [h l o n p0 h0 p h' Hn Hs Sm Om|h l1 l2 o p n h' Of|h l o p n a v Hin Ha|h l o sz p0 h' Hsz Sm|h l o1 o2 p sz h' Sf|h l o p sz a v Hin Ha].
  - destruct (our_malloc_ok n p0 h h0 Hn Hs Sm) as [(-> & E)|(Hp & p1 & h1 & E & R & D & B & F)]; rewrite E in Om; injection Om as <- <-.
    + exists rs. exact I.
    + destruct R as [R1 R2 R3 R4 R5]. cbn [r_p r_b r_n] in *. destruct (Z.eqb_spec p1 0); [lia|].
      exists (mkrec p0 p1 n :: rs). destruct I as [I1 I2 I3 I4 I5]. cbn [w_live w_heap w_other] in *. constructor; cbn [w_live w_heap w_other map].
      * now rewrite I1.
      * constructor; [constructor; auto|]. rewrite Forall_forall in *. intros r Hr. eapply rec_ok_bytes; [now apply I2|].
        intros i Hi. apply F. intros Hi'. pose proof (I2 r Hr) as Rr.
        assert (Hb : In (blk_of A r) (h_blocks h)). { eapply Permutation_in; [symmetry; exact I3|]. rewrite in_app_iff. left. now apply in_map. }
        apply (D _ Hb (r_p r - 8 + i)). split; auto. eapply rec_inside; [exact Rr|]. destruct Rr as [S1 _ _ _ _]. lia.
      * rewrite B. cbn [app]. apply perm_skip. exact I3.
      * rewrite B. now constructor.
      * rewrite B. constructor; auto. cbn. lia.
  - pose proof (iv_live _ _ _ I) as L. cbn [w_live] in L. symmetry in L. apply map_eq_app in L as (r1 & rr & E & E1 & E2).
    destruct rr as [|r r2]; [discriminate|]. cbn [map] in E2. injection E2 as <- <- E2.
    destruct (our_free_ok _ rs r1 r r2 I E) as (h1 & Eh & By & P). cbn [w_heap] in *. rewrite Eh in Of. injection Of as <-.
    exists (r1 ++ r2). destruct I as [I1 I2 I3 I4 I5]. cbn [w_live w_heap w_other] in *. subst rs. constructor; cbn [w_live w_heap w_other].
    + rewrite map_app. congruence.
    + rewrite Forall_app in I2. destruct I2 as [J1 J2]. inversion J2; subst. apply Forall_app.
      split; (eapply Forall_impl; [|eassumption]); intros x Hx; (eapply rec_ok_bytes; [exact Hx|]); intros; now rewrite By.
    + rewrite map_app, <- app_assoc. rewrite map_app, <- app_assoc in I3. cbn [map app] in I3. eapply Permutation_cons_inv with (a := blk_of A r).
      rewrite <- P. rewrite I3. symmetry. apply Permutation_middle.
    + eapply FOP_cons_inv, FOP_perm; [exact P|]. exact I4.
    + eapply Permutation_Forall in I5; [|exact P]. now inversion I5.
  - exists rs. apply (inv_write (mkworld h l o)); auto. intros r Hr C. pose proof (iv_live _ _ _ I) as L. cbn [w_live] in L. rewrite L in Hin.
    apply in_map_iff in Hin as (r' & E & Hr'). unfold usr_of in E. injection E as <- <-.
    destruct (inv_sep A _ rs A1 I) as [S1 _]. pose proof (iv_rec _ _ _ I) as R. rewrite Forall_forall in R.
    destruct (in_split r rs Hr) as (l1 & l2 & E). assert (Hd : r' = r \/ In r' (l1 ++ l2)).
    { rewrite E in Hr'. rewrite in_app_iff in *. destruct Hr' as [H|[H|H]]; auto. }
    destruct Hd as [->|Hd]; [lia|]. apply (S1 l1 r l2 E r' Hd a). split; [eapply rec_inside; [apply R, Hr|]|eapply rec_inside; [apply R, Hr'|]].
    + destruct (R r Hr) as [T _ _ _ _]. lia.
    + lia.
  - destruct Sm as [(-> & ->)|(H1 & H2 & H3 & H4 & H5 & H6)].
    + exists rs. exact I.
    + destruct (Z.eqb_spec p0 0); [lia|]. exists rs. destruct I as [I1 I2 I3 I4 I5]. cbn [w_live w_heap w_other] in *. constructor; cbn [w_live w_heap w_other]; auto.
      * rewrite Forall_forall in *. intros r Hr. eapply rec_ok_bytes; [now apply I2|]. intros i Hi. apply H6. intros Hi'. pose proof (I2 r Hr) as Rr.
        assert (Hb : In (blk_of A r) (h_blocks h)). { eapply Permutation_in; [symmetry; exact I3|]. rewrite in_app_iff. left. now apply in_map. }
        apply (H4 _ Hb (r_p r - 8 + i)). split; auto. eapply rec_inside; [exact Rr|]. destruct Rr as [S1 _ _ _ _]. lia.
      * rewrite H5, I3. apply Permutation_middle.
      * rewrite H5. now constructor.
      * rewrite H5. constructor; auto.
  - exists rs. unfold sys_free in Sf. destruct I as [I1 I2 I3 I4 I5]. cbn [w_live w_heap w_other] in *.
    assert (Hb : In (p, sz) (h_blocks h)). { eapply Permutation_in; [symmetry; exact I3|]. rewrite !in_app_iff. right. right. now left. }
    assert (Hp : 0 < p) by (rewrite Forall_forall in I5; apply (I5 _ Hb)).
    destruct (Z.eqb_spec p 0); [lia|]. destruct (remove_block p (h_blocks h)) as [l'|] eqn:E; [|discriminate]. injection Sf as <-.
    destruct (remove_spec _ _ _ E) as (sz' & P). assert (sz' = sz).
    { eapply (same_block _ p); [exact I4|exact I5| |exact Hb]. eapply Permutation_in; [symmetry; exact P|now left]. } subst sz'.
    constructor; cbn [w_live w_heap w_other h_blocks h_bytes]; auto.
    + eapply Forall_impl; [|exact I2]. intros r Hr. eapply rec_ok_bytes; [exact Hr|]. reflexivity.
    + eapply Permutation_cons_inv with (a := (p, sz)). rewrite <- P, I3. rewrite !app_assoc. symmetry. apply Permutation_middle.
    + eapply FOP_cons_inv, FOP_perm; [exact P|exact I4].
    + eapply Permutation_Forall in I5; [|exact P]. now inversion I5.
  - exists rs. apply (inv_write (mkworld h l o)); auto. intros r Hr C. destruct (inv_sep A _ rs A1 I) as [_ S2]. pose proof (iv_rec _ _ _ I) as R. rewrite Forall_forall in R.
    apply (S2 r (p, sz) Hr Hin a). split; [eapply rec_inside; [apply R, Hr|]|unfold inside; cbn; lia]. destruct (R r Hr) as [T _ _ _ _]. lia.
Qed.
Lemma inv_reach w : reachable A w -> exists rs, inv A w rs.
Proof.
  induction 1 as [h B|w w' Hr [rs I] S].
  - exists []. constructor; cbn [w_live w_heap w_other map app]; auto; rewrite B; constructor.
  - eapply inv_step; eauto.
Qed.

(** C38 (allocation): in every state that a process can reach, the memory of every
    pointer obtained from fftw_malloc and not yet freed is aligned, lies in a block of
    the system's allocator, overlaps no other such memory nor any block the program has
    obtained from the system itself; different allocations are at different addresses
    (also those of size 0). *)
Theorem C38_allocated_memory w : reachable A w ->
  (forall p n, In (p, n) (w_live w) -> 0 < p /\ p mod A = 0 /\ p + n < W64 /\
     exists b, In b (h_blocks (w_heap w)) /\ fst b + 8 <= p /\ p + n <= fst b + snd b) /\
  ForallOrdPairs (fun x y => fst x <> fst y /\ disjoint x y) (w_live w) /\
  (forall x y, In x (w_live w) -> In y (w_other w) -> disjoint x y).
Proof.
  intros Hr. destruct (inv_reach w Hr) as (rs & I). destruct A8 as (A1 & A2 & A3). pose proof (iv_rec _ _ _ I) as R. rewrite Forall_forall in R.
  destruct (inv_sep A w rs A1 I) as [S1 S2]. pose proof (iv_live _ _ _ I) as L. pose proof (iv_blocks _ _ _ I) as P. split; [|split].
  - intros p n H. rewrite L in H. apply in_map_iff in H as (r & E & H). unfold usr_of in E. injection E as <- <-. destruct (R r H) as [R1 R2 R3 R4 R5].
    split; [lia|]. split; auto. split; [lia|]. exists (blk_of A r). split; [|unfold blk_of; cbn [fst snd]; lia].
    eapply Permutation_in; [symmetry; exact P|]. rewrite in_app_iff. left. now apply in_map.
  - rewrite L. clear L P I S2 Hr. induction rs as [|r rs IH]; [constructor|]. cbn [map]. constructor.
    + rewrite Forall_map, Forall_forall. intros r' Hr'. pose proof (S1 [] r rs eq_refl r' Hr') as D.
      pose proof (R r (or_introl eq_refl)) as R1. pose proof (R r' (or_intror Hr')) as R2. split.
      * intros E. cbn in E. apply (D (r_p r - 1)). split; [apply (rec_inside _ _ _ R1)|apply (rec_inside _ _ _ R2)].
        -- destruct R1 as [T _ _ _ _]. lia.
        -- destruct R2 as [T _ _ _ _]. lia.
      * intros a [Ha Ha']. unfold inside in Ha, Ha'. cbn in Ha, Ha'. apply (D a). split; [apply (rec_inside _ _ _ R1)|apply (rec_inside _ _ _ R2)]; lia.
    + apply IH.
      * intros; apply R. now right.
      * intros l1 r1 l2 -> r' Hr'. apply (S1 (r :: l1) r1 l2 eq_refl r'). now right.
  - intros x y Hx Hy. rewrite L in Hx. apply in_map_iff in Hx as (r & <- & H). intros a [Ha Ha']. apply (S2 r y H Hy a). split; auto.
    apply (rec_inside _ _ _ (R r H)). unfold inside, usr_of in Ha. cbn in Ha. lia.
Qed.

(** C38 (fftw_malloc never fails by itself): whatever the system's malloc answers, it
    has defined behaviour; the result is null only if malloc returned null, and the
    contents of all memory that the program owns are unchanged. *)
Theorem C38_malloc w n p0 h0 : reachable A w -> 0 <= n -> n + A < W64 -> sys_malloc (w_heap w) (our_malloc_size A n) p0 h0 ->
  exists p h', our_malloc A p0 h0 = Ret (p, h') /\ (p = 0 <-> p0 = 0) /\
    forall x a, In x (w_live w ++ w_other w) -> inside x a -> h_bytes h' a = h_bytes (w_heap w) a.
Proof.
  intros Hr Hn Hs Sm. destruct (our_malloc_ok n p0 (w_heap w) h0 Hn Hs Sm) as [(-> & E)|(Hp & p1 & h1 & E & R & D & B & F)].
  - exists 0, (w_heap w). split; auto. split; [tauto|]. auto.
  - exists p1, h1. split; auto. destruct R as [R1 R2 R3 R4 R5]. cbn [r_p r_b r_n] in *. split; [lia|].
    intros x a Hx Ha. apply F. intros Ha'. destruct (inv_reach w Hr) as (rs & I). pose proof (iv_rec _ _ _ I) as Rs. rewrite Forall_forall in Rs, D.
    rewrite (iv_live _ _ _ I) in Hx. apply in_app_iff in Hx as [Hx|Hx].
    + apply in_map_iff in Hx as (r & <- & H). apply (D (blk_of A r)) with a.
      * eapply Permutation_in; [symmetry; apply (iv_blocks _ _ _ I)|]. rewrite in_app_iff. left. now apply in_map.
      * split; auto. apply (rec_inside _ _ _ (Rs r H)). unfold inside, usr_of in Ha. cbn in Ha. lia.
    + apply (D x) with a; auto. eapply Permutation_in; [symmetry; apply (iv_blocks _ _ _ I)|]. rewrite in_app_iff. now right.
Qed.

(** C38 (fftw_free): whatever has happened in between, a pointer obtained from
    fftw_malloc can be freed: exactly the block in which it lies is given back to the
    system, and nothing else is changed.  A null pointer is ignored. *)
Theorem C38_free w l1 p n l2 : reachable A w -> w_live w = l1 ++ (p, n) :: l2 ->
  exists b h', our_free p (w_heap w) = Ret h' /\ Permutation (h_blocks (w_heap w)) (b :: h_blocks h') /\
    fst b <= p /\ p + n <= fst b + snd b /\ h_bytes h' = h_bytes (w_heap w).
Proof.
  intros Hr E. destruct (inv_reach w Hr) as (rs & I). pose proof (iv_live _ _ _ I) as L. rewrite E in L. symmetry in L. apply map_eq_app in L as (r1 & rr & E0 & E1 & E2).
  destruct rr as [|r r2]; [discriminate|]. cbn [map] in E2. injection E2 as <- <- E2.
  destruct (our_free_ok w rs r1 r r2 I E0) as (h1 & Eh & By & P). exists (blk_of A r), h1. split; auto. split; auto.
  pose proof (iv_rec _ _ _ I) as R. rewrite Forall_forall in R. destruct (R r) as [R1 R2 R3 R4 R5]; [rewrite E0, in_app_iff; right; now left|].
  unfold blk_of; cbn. split; [lia|]. split; [lia|exact By].
Qed.
Theorem C38_free_null h : our_free 0 h = Ret h.
Proof. reflexivity. Qed.

(** C38 (no leak): when everything has been freed, the blocks of the system are those
    that the program obtained from the system itself. *)
Theorem C38_no_leak w : reachable A w -> w_live w = [] -> Permutation (h_blocks (w_heap w)) (w_other w).
Proof.
  intros Hr E. destruct (inv_reach w Hr) as (rs & I). pose proof (iv_live _ _ _ I) as L. rewrite E in L. destruct rs; [|discriminate]. exact (iv_blocks _ _ _ I).
Qed.

(** C38 (buffers): buffers on the stack are aligned too and lie in what alloca returned. *)
Theorem C38_stack_malloc p0 n : 0 < p0 -> 0 <= n -> p0 + (n + A) < W64 ->
  let p := stack_malloc A p0 in p mod A = 0 /\ p0 <= p /\ p + n <= p0 + (n + A).
Proof.
  intros H1 H2 H3 p. destruct A8 as (A1 & A2 & A3). unfold p, stack_malloc. rewrite mask_spec by lia. set (x := p0 + (A - 1)).
  pose proof (Z.mod_pos_bound x A ltac:(lia)). split; [|lia].
  replace (x - x mod A) with (x / A * A); [apply Z.mod_mul; lia|]. pose proof (Z.div_mod x A). lia.
Qed.

(** C38: the memory is aligned for SIMD: what fftw_alignment_of computes is the same
    (zero) for all pointers obtained from fftw_malloc. *)
Theorem C38_alignment_of w p n : 4 <= k -> reachable A w -> In (p, n) (w_live w) -> ialignment_of p = 0.
Proof.
  intros H4 Hr H. destruct (C38_allocated_memory w Hr) as (G & _ & _). destruct (G p n H) as (_ & M & _ & _). unfold ialignment_of.
  apply Z.mod_divide in M; [|lia]. apply Z.mod_divide; [lia|]. eapply Z.divide_trans; [|exact M].
  exists (2 ^ (k - 4)). change 16 with (2 ^ 4). rewrite <- Z.pow_add_r by lia. f_equal. lia.
Qed.
End C38.

(** C38: fftw_malloc aborts instead of returning null inside of the library, and never
    asks for an empty block. *)
Theorem C38_malloc_plain A p0 h r : malloc_plain A p0 h = Ret r -> fst r <> 0.
Proof. unfold malloc_plain. destruct (our_malloc A p0 h) as [[p h']| |]; cbn; try discriminate. destruct (Z.eqb_spec p 0); [discriminate|]. intros H. now injection H as <-. Qed.

(** The restriction on sizes is needed: n + MIN_ALIGNMENT is computed modulo 2^64.  A
    request for 2^64 - 8 bytes gets a block of 8 bytes. *)
Example C38_wraparound : our_malloc_size 16 (W64 - 8) = 8 /\ alloc_real_size (2 ^ 61 + 2) = 16.
Proof. split; reflexivity. Qed.

(** Non-vacuity: malloc returns 104, which is not a multiple of 32; 100 bytes are
    allocated, the last one is written, and the block is freed. *)
Example C38_run : exists w, reachable 32 w /\ w_live w = [(128, 100)] /\ h_bytes (w_heap w) 227 = 7 /\ w_other w = [] /\
  exists h', our_free 128 (w_heap w) = Ret h' /\ h_blocks h' = [] .
Proof.
  set (h := mkheap [] (fun _ => 0)). set (h0 := mkheap [(104, 132)] (fun _ => 0)).
  destruct (our_malloc 32 104 h0) as [[p h1]| |] eqn:E; try (vm_compute in E; discriminate).
  assert (Ep : p = 128 /\ our_free 128 (set_byte h1 227 7) = Ret (mkheap [] (h_bytes (set_byte h1 227 7)))).
  { vm_compute in E. injection E as <- <-. split; reflexivity. }
  destruct Ep as [-> Ef]. exists (mkworld (set_byte h1 227 7) [(128, 100)] []). split; [|split; [reflexivity|split; [reflexivity|split; [reflexivity|]]]].
  - eapply re_step with (w := mkworld h1 [(128, 100)] []).
    + eapply re_step with (w := mkworld h [] []); [now constructor|].
      apply (ws_malloc 32 h [] [] 100 104 h0 128 h1); [lia|reflexivity| |exact E].
      right. split; [lia|]. split; [reflexivity|]. split; [reflexivity|]. split; [constructor|]. split; reflexivity.
    + apply (ws_write 32 h1 [(128, 100)] [] 128 100); [now left|lia].
  - eexists. split; [exact Ef|reflexivity].
Qed.

Print Assumptions C38_allocated_memory.
Print Assumptions C38_malloc.
Print Assumptions C38_free.
Print Assumptions C38_no_leak.
Print Assumptions C38_stack_malloc.
Print Assumptions C38_alignment_of.
Print Assumptions C38_malloc_plain.
