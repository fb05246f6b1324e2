(** * C20, C21: translation of API flags and of the time limit. *)
From Coq Require Import Reals ZArith List Lia Lra Bool R_Ifp Rpower.
From Verif Require Import FlagsModel.
Import ListNotations.
Open Scope Z_scope.

(** ** Specification vocabulary: every bit set in [a] is set in [b]. *)
Definition subset_bits (a b : Z) : Prop := forall i, Z.testbit a i = true -> Z.testbit b i = true.
Definition word32 (f : Z) : Prop := 0 <= f < 2 ^ 32.

(** ** Proof machinery: bits of the mapped words as boolean formulas *)
Definition maskok (m : flagmask) : bool := ((fxm m =? 0) || (fxm m =? fx m))%bool.
Definition onebit (m : flagmask) : bool := (fx m =? 2 ^ Z.log2 (fx m)) && (0 <? fx m).
Definition opok (o : flagop) : bool := maskok (fflag o) && onebit (fflag o) && maskok (fop o).

Definition stepb (c x xm b : bool) : bool :=
  match x, xm with false, _ => b | true, false => c || b | true, true => negb c && b end.
Definition cond (g : Z -> bool) (m : flagmask) : bool :=
  if fxm m =? 0 then g (Z.log2 (fx m)) else negb (g (Z.log2 (fx m))).

Lemma land_pow2_zero f k : 0 <= k -> (Z.land f (2 ^ k) =? 0) = negb (Z.testbit f k).
Proof.
  intros Hk. apply Bool.eq_iff_eq_true. rewrite Z.eqb_eq, negb_true_iff. split; intros H.
  - assert (E : Z.testbit (Z.land f (2 ^ k)) k = false) by (rewrite H; apply Z.bits_0).
    rewrite Z.land_spec, Z.pow2_bits_true, andb_true_r in E by lia. exact E.
  - apply Z.bits_inj'. intros n Hn. rewrite Z.land_spec, Z.bits_0.
    destruct (Z.eq_dec k n) as [E|E]; [subst; now rewrite H|]. rewrite Z.pow2_bits_false by lia. apply andb_false_r.
Qed.
Lemma land_pow2_full f k : 0 <= k -> (Z.lxor (Z.land f (2 ^ k)) (2 ^ k) =? 0) = Z.testbit f k.
Proof.
  intros Hk. apply Bool.eq_iff_eq_true. rewrite Z.eqb_eq, Z.lxor_eq_0_iff. split; intros H.
  - assert (E : Z.testbit (Z.land f (2 ^ k)) k = true) by (rewrite H; apply Z.pow2_bits_true; lia).
    rewrite Z.land_spec in E. now apply andb_true_iff in E.
  - apply Z.bits_inj'. intros n Hn. rewrite Z.land_spec.
    destruct (Z.eq_dec k n) as [E|E]; [subst; rewrite H; reflexivity|]. rewrite Z.pow2_bits_false by lia. apply andb_false_r.
Qed.
Lemma FLAGP_cond f m : maskok m = true -> onebit m = true -> FLAGP f m = cond (Z.testbit f) m.
Proof.
  unfold maskok, onebit, FLAGP, cond. intros H1 H2. apply andb_true_iff in H2 as [H2 H3].
  apply Z.eqb_eq in H2. apply Z.ltb_lt in H3.
  destruct (fxm m =? 0) eqn:E.
  - apply Z.eqb_eq in E. rewrite E, Z.lxor_0_r, H2, land_pow2_zero, negb_involutive by apply Z.log2_nonneg. now rewrite <- H2.
  - cbn in H1. apply Z.eqb_eq in H1. rewrite H1, H2, land_pow2_full by apply Z.log2_nonneg. now rewrite <- H2.
Qed.
Lemma OP_bit f m c n : maskok m = true -> 0 <= n ->
  Z.testbit (if c : bool then OP f m else f) n = stepb c (Z.testbit (fx m) n) (Z.testbit (fxm m) n) (Z.testbit f n).
Proof.
  unfold maskok, OP, stepb. intros H Hn. apply orb_true_iff in H as [H|H]; apply Z.eqb_eq in H; rewrite H.
  - rewrite Z.bits_0. destruct c; [rewrite Z.lxor_spec, Z.lor_spec, Z.bits_0|]; destruct (Z.testbit (fx m) n), (Z.testbit f n); reflexivity.
  - destruct c; [rewrite Z.lxor_spec, Z.lor_spec|]; destruct (Z.testbit (fx m) n), (Z.testbit f n); reflexivity.
Qed.

Definition bstep (c : flagop -> bool) (n : Z) (b : bool) (o : flagop) : bool :=
  stepb (c o) (Z.testbit (fx (fop o)) n) (Z.testbit (fxm (fop o)) n) b.
Lemma map_flags_bit i mp n : 0 <= n -> forallb opok mp = true -> forall o,
  Z.testbit (map_flags i o mp) n = fold_left (bstep (fun op => cond (Z.testbit i) (fflag op)) n) mp (Z.testbit o n).
Proof.
  intros Hn. unfold map_flags. induction mp as [|op mp IH]; intros H o; [reflexivity|].
  cbn [forallb] in H. apply andb_true_iff in H as [H1 H2]. unfold opok in H1.
  apply andb_true_iff in H1 as [H1 H3]. apply andb_true_iff in H1 as [H1 H4].
  cbn [fold_left]. rewrite IH by auto. f_equal. unfold bstep. rewrite OP_bit by auto. now rewrite FLAGP_cond.
Qed.
Definition gstep (g : Z -> bool) (o : flagop) : Z -> bool :=
  let c := cond g (fflag o) in fun n => stepb c (Z.testbit (fx (fop o)) n) (Z.testbit (fxm (fop o)) n) (g n).
Lemma cond_ext g h m : (forall n, 0 <= n -> g n = h n) -> cond g m = cond h m.
Proof. intros H. unfold cond. rewrite H by apply Z.log2_nonneg. reflexivity. Qed.
Lemma map_self_bit mp : forallb opok mp = true -> forall f g, (forall n, 0 <= n -> Z.testbit f n = g n) -> forall n, 0 <= n ->
  Z.testbit (map_flags_self f mp) n = fold_left gstep mp g n.
Proof.
  unfold map_flags_self. induction mp as [|op mp IH]; intros H f g E n Hn; [now apply E|].
  cbn [forallb] in H. apply andb_true_iff in H as [H1 H2]. unfold opok in H1.
  apply andb_true_iff in H1 as [H1 H3]. apply andb_true_iff in H1 as [H1 H4].
  cbn [fold_left]. apply IH; auto. intros k Hk. rewrite OP_bit by auto. rewrite FLAGP_cond by auto.
  unfold gstep. rewrite (cond_ext _ g) by auto. now rewrite E.
Qed.

(** the words computed by mapflags, as boolean functions of the bits *)
Definition self_bits (b : Z -> bool) : Z -> bool := fold_left gstep self_flagmap b.
Definition L_bit (b : Z -> bool) (n : Z) : bool := fold_left (bstep (fun op => cond (self_bits b) (fflag op)) n) l_flagmap false.
Definition U_bit (b : Z -> bool) (n : Z) : bool := fold_left (bstep (fun op => cond (self_bits b) (fflag op)) n) u_flagmap false.
Lemma fold_bstep_ext c d n mp b : (forall o, c o = d o) -> fold_left (bstep c n) mp b = fold_left (bstep d n) mp b.
Proof. intros H. revert b. induction mp as [|o mp IH]; intros b; [reflexivity|]. cbn [fold_left]. rewrite IH. unfold bstep. now rewrite H. Qed.
Lemma l_bit flags n : 0 <= n -> Z.testbit (fst (mapflags flags)) n = L_bit (Z.testbit flags) n.
Proof.
  intros Hn. unfold mapflags, L_bit. cbn [fst]. rewrite map_flags_bit by (auto; vm_compute; reflexivity).
  rewrite Z.bits_0. apply fold_bstep_ext. intros o. apply cond_ext. intros k Hk. unfold self_bits.
  apply map_self_bit; auto. 
Qed.
Lemma u_bit flags n : 0 <= n -> Z.testbit (snd (mapflags flags)) n = U_bit (Z.testbit flags) n || L_bit (Z.testbit flags) n.
Proof.
  intros Hn. rewrite <- l_bit by auto. unfold mapflags, U_bit. cbn [fst snd]. rewrite Z.lor_spec. f_equal.
  rewrite map_flags_bit by (auto; vm_compute; reflexivity).
  rewrite Z.bits_0. apply fold_bstep_ext. intros o. apply cond_ext. intros k Hk. unfold self_bits.
  apply map_self_bit; auto.
Qed.

(** high bits *)
Lemma fold_bstep_high c n mp : (forall o, In o mp -> Z.testbit (fx (fop o)) n = true -> Z.testbit (fxm (fop o)) n = true) ->
  fold_left (bstep c n) mp false = false.
Proof.
  induction mp as [|o mp IH]; intros H; [reflexivity|]. cbn [fold_left].
  replace (bstep c n false o) with false; [apply IH; intros; apply H; cbn; auto|].
  unfold bstep, stepb. destruct (Z.testbit (fx (fop o)) n) eqn:E; [|reflexivity].
  rewrite H by (cbn; auto). now rewrite andb_false_r.
Qed.
Lemma small_high x n k : 0 <= x < 2 ^ k -> 0 <= k -> k <= n -> Z.testbit x n = false.
Proof.
  intros Hx Hk Hn. destruct (Z.eq_dec x 0) as [->|H]; [apply Z.bits_0|].
  apply Z.bits_above_log2; [lia|]. apply Z.log2_lt_pow2; [lia|].
  apply Z.lt_le_trans with (2 ^ k); [lia|]. apply Z.pow_le_mono_r; lia.
Qed.
Definition opsmall (o : flagop) : bool := ((0 <=? fx (fop o)) && (fx (fop o) <? 2 ^ 18)) || (fx (fop o) =? fxm (fop o)).
Lemma high_map c n mp : forallb opsmall mp = true -> 18 <= n -> fold_left (bstep c n) mp false = false.
Proof.
  intros H Hn. apply fold_bstep_high. intros o Ho. rewrite forallb_forall in H. specialize (H o Ho).
  unfold opsmall in H. apply orb_true_iff in H as [H|H].
  - apply andb_true_iff in H as [H1 H2]. apply Z.leb_le in H1. apply Z.ltb_lt in H2.
    rewrite (small_high _ n 18) by lia. discriminate.
  - apply Z.eqb_eq in H. rewrite H. auto.
Qed.
Lemma L_high b n : 18 <= n -> L_bit b n = false.
Proof. apply high_map. vm_compute. reflexivity. Qed.
Lemma U_high b n : 18 <= n -> U_bit b n = false.
Proof. apply high_map. vm_compute. reflexivity. Qed.
Lemma fit_bits x k : 0 <= k -> 0 <= x -> (forall n, k <= n -> Z.testbit x n = false) -> x < 2 ^ k.
Proof.
  intros Hk Hx H. destruct (Z.eq_dec x 0) as [->|E]; [apply Z.pow_pos_nonneg; lia|].
  destruct (Z_lt_le_dec x (2 ^ k)) as [|L]; auto. exfalso.
  assert (k <= Z.log2 x) by (apply Z.log2_le_pow2; lia).
  pose proof (H (Z.log2 x) H0). rewrite Z.bit_log2 in H1 by lia. discriminate.
Qed.
Lemma map_flags_nonneg i mp : forallb (fun o => (0 <=? fx (fop o)) && (0 <=? fxm (fop o))) mp = true -> forall o, 0 <= o -> 0 <= map_flags i o mp.
Proof.
  unfold map_flags. induction mp as [|op mp IH]; intros H o Ho; [exact Ho|]. cbn [forallb] in H.
  apply andb_true_iff in H as [H H2]. apply andb_true_iff in H as [H0 H1]. apply Z.leb_le in H0. apply Z.leb_le in H1.
  cbn [fold_left]. apply IH; auto. destruct (FLAGP i (fflag op)); auto. unfold OP.
  apply Z.lxor_nonneg. split; [auto|intros _]. apply Z.lor_nonneg; auto.
Qed.
Lemma snd_mapflags flags : snd (mapflags flags) =
  Z.lor (map_flags (map_flags_self flags self_flagmap) 0 u_flagmap) (fst (mapflags flags)).
Proof. unfold mapflags. cbv zeta. cbn [fst snd]. reflexivity. Qed.
Lemma mapflags_range flags : 0 <= fst (mapflags flags) < 2 ^ 18 /\ 0 <= snd (mapflags flags) < 2 ^ 18.
Proof.
  assert (H1 : 0 <= fst (mapflags flags)) by (unfold mapflags; cbv zeta; cbn [fst]; apply (map_flags_nonneg _ l_flagmap); [vm_compute; reflexivity|lia]).
  assert (H2 : 0 <= snd (mapflags flags)).
  { rewrite snd_mapflags. apply Z.lor_nonneg. split; [|exact H1].
    apply (map_flags_nonneg _ u_flagmap); [vm_compute; reflexivity|lia]. }
  repeat split; auto; apply fit_bits; auto; try lia; intros n Hn.
  - rewrite l_bit by lia. now apply L_high.
  - rewrite u_bit by lia. now rewrite U_high, L_high.
Qed.
Lemma PLNR_L_eq flags : PLNR_L flags = fst (mapflags flags).
Proof. unfold PLNR_L. apply Z.mod_small. pose proof (mapflags_range flags). lia. Qed.
Lemma PLNR_U_eq flags : PLNR_U flags = snd (mapflags flags).
Proof. unfold PLNR_U. apply Z.mod_small. pose proof (mapflags_range flags). lia. Qed.

Lemma enum18 (P : Z -> Prop) : Forall P [0;1;2;3;4;5;6;7;8;9;10;11;12;13;14;15;16;17] -> forall n, 0 <= n < 18 -> P n.
Proof.
  intros H n Hn. rewrite Forall_forall in H. apply H. cbn [In].
  assert (n = 0 \/ n = 1 \/ n = 2 \/ n = 3 \/ n = 4 \/ n = 5 \/ n = 6 \/ n = 7 \/ n = 8 \/ n = 9 \/ n = 10 \/ n = 11 \/ n = 12 \/ n = 13 \/ n = 14 \/ n = 15 \/ n = 16 \/ n = 17) by lia.
  intuition auto.
Qed.
Lemma flagset_bit f k : 0 <= k -> flagset f (2 ^ k) = Z.testbit f k.
Proof. intros H. unfold flagset. rewrite land_pow2_zero, negb_involutive; auto. Qed.
Lemma sub_enum a b : (forall n, 0 <= n < 18 -> Z.testbit a n = true -> Z.testbit b n = true) -> 0 <= a < 2 ^ 18 -> subset_bits a b.
Proof.
  intros H Ha i Hi. destruct (Z_lt_le_dec i 0); [rewrite Z.testbit_neg_r in Hi by auto; discriminate|].
  destruct (Z_lt_le_dec i 18); [apply H; auto|]. rewrite (small_high a i 18) in Hi by lia. discriminate.
Qed.

(** ** C20 *)

(** nothing is lost when the two words are stored in their 20-bit fields, and
    the lower mask is contained in the upper mask *)
Theorem C20_masks_fit : forall flags, word32 flags ->
  let l := fst (mapflags flags) in let u := snd (mapflags flags) in
  0 <= l < 2 ^ 20 /\ 0 <= u < 2 ^ 20 /\ PLNR_L flags = l /\ PLNR_U flags = u /\ subset_bits l u.
Proof.
  intros flags _ l u. subst l u. pose proof (mapflags_range flags) as H.
  repeat split; try lia; [apply PLNR_L_eq|apply PLNR_U_eq|].
  intros i Hi. rewrite snd_mapflags, Z.lor_spec, Hi. apply orb_true_r.
Qed.

(** PRESERVE_INPUT wins over DESTROY_INPUT, and preserving is the default *)
Theorem C20_destroy_input : forall flags, word32 flags ->
  flagset (PLNR_L flags) NO_DESTROY_INPUT =
  flagset flags FFTW_PRESERVE_INPUT || negb (flagset flags FFTW_DESTROY_INPUT).
Proof.
  intros flags _. rewrite PLNR_L_eq.
  change NO_DESTROY_INPUT with (2 ^ 12). unfold FFTW_PRESERVE_INPUT, FFTW_DESTROY_INPUT. rewrite !flagset_bit by lia.
  rewrite l_bit by lia. set (b := Z.testbit flags). clearbody b. cbv. destruct (b 4), (b 0); reflexivity.
Qed.

(** The bits of a stripped word with one pattern added *)
Lemma strip_bit flags n : 0 <= n -> n < 32 -> Z.testbit (strip flags) n = Z.testbit flags n && negb ((n =? 3) || (n =? 5) || (n =? 6)).
Proof.
  intros H1 H2. unfold strip. rewrite Z.ldiff_spec. f_equal. f_equal.
  change (Z.lor FFTW_ESTIMATE (Z.lor FFTW_MEASURE (Z.lor FFTW_PATIENT FFTW_EXHAUSTIVE))) with 104.
  assert (n = 0 \/ n = 1 \/ n = 2 \/ n = 3 \/ n = 4 \/ n = 5 \/ n = 6 \/ 7 <= n) as [E|[E|[E|[E|[E|[E|[E|E]]]]]]] by lia; try (subst; reflexivity).
  rewrite (small_high 104 n 7) by lia. symmetry. rewrite !orb_false_iff, !Z.eqb_neq. lia.
Qed.
Definition pbit (b : Z -> bool) (pat : nat) (n : Z) : bool :=
  (b n && negb ((n =? 3) || (n =? 5) || (n =? 6))) || Z.testbit (nth pat pats 0) n.
Lemma pat_bit flags pat n : 0 <= n < 32 -> Z.testbit (pat_flags flags pat) n = pbit (Z.testbit flags) pat n.
Proof. intros H. unfold pat_flags, pbit. rewrite Z.lor_spec, strip_bit by lia. reflexivity. Qed.

(** only bits below 32 matter *)
Definition lo32 (b c : Z -> bool) : Prop := forall n, 0 <= n < 32 -> b n = c n.
Lemma gstep_lo b c o : opok o = true -> fx (fflag o) < 2 ^ 32 -> lo32 b c -> lo32 (gstep b o) (gstep c o).
Proof.
  intros H Hs E n Hn. unfold gstep. rewrite (E n Hn).
  assert (Ec : cond b (fflag o) = cond c (fflag o)); [|now rewrite Ec].
  unfold cond. unfold opok in H. apply andb_true_iff in H as [H _]. apply andb_true_iff in H as [_ H].
  unfold onebit in H. apply andb_true_iff in H as [_ H]. apply Z.ltb_lt in H.
  rewrite E; [reflexivity|]. split; [apply Z.log2_nonneg|]. apply Z.log2_lt_pow2; lia.
Qed.
Lemma cond_lo b c m : fx m < 2 ^ 32 -> 0 < fx m -> lo32 b c -> cond b m = cond c m.
Proof. intros H H0 E. unfold cond. rewrite E; [reflexivity|]. split; [apply Z.log2_nonneg|]. apply Z.log2_lt_pow2; lia. Qed.
Lemma self_lo b c : lo32 b c -> lo32 (self_bits b) (self_bits c).
Proof.
  unfold self_bits. assert (H : forallb (fun o => opok o && (fx (fflag o) <? 2 ^ 32)) self_flagmap = true) by (vm_compute; reflexivity).
  revert b c H. induction self_flagmap as [|o mp IH]; intros b c H E; [exact E|].
  cbn [forallb] in H. apply andb_true_iff in H as [H H2]. apply andb_true_iff in H as [H0 H1]. apply Z.ltb_lt in H1.
  cbn [fold_left]. apply IH; auto. now apply gstep_lo.
Qed.
Lemma fold_lo b c n mp a : forallb (fun o => (0 <? fx (fflag o)) && (fx (fflag o) <? 2 ^ 32)) mp = true -> lo32 b c ->
  fold_left (bstep (fun op => cond b (fflag op)) n) mp a = fold_left (bstep (fun op => cond c (fflag op)) n) mp a.
Proof.
  intros H E. revert a H. induction mp as [|o mp IH]; intros a H; [reflexivity|].
  cbn [forallb] in H. apply andb_true_iff in H as [H H2]. apply andb_true_iff in H as [H0 H1].
  apply Z.ltb_lt in H0. apply Z.ltb_lt in H1. cbn [fold_left]. rewrite IH by auto. unfold bstep at 2. rewrite (cond_lo b c) by auto. reflexivity.
Qed.
Lemma L_lo b c n : lo32 b c -> L_bit b n = L_bit c n.
Proof. intros H. apply fold_lo; [vm_compute; reflexivity|now apply self_lo]. Qed.
Lemma U_lo b c n : lo32 b c -> U_bit b n = U_bit c n.
Proof. intros H. apply fold_lo; [vm_compute; reflexivity|now apply self_lo]. Qed.

Lemma l_pat flags pat n : 0 <= n -> Z.testbit (fst (mapflags (pat_flags flags pat))) n = L_bit (pbit (Z.testbit flags) pat) n.
Proof. intros. rewrite l_bit by auto. apply L_lo. intros k Hk. now apply pat_bit. Qed.
Lemma u_pat flags pat n : 0 <= n -> Z.testbit (snd (mapflags (pat_flags flags pat))) n = U_bit (pbit (Z.testbit flags) pat) n || L_bit (pbit (Z.testbit flags) pat) n.
Proof. intros. rewrite u_bit by auto. f_equal; [apply U_lo|apply L_lo]; intros k Hk; now apply pat_bit. Qed.

Lemma u_ordered flags p q : (p = 1 /\ q = 0 \/ p = 2 /\ q = 1 \/ p = 3 /\ q = 2)%nat ->
  subset_bits (PLNR_U (pat_flags flags p)) (PLNR_U (pat_flags flags q)).
Proof.
  intros H. rewrite !PLNR_U_eq. apply sub_enum; [|apply mapflags_range]. intros n Hn. rewrite !u_pat by lia.
  set (b := Z.testbit flags). clearbody b. revert n Hn. match goal with |- forall n, 0 <= n < 18 -> @?P n => apply (enum18 P) end.
  destruct H as [[-> ->]|[[-> ->]|[-> ->]]];
    repeat (apply Forall_cons || apply Forall_nil); clear; cbv;
    repeat match goal with |- context [b ?k] => destruct (b k) end; intros; congruence.
Qed.

(** Asking for more patience never adds a restriction, and does not change the
    mask of the restrictions that every plan must satisfy. *)
Theorem C20_patience_ordered : forall flags, word32 flags ->
  let U pat := PLNR_U (pat_flags flags pat) in
  subset_bits (U 3%nat) (U 2%nat) /\ subset_bits (U 2%nat) (U 1%nat) /\ subset_bits (U 1%nat) (U 0%nat).
Proof. intros flags _ U. subst U. cbn beta. repeat split; apply u_ordered; lia. Qed.

Lemma L_pat_const flags p : (p < 4)%nat -> PLNR_L (pat_flags flags p) = PLNR_L flags.
Proof.
  intros Hp. rewrite !PLNR_L_eq. apply Z.bits_inj'. intros n Hn. rewrite l_pat, l_bit by lia.
  destruct (Z_lt_le_dec n 18) as [L|L]; [|now rewrite !L_high by lia].
  set (b := Z.testbit flags). clearbody b. assert (Hn' : 0 <= n < 18) by lia. clear Hn L. revert n Hn'. match goal with |- forall n, 0 <= n < 18 -> @?P n => apply (enum18 P) end.
  do 4 (destruct p as [|p];
    [clear; repeat (apply Forall_cons || apply Forall_nil); cbv;
     repeat match goal with |- context [b ?k] => destruct (b k) end; reflexivity|]). lia.
Qed.

(** every flag word mkapiplan plans with imposes the same obligations on the
    plan as the user's flags; the last one is the level of patience asked for;
    without a time limit there is exactly one *)
Theorem C20_planning_flags : forall tl flags, word32 flags ->
  Forall (fun f => PLNR_L f = PLNR_L flags) (planning_flags tl flags) /\
  last (planning_flags tl flags) 0 = pat_flags flags (pat_max flags) /\
  (tl = false -> length (planning_flags tl flags) = 1%nat).
Proof.
  intros tl flags _. assert (Hp : (pat_max flags < 4)%nat).
  { unfold pat_max. destruct (flagset flags FFTW_ESTIMATE), (flagset flags FFTW_EXHAUSTIVE), (flagset flags FFTW_PATIENT); lia. }
  split; [|split].
  - unfold planning_flags. rewrite Forall_map. apply Forall_forall. intros p Hi. apply in_seq in Hi. apply L_pat_const.
    destruct tl; lia.
  - unfold planning_flags. destruct tl.
    + replace (S (pat_max flags) - 0)%nat with (S (pat_max flags)) by lia. rewrite seq_S, map_app. cbn [map]. rewrite last_last. f_equal.
    + replace (S (pat_max flags) - pat_max flags)%nat with 1%nat by lia. reflexivity.
  - intros ->. unfold planning_flags. rewrite map_length, seq_length. lia.
Qed.

(** the last of these words asks for exactly the level of patience the user
    asked for: ESTIMATE wins over EXHAUSTIVE, which wins over PATIENT; the
    others are kept as given *)
Theorem C20_patience_level : forall tl flags, word32 flags ->
  let f := last (planning_flags tl flags) 0 in
  let has := flagset flags in
  flagset f FFTW_ESTIMATE = has FFTW_ESTIMATE /\
  flagset f FFTW_EXHAUSTIVE = negb (has FFTW_ESTIMATE) && has FFTW_EXHAUSTIVE /\
  flagset f FFTW_PATIENT = negb (has FFTW_ESTIMATE) && negb (has FFTW_EXHAUSTIVE) && has FFTW_PATIENT /\
  forall i, 0 <= i -> i <> 3 -> i <> 5 -> i <> 6 -> Z.testbit f i = Z.testbit flags i.
Proof.
  intros tl flags Hw. cbv zeta. destruct (C20_planning_flags tl flags Hw) as (_ & -> & _).
  unfold pat_flags, strip, pat_max. change FFTW_ESTIMATE with (2 ^ 6). change FFTW_EXHAUSTIVE with (2 ^ 3). change FFTW_PATIENT with (2 ^ 5).
  rewrite !flagset_bit by lia.
  assert (B : forall i, 0 <= i -> Z.testbit (Z.lor (2 ^ 6) (Z.lor FFTW_MEASURE (Z.lor (2 ^ 5) (2 ^ 3)))) i = (i =? 6) || (i =? 5) || (i =? 3)).
  { intros i Hi. rewrite !Z.lor_spec. unfold FFTW_MEASURE. rewrite Z.bits_0. rewrite !Z.pow2_bits_eqb by lia.
    rewrite (Z.eqb_sym 6), (Z.eqb_sym 5), (Z.eqb_sym 3). cbn [orb]. now rewrite orb_assoc. }
  assert (N : forall b6 b3 b5 i, 0 <= i ->
    Z.testbit (nth (if b6 : bool then 0%nat else if b3 : bool then 3%nat else if b5 : bool then 2%nat else 1%nat) pats 0) i =
    (b6 && (i =? 6)) || (negb b6 && b3 && (i =? 3)) || (negb b6 && negb b3 && b5 && (i =? 5))).
  { intros b6 b3 b5 i Hi. destruct b6, b3, b5; cbn [nth pats negb andb orb]; unfold FFTW_MEASURE; rewrite ?Z.bits_0;
      change FFTW_ESTIMATE with (2 ^ 6); change FFTW_EXHAUSTIVE with (2 ^ 3); change FFTW_PATIENT with (2 ^ 5);
      rewrite ?Z.pow2_bits_eqb by lia; rewrite ?(Z.eqb_sym 6), ?(Z.eqb_sym 5), ?(Z.eqb_sym 3), ?orb_false_r; reflexivity. }
  set (b6 := Z.testbit flags 6). set (b3 := Z.testbit flags 3). set (b5 := Z.testbit flags 5).
  repeat split.
  - rewrite Z.lor_spec, Z.ldiff_spec, B, N by lia. fold b6. change (6 =? 6) with true. change (6 =? 3) with false. change (6 =? 5) with false.
    destruct b6, b3, b5; reflexivity.
  - rewrite Z.lor_spec, Z.ldiff_spec, B, N by lia. fold b3. change (3 =? 6) with false. change (3 =? 3) with true. change (3 =? 5) with false.
    destruct b6, b3, b5; reflexivity.
  - rewrite Z.lor_spec, Z.ldiff_spec, B, N by lia. fold b5. change (5 =? 6) with false. change (5 =? 3) with false. change (5 =? 5) with true.
    destruct b6, b3, b5; reflexivity.
  - intros i Hi N3 N5 N6. rewrite Z.lor_spec, Z.ldiff_spec, B, N by lia.
    destruct (Z.eqb_spec i 6), (Z.eqb_spec i 5), (Z.eqb_spec i 3); try lia. cbn [orb negb]. rewrite !andb_false_r, andb_true_r, !orb_false_r. reflexivity.
Qed.
(** the word used when the planner falls back on the estimator is the one an
    FFTW_ESTIMATE call with otherwise the same flags uses *)
Theorem C20_fallback : forall flags, word32 flags ->
  force_estimator flags = pat_flags flags 0 /\ PLNR_L (force_estimator flags) = PLNR_L flags.
Proof.
  intros flags Hw. assert (E : force_estimator flags = pat_flags flags 0).
  { unfold force_estimator, pat_flags, strip. cbn [nth pats]. apply Z.bits_inj'. intros i Hi.
    rewrite !Z.lor_spec, !Z.ldiff_spec, !Z.lor_spec. destruct (Z.testbit FFTW_ESTIMATE i), (Z.testbit flags i), (Z.testbit FFTW_MEASURE i),
      (Z.testbit FFTW_PATIENT i), (Z.testbit FFTW_EXHAUSTIVE i); reflexivity. }
  split; [exact E|]. rewrite E. apply L_pat_const. lia.
Qed.

(** with FFTW_ESTIMATE (given by the user or forced by the library) the
    planner is told to estimate; with MEASURE, PATIENT or EXHAUSTIVE it is not
    unless the user gave the undocumented FFTW_ESTIMATE_PATIENT *)
Theorem C20_estimate : forall flags, word32 flags ->
  (flagset flags FFTW_ESTIMATE = true -> flagset (PLNR_U flags) ESTIMATE = true) /\
  flagset (PLNR_U (force_estimator flags)) ESTIMATE = true /\
  (flagset flags FFTW_ESTIMATE = false -> flagset (PLNR_U flags) ESTIMATE = flagset flags FFTW_ESTIMATE_PATIENT).
Proof.
  intros flags _. rewrite !PLNR_U_eq. change ESTIMATE with (2 ^ 1).
  unfold FFTW_ESTIMATE, FFTW_ESTIMATE_PATIENT. rewrite !flagset_bit by lia. rewrite !u_bit by lia.
  split; [|split].
  - set (b := Z.testbit flags). clearbody b. intros H. cbv. rewrite H. repeat match goal with |- context [b ?k] => destruct (b k) end; reflexivity.
  - assert (H : Z.testbit (force_estimator flags) 6 = true) by (unfold force_estimator; rewrite Z.lor_spec; apply orb_true_r).
    set (b := Z.testbit (force_estimator flags)) in *. clearbody b. cbv. rewrite H. repeat match goal with |- context [b ?k] => destruct (b k) end; reflexivity.
  - set (b := Z.testbit flags). clearbody b. intros H. cbv. rewrite H. repeat match goal with |- context [b ?k] => destruct (b k) end; reflexivity.
Qed.

(** concrete words: ESTIMATE, and PATIENT|DESTROY_INPUT *)
Example C20_ex1 : mapflags FFTW_ESTIMATE = (NO_DESTROY_INPUT + NO_LARGE_GENERIC,
  NO_DESTROY_INPUT + NO_LARGE_GENERIC + NO_UGLY + ESTIMATE + ALLOW_PRUNING + BELIEVE_PCOST + NO_DFT_R2HC +
  NO_NONTHREADED + NO_INDIRECT_OP + NO_RANK_SPLITS + NO_VRANK_SPLITS + NO_VRECURSE + NO_SLOW + NO_FIXED_RADIX_LARGE_N).
Proof. vm_compute. reflexivity. Qed.
Example C20_ex2 : mapflags (FFTW_PATIENT + FFTW_DESTROY_INPUT) = (NO_LARGE_GENERIC, NO_LARGE_GENERIC + NO_UGLY + NO_SLOW).
Proof. vm_compute. reflexivity. Qed.
Example C20_ex3 : planning_flags true (FFTW_PATIENT + FFTW_UNALIGNED) =
  [FFTW_ESTIMATE + FFTW_UNALIGNED; FFTW_UNALIGNED; FFTW_PATIENT + FFTW_UNALIGNED].
Proof. vm_compute. reflexivity. Qed.

(** ** C21 *)
Lemma ln_tstep_pos : (0 < ln tstep)%R.
Proof. rewrite <- ln_1. apply ln_increasing; unfold tstep; lra. Qed.
Lemma Int_part_mono a b : (a <= b)%R -> Int_part a <= Int_part b.
Proof.
  intros H. destruct (base_Int_part a) as [A1 A2], (base_Int_part b) as [B1 B2].
  assert (IZR (Int_part a) < IZR (Int_part b + 1))%R; [|apply lt_IZR in H0; lia].
  rewrite plus_IZR. lra.
Qed.
Lemma Int_part_nonneg a : (0 <= a)%R -> 0 <= Int_part a.
Proof.
  intros H. destruct (base_Int_part a) as [A1 A2].
  assert (IZR (-1) < IZR (Int_part a))%R; [|apply lt_IZR in H0; lia]. lra.
Qed.
(** the value always fits the 9-bit field; a negative limit (FFTW_NO_TIMELIMIT) means unlimited *)
Theorem C21_range : forall t, 0 <= timelimit_to_flags t < 2 ^ BITS_FOR_TIMELIMIT.
Proof.
  intros t. unfold timelimit_to_flags.
  destruct (Rlt_dec t 0); [cbn; lia|]. destruct (Rle_dec tmax t); [cbn; lia|].
  destruct (Rle_dec t (1 / 10 ^ 10)); [cbn; lia|].
  set (x := Int_part _). destruct (Z.ltb_spec x 0); cbv zeta;
    match goal with |- context [?a <=? ?b] => destruct (Z.leb_spec a b) end; unfold nsteps, BITS_FOR_TIMELIMIT in *; cbn in *; lia.
Qed.
Theorem C21_unlimited : forall t, (t < 0)%R -> timelimit_to_flags t = 0.
Proof. intros t H. unfold timelimit_to_flags. destruct (Rlt_dec t 0); [reflexivity|contradiction]. Qed.

(** a larger (non-negative) limit never means more impatience *)
Theorem C21_monotone : forall s t, (0 <= s)%R -> (s <= t)%R -> timelimit_to_flags t <= timelimit_to_flags s.
Proof.
  intros s t Hs Hst. pose proof (C21_range s) as Rs.
  unfold timelimit_to_flags at 1.
  destruct (Rlt_dec t 0); [lia|]. destruct (Rle_dec tmax t) as [|H1]; [lia|].
  destruct (Rle_dec t (1 / 10 ^ 10)) as [H2|H2].
  { unfold timelimit_to_flags. destruct (Rlt_dec s 0); [lra|]. destruct (Rle_dec tmax s); [lra|].
    destruct (Rle_dec s (1 / 10 ^ 10)); [lia|lra]. }
  unfold timelimit_to_flags.
  destruct (Rlt_dec s 0); [lra|]. destruct (Rle_dec tmax s); [lra|].
  destruct (Rle_dec s (1 / 10 ^ 10)) as [H3|H3].
  { cbv zeta. match goal with |- context [?a <=? ?b] => destruct (Z.leb_spec a b) end; lia. }
  assert (P : (0 < 1 / 10 ^ 10)%R) by (apply Rdiv_lt_0_compat; lra).
  assert (Hp : (0 < s)%R) by lra. assert (Ht : (0 < t)%R) by lra.
  assert (L : (1 / 2 + ln (tmax / t) / ln tstep <= 1 / 2 + ln (tmax / s) / ln tstep)%R).
  { apply Rplus_le_compat_l. unfold Rdiv at 1 3. apply Rmult_le_compat_r.
    - left. apply Rinv_0_lt_compat, ln_tstep_pos.
    - assert (T0 : (0 < tmax)%R) by (unfold tmax; lra).
      destruct (Rle_lt_or_eq_dec _ _ Hst) as [Q|Q]; [|subst; apply Rle_refl].
      left. apply ln_increasing; [now apply Rdiv_lt_0_compat|]. unfold Rdiv. apply Rmult_lt_compat_l; auto.
      apply Rinv_lt_contravar; auto. now apply Rmult_lt_0_compat. }
  apply Int_part_mono in L. revert L.
  set (a := Int_part _). set (b := Int_part _). intros L. cbv zeta.
  destruct (Z.ltb_spec a 0), (Z.ltb_spec b 0);
    repeat match goal with |- context [?a <=? ?b] => destruct (Z.leb_spec a b) end; unfold nsteps, BITS_FOR_TIMELIMIT in *; cbn in *; lia.
Qed.
(** the conversion to int in the C code is never applied to a negative number,
    so modelling it by the floor is exact *)
Theorem C21_cast_exact : forall t, (1 / 10 ^ 10 < t)%R -> (t < tmax)%R -> (0 <= 1 / 2 + ln (tmax / t) / ln tstep)%R.
Proof.
  intros t H1 H2. assert (P : (0 < 1 / 10 ^ 10)%R) by (apply Rdiv_lt_0_compat; lra).
  assert (0 < ln (tmax / t))%R.
  { rewrite <- ln_1. apply ln_increasing; [lra|]. apply Rmult_lt_reg_r with t; [lra|]. unfold Rdiv. rewrite Rmult_assoc, Rinv_l by lra. lra. }
  pose proof ln_tstep_pos. assert (0 < ln (tmax / t) / ln tstep)%R by now apply Rdiv_lt_0_compat. lra.
Qed.

(** a non-trivial value: a limit of tmax/1.05 is one step *)
Example C21_ex : timelimit_to_flags (tmax / tstep) = 1 /\ timelimit_to_flags 0 = 511.
Proof.
  pose proof ln_tstep_pos as P.
  assert (T : (tmax / tstep < tmax)%R).
  { unfold tmax, tstep. lra. }
  split.
  - unfold timelimit_to_flags. assert (T1 : (1 <= tmax / tstep)%R) by (unfold tmax, tstep; lra).
    assert (T2 : (1 / 10 ^ 10 < 1)%R).
    { apply Rmult_lt_reg_r with (10 ^ 10)%R; [apply pow_lt; lra|]. unfold Rdiv. rewrite Rmult_assoc, Rinv_l by (apply pow_nonzero; lra).
      cbn [pow]. lra. }
    destruct (Rlt_dec (tmax / tstep) 0); [lra|]. destruct (Rle_dec tmax (tmax / tstep)); [lra|].
    destruct (Rle_dec (tmax / tstep) (1 / 10 ^ 10)); [lra|].
    replace (tmax / (tmax / tstep))%R with tstep by (unfold tmax, tstep; field).
    replace (ln tstep / ln tstep)%R with 1%R by (field; lra).
    assert (E : Int_part (1 / 2 + 1) = 1).
    { unfold Int_part. rewrite <- (tech_up (1/2 + 1) 2); [reflexivity| |]; lra. }
    rewrite E. reflexivity.
  - unfold timelimit_to_flags. destruct (Rlt_dec 0 0); [lra|]. destruct (Rle_dec tmax 0) as [H|H]; [unfold tmax in H; lra|].
    destruct (Rle_dec 0 (1 / 10 ^ 10)) as [H0|H0]; [reflexivity|]. exfalso. apply H0. left. apply Rdiv_lt_0_compat; lra.
Qed.

Print Assumptions C20_masks_fit.
Print Assumptions C20_destroy_input.
Print Assumptions C20_patience_ordered.
Print Assumptions C20_planning_flags.
Print Assumptions C20_patience_level.
Print Assumptions C20_fallback.
Print Assumptions C20_estimate.
Print Assumptions C21_range.
Print Assumptions C21_unlimited.
Print Assumptions C21_monotone.
Print Assumptions C21_cast_exact.
