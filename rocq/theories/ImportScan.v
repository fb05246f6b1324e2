(** * Facts on scanning arbitrary text, used for the import of wisdom *)
From Coq Require Import String ZArith List Lia Bool.
From Verif Require Import Base TextModel PropText.
Import ListNotations.
Open Scope Z_scope.

Lemma Ret_inj {A C} (a c : A) (b d : C) : Ret (a, b) = Ret (c, d) -> a = c /\ b = d.
Proof. intros H. split; congruence. Qed.
Definition Suf (l' l : list Z) : Prop := exists p, l = p ++ l'.
Lemma Suf_refl l : Suf l l. Proof. now exists []. Qed.
Lemma Suf_trans a b c : Suf a b -> Suf b c -> Suf a c.
Proof. intros [p ->] [q ->]. exists (q ++ p). now rewrite app_assoc. Qed.
Lemma Suf_cons c a b : Suf a b -> Suf a (c :: b).
Proof. intros [p ->]. now exists (c :: p). Qed.
Lemma Suf_len a b : Suf a b -> (length a <= length b)%nat.
Proof. intros [p ->]. rewrite app_length. lia. Qed.
Lemma Suf_ungetc c l : Suf (ungetc c l) (c :: l).
Proof. unfold ungetc. destruct (c =? EOF); [apply Suf_cons|]; apply Suf_refl. Qed.
Lemma eat_suf l : Suf (eat_blanks l) l.
Proof.
  induction l as [|c l IH]; cbn [eat_blanks]; [apply Suf_refl|]. destruct (isspace c); [now apply Suf_cons|apply Suf_ungetc].
Qed.
Lemma mygets_suf l : forall room, Suf (snd (mygets l room)) l.
Proof.
  induction l as [|c l IH]; intros room; cbn [mygets]; [apply Suf_refl|]. destruct (_ && _); [|apply Suf_ungetc].
  destruct room as [|room]; [apply Suf_ungetc|]. specialize (IH room). destruct (mygets l room) as [s r]. cbn [snd] in *. now apply Suf_cons.
Qed.
Lemma digits_suf l b : forall x c r, digits_loop l b x c = Ret r -> Suf (snd r) l.
Proof.
  induction l as [|ch l IH]; intros x c r H; cbn [digits_loop] in H; [inversion H; apply Suf_refl|].
  destruct (digit_of ch).
  - destruct (ckl (x * b)); try discriminate. cbn [bind] in H. destruct (ckl _); try discriminate. cbn [bind] in H. apply IH in H. now apply Suf_cons.
  - inversion H. apply Suf_ungetc.
Qed.
Lemma getlong_suf l b r : getlong l b = Ret r -> Suf (snd r) l.
Proof.
  unfold getlong. destruct (getc l) as [ch l1] eqn:G. intros H.
  assert (S1 : Suf l1 l). { destruct l; cbn in G; inversion G; subst; [apply Suf_refl|apply Suf_cons, Suf_refl]. }
  destruct (_ || _); cbn beta iota in H.
  - destruct (digits_loop l1 b 0 false) as [[[x ok] l3]| |] eqn:E; try discriminate. cbn [bind] in H. destruct (ckl _); try discriminate. cbn [bind] in H. inversion H. cbn [snd].
    apply digits_suf in E. eapply Suf_trans; eauto.
  - destruct (digits_loop l b 0 false) as [[[x ok] l3]| |] eqn:E; try discriminate. cbn [bind] in H. destruct (ckl _); try discriminate. cbn [bind] in H. inversion H. cbn [snd].
    now apply digits_suf in E.
Qed.
(** a digit is consumed when a number was read *)
Definition tag (v : sval) : nat := match v with VStr _ => 0 | VInt _ => 1 | VMd5 _ => 2 end.
Definition item_tag (c : Z) : option nat := if c =? 115 then Some 0%nat else if c =? 100 then Some 1%nat else if c =? 120 then Some 1%nat else if c =? 77 then Some 2%nat else None.
Definition val_ok (v : sval) : Prop := match v with VStr s => True | VInt z => - 2 ^ 31 <= z < 2 ^ 31 | VMd5 z => 0 <= z < 2 ^ 32 end.
Lemma land32 x : 0 <= Z.land 0xFFFFFFFF x < 2 ^ 32.
Proof. rewrite Z.land_comm. change 0xFFFFFFFF with (Z.ones 32). rewrite Z.land_ones by lia. apply Z.mod_pos_bound. lia. Qed.
Lemma to_int_range x : - 2 ^ 31 <= to_int x < 2 ^ 31.
Proof. unfold to_int. pose proof (Z.mod_pos_bound (x + 2 ^ 31) (2 ^ 32) ltac:(lia)). lia. Qed.
Lemma item_ret c t n l o l' : item_tag c = Some t -> scan_item c n l = Ret (o, l') -> Suf l' l /\ (forall v, o = Some v -> tag v = t /\ val_ok v).
Proof.
  unfold item_tag, scan_item. destruct (c =? 115).
  { intros Q H. inversion Q; subst. pose proof (mygets_suf l (Z.to_nat n)) as M. destruct (mygets l (Z.to_nat n)) as [s r]. inversion H; subst. split; [exact M|]. intros v Hv. inversion Hv. split; [reflexivity|exact Logic.I]. }
  destruct (c =? 100).
  { intros Q H. inversion Q; subst. destruct (getlong l 10) as [[[x ok] r]| |] eqn:E; try discriminate. cbn [bind] in H. apply getlong_suf in E. cbn [snd] in E. apply Ret_inj in H as [<- <-].
    split; [exact E|]. intros v Hv. destruct ok; [|discriminate]. assert (Ev : v = _) by (symmetry; apply (f_equal (fun o => match o with Some x => x | None => v end)) in Hv; exact Hv). rewrite Ev. split; [reflexivity|]. apply to_int_range. }
  destruct (c =? 120).
  { intros Q H. inversion Q; subst. destruct (getlong l 16) as [[[x ok] r]| |] eqn:E; try discriminate. cbn [bind] in H. apply getlong_suf in E. cbn [snd] in E. apply Ret_inj in H as [<- <-].
    split; [exact E|]. intros v Hv. destruct ok; [|discriminate]. assert (Ev : v = _) by (symmetry; apply (f_equal (fun o => match o with Some x => x | None => v end)) in Hv; exact Hv). rewrite Ev. split; [reflexivity|]. apply to_int_range. }
  destruct (c =? 77); [|discriminate].
  intros Q H. inversion Q; subst. destruct (getlong l 16) as [[[x ok] r]| |] eqn:E; try discriminate. cbn [bind] in H. apply getlong_suf in E. cbn [snd] in E. apply Ret_inj in H as [<- <-].
  split; [exact E|]. intros v Hv. destruct ok; [|discriminate]. assert (Ev : v = _) by (symmetry; apply (f_equal (fun o => match o with Some x => x | None => v end)) in Hv; exact Hv). rewrite Ev. split; [reflexivity|]. apply land32.
Qed.
(** formats *)
Inductive Fmt : list Z -> list Z -> list nat -> Prop :=
| F_nil st : Fmt [] st []
| F_item c t s st sh : c <> 42 -> item_tag c = Some t -> Fmt s st sh -> Fmt (37 :: c :: s) st (t :: sh)
| F_star n s st sh : 0 < n -> Fmt s st sh -> Fmt (37 :: 42 :: 115 :: s) (n :: st) (0%nat :: sh)
| F_chr c s st sh : c <> 37 -> Fmt s st sh -> Fmt (c :: s) st sh.
Lemma vscan_pct c s st acc l : c <> 42 -> vscan (37 :: c :: s) st acc l =
  (r <- scan_item c 0 l;; match r with (Some v, l') => vscan s st (acc ++ [v]) l' | (None, l') => Ret (None, l') end).
Proof.
  intros N. cbn [vscan]. change (37 =? 37) with true. cbv iota.
  destruct c as [|p|p]; try reflexivity. do 6 (destruct p as [p|p|]; try reflexivity). congruence.
Qed.
Lemma vscan_star c s n st acc l : 0 < n -> vscan (37 :: 42 :: c :: s) (n :: st) acc l =
  (r <- scan_item c n l;; match r with (Some v, l') => vscan s st (acc ++ [v]) l' | (None, l') => Ret (None, l') end).
Proof. intros N. cbn [vscan]. change (37 =? 37) with true. cbv iota. destruct (Z.leb_spec n 0); [lia|reflexivity]. Qed.
Lemma vscan_chr c s st acc l : c <> 37 -> vscan (c :: s) st acc l = (let '(ok, l') := scan_char c l in if ok : bool then vscan s st acc l' else Ret (None, l')).
Proof. intros N. cbn [vscan]. destruct (Z.eqb_spec c 37); [contradiction|reflexivity]. Qed.
Lemma scan_char_suf c l : Suf (snd (scan_char c l)) l.
Proof.
  unfold scan_char. set (l1 := if isspace c || (c =? 40) || (c =? 41) then eat_blanks l else l). assert (S1 : Suf l1 l) by (unfold l1; destruct (_ || _ || _); [apply eat_suf|apply Suf_refl]). clearbody l1.
  destruct (isspace c); [exact S1|]. destruct l1 as [|x l1]; cbn [getc].
  - destruct (EOF =? c); cbn [snd]; [exact S1|]. unfold ungetc. change (EOF =? EOF) with true. exact S1.
  - destruct (x =? c); cbn [snd]; [eapply Suf_trans; [apply Suf_cons, Suf_refl|exact S1]|]. eapply Suf_trans; [apply Suf_ungetc|exact S1].
Qed.
Lemma vscan_ret fmt st sh : Fmt fmt st sh -> forall acc l o l', vscan fmt st acc l = Ret (o, l') ->
  Suf l' l /\ (forall vs, o = Some vs -> exists ws, vs = acc ++ ws /\ map tag ws = sh /\ Forall val_ok ws).
Proof.
  intros F. induction F as [st|c t s st sh N Ht F IH|n s st sh Hn F IH|c s st sh N F IH]; intros acc l o l' H.
  - cbn [vscan] in H. inversion H; subst. split; [apply Suf_refl|]. intros vs Hv. inversion Hv; subst. exists []. rewrite app_nil_r. auto.
  - rewrite vscan_pct in H by auto. destruct (scan_item c 0 l) as [[o1 l1]| |] eqn:E; try discriminate. cbn [bind] in H. apply (item_ret c t) in E as [E1 E2]; auto. destruct o1 as [v|].
    + apply IH in H as [H1 H2]. split; [eapply Suf_trans; eauto|]. intros vs Hv. destruct (H2 vs Hv) as (ws & -> & H3 & H4). destruct (E2 v eq_refl) as [T V]. exists (v :: ws).
      split; [now rewrite <- app_assoc|]. split; [cbn; now rewrite T, H3|]. now constructor.
    + inversion H; subst. split; [exact E1|discriminate].
  - rewrite vscan_star in H by auto. destruct (scan_item 115 n l) as [[o1 l1]| |] eqn:E; try discriminate. cbn [bind] in H. apply (item_ret 115 0) in E as [E1 E2]; auto. destruct o1 as [v|].
    + apply IH in H as [H1 H2]. split; [eapply Suf_trans; eauto|]. intros vs Hv. destruct (H2 vs Hv) as (ws & -> & H3 & H4). destruct (E2 v eq_refl) as [T V]. exists (v :: ws).
      split; [now rewrite <- app_assoc|]. split; [cbn; now rewrite T, H3|]. now constructor.
    + inversion H; subst. split; [exact E1|discriminate].
  - rewrite vscan_chr in H by auto. pose proof (scan_char_suf c l) as S1. destruct (scan_char c l) as [ok l1]. cbn [snd] in S1. destruct ok.
    + apply IH in H as [H1 H2]. split; [eapply Suf_trans; eauto|exact H2].
    + inversion H; subst. split; [exact S1|discriminate].
Qed.
(** a literal that is matched is consumed *)
Lemma scan_char_strict c l l' : isspace c = false -> c <> EOF -> scan_char c l = (true, l') -> (length l' < length l)%nat.
Proof.
  unfold scan_char. set (l1 := if isspace c || (c =? 40) || (c =? 41) then eat_blanks l else l). assert (S1 : Suf l1 l) by (unfold l1; destruct (_ || _ || _); [apply eat_suf|apply Suf_refl]). clearbody l1.
  intros Hs He. rewrite Hs. apply Suf_len in S1. destruct l1 as [|x l1]; cbn [getc].
  - destruct (Z.eqb_spec EOF c); [congruence|discriminate].
  - destruct (x =? c); [|discriminate]. intros H. inversion H; subst. cbn [length] in S1. lia.
Qed.
Lemma vscan_strict c s st sh acc l vs l' : c <> 37 -> isspace c = false -> c <> EOF -> Fmt s st sh -> vscan (c :: s) st acc l = Ret (Some vs, l') -> (length l' < length l)%nat.
Proof.
  intros N Hs He F H. rewrite vscan_chr in H by auto. destruct (scan_char c l) as [ok l1] eqn:E. destruct ok; [|discriminate].
  apply scan_char_strict in E; auto. apply (vscan_ret _ _ _ F) in H as [H _]. apply Suf_len in H. lia.
Qed.

(** ** no overflow *)
(** no run of more than 15 letters and digits *)
Definition alnum (c : Z) : Prop := digit_of c <> None.
Definition short_words (l : list Z) : Prop := forall a w b, l = a ++ w ++ b -> Forall alnum w -> (length w <= 15)%nat.
Lemma short_suf a b : Suf a b -> short_words b -> short_words a.
Proof. intros [p ->] H x w y E. apply (H (p ++ x) w y). rewrite E. now rewrite !app_assoc. Qed.
Lemma digit_range c d : digit_of c = Some d -> 0 <= d <= 35.
Proof.
  unfold digit_of, isdigit, isupper, islower. intros H.
  destruct (Z.leb_spec 48 c), (Z.leb_spec c 57); cbn in H; [inversion H; lia|..];
  (destruct (Z.leb_spec 65 c), (Z.leb_spec c 90); cbn in H; [inversion H; lia|..]);
  (destruct (Z.leb_spec 97 c), (Z.leb_spec c 122); cbn in H; [inversion H; lia|..]); try discriminate.
Qed.
Lemma pow15 k : (k <= 15)%nat -> 16 ^ Z.of_nat k <= 16 ^ 15.
Proof. intros H. apply Z.pow_le_mono_r; lia. Qed.
Lemma digits_total b : 2 <= b <= 16 -> forall l w x c, Forall alnum w -> short_words (w ++ l) -> 0 <= x -> 15 * x <= 35 * (16 ^ Z.of_nat (length w) - 1) ->
  exists y c' l', digits_loop l b x c = Ret (y, c', l') /\ 0 <= y <= LONG_MAX.
Proof.
  intros Hb. induction l as [|ch l IH]; intros w x c Fw Sw Hx Hb'.
  - cbn [digits_loop]. do 3 eexists. split; [reflexivity|]. split; [lia|].
    assert (Lw : (length w <= 15)%nat) by (apply (Sw [] w []); auto).
    pose proof (pow15 (length w) Lw). change (16 ^ 15) with 1152921504606846976 in *. unfold LONG_MAX. lia.
  - cbn [digits_loop]. destruct (digit_of ch) as [d|] eqn:Ed.
    + assert (Fw' : Forall alnum (w ++ [ch])) by (apply Forall_app; split; auto; constructor; [unfold alnum; congruence|constructor]).
      assert (Lw : (length (w ++ [ch]) <= 15)%nat) by (apply (Sw [] (w ++ [ch]) l); auto; cbn; now rewrite <- app_assoc).
      rewrite app_length in Lw. cbn [length] in Lw.
      apply digit_range in Ed. pose proof (pow15 (length w + 1) Lw) as Pw. change (16 ^ 15) with 1152921504606846976 in Pw.
      rewrite Nat2Z.inj_add, Z.pow_add_r in Pw by lia. change (16 ^ Z.of_nat 1) with 16 in Pw. set (W := 16 ^ Z.of_nat (length w)) in *.
      assert (Xb : 0 <= x * b <= x * 16) by nia.
      unfold ckl. replace ((- LONG_MAX - 1 <=? x * b) && (x * b <=? LONG_MAX)) with true by (symmetry; apply andb_true_iff; rewrite !Z.leb_le; unfold LONG_MAX; lia).
      cbn [bind]. replace ((- LONG_MAX - 1 <=? x * b + d) && (x * b + d <=? LONG_MAX)) with true by (symmetry; apply andb_true_iff; rewrite !Z.leb_le; unfold LONG_MAX; lia).
      cbn [bind]. apply (IH (w ++ [ch])); auto; [now rewrite <- app_assoc|lia|].
      rewrite app_length. cbn [length]. rewrite Nat2Z.inj_add, Z.pow_add_r by lia. change (16 ^ Z.of_nat 1) with 16. fold W. lia.
    + do 3 eexists. split; [reflexivity|]. split; [lia|]. assert (Lw : (length w <= 15)%nat) by (apply (Sw [] w (ch :: l)); auto).
      pose proof (pow15 (length w) Lw). change (16 ^ 15) with 1152921504606846976 in *. unfold LONG_MAX. lia.
Qed.
Lemma getlong_total l b : 2 <= b <= 16 -> short_words l -> exists r, getlong l b = Ret r.
Proof.
  intros Hb Sl. unfold getlong. destruct (getc l) as [ch l1] eqn:G.
  assert (S1 : Suf l1 l). { destruct l; cbn in G; inversion G; subst; [apply Suf_refl|apply Suf_cons, Suf_refl]. }
  assert (D : forall l2 sg, short_words l2 -> (sg = 1 \/ sg = -1) -> exists r, (r <- digits_loop l2 b 0 false;; let '(x, ok, l3) := r in x' <- ckl (x * sg);; Ret (x', ok, l3)) = Ret r).
  { intros l2 sg S2 Hs. destruct (digits_total b Hb l2 [] 0 false) as (y & c' & l' & E & Y); auto; [lia|cbn; lia|]. rewrite E. cbn [bind].
    unfold ckl. replace ((- LONG_MAX - 1 <=? y * sg) && (y * sg <=? LONG_MAX)) with true by (symmetry; apply andb_true_iff; rewrite !Z.leb_le; unfold LONG_MAX in *; destruct Hs; subst; lia).
    cbn [bind]. eauto. }
  destruct (_ || _); [|apply D; auto]. destruct (ch =? 45); apply D; auto; eapply short_suf; eauto.
Qed.
Lemma item_total c t n l : item_tag c = Some t -> short_words l -> exists r, scan_item c n l = Ret r.
Proof.
  unfold item_tag, scan_item. intros Ht Sl. destruct (c =? 115); [destruct (mygets l (Z.to_nat n)); eauto|].
  destruct (getlong_total l 10 ltac:(lia) Sl) as ([[x1 ok1] r1] & E1). destruct (getlong_total l 16 ltac:(lia) Sl) as ([[x2 ok2] r2] & E2). rewrite E1, E2. cbn [bind].
  destruct (c =? 100); [eauto|]. destruct (c =? 120); [eauto|]. destruct (c =? 77); [eauto|discriminate].
Qed.
Lemma vscan_total fmt st sh : Fmt fmt st sh -> forall acc l, short_words l -> exists r, vscan fmt st acc l = Ret r.
Proof.
  intros F. induction F as [st|c t s st sh N Ht F IH|n s st sh Hn F IH|c s st sh N F IH]; intros acc l Sl.
  - cbn. eauto.
  - rewrite vscan_pct by auto. destruct (item_total c t 0 l Ht Sl) as ([o l1] & E). rewrite E. cbn [bind]. apply (item_ret c t) in E as [E _]; auto. destruct o; [|eauto]. apply IH. eapply short_suf; eauto.
  - rewrite vscan_star by auto. destruct (item_total 115 0 n l eq_refl Sl) as ([o l1] & E). rewrite E. cbn [bind]. apply (item_ret 115 0) in E as [E _]; auto. destruct o; [|eauto]. apply IH. eapply short_suf; eauto.
  - rewrite vscan_chr by auto. pose proof (scan_char_suf c l) as S1. destruct (scan_char c l) as [ok l1]. cbn [snd] in S1. destruct ok; [|eauto]. apply IH. eapply short_suf; eauto.
Qed.
(** scanning never diverges *)
Lemma vscan_nodiv fmt st sh : Fmt fmt st sh -> forall acc l, vscan fmt st acc l <> Diverge.
Proof.
  assert (C : forall z, ckl z <> Diverge) by (intros z; unfold ckl; destruct (_ && _); discriminate).
  assert (D : forall l b x c, digits_loop l b x c <> Diverge).
  { induction l as [|ch l IH]; intros b x c; cbn [digits_loop]; [discriminate|]. destruct (digit_of ch) as [d|]; [|discriminate].
    destruct (ckl (x * b)) as [x1| |] eqn:E1; cbn [bind]; [|discriminate|now apply C in E1]. destruct (ckl (x1 + d)) eqn:E2; cbn [bind]; [apply IH|discriminate|now apply C in E2]. }
  assert (G : forall l b, getlong l b <> Diverge).
  { intros l b. unfold getlong. destruct (getc l) as [ch l1]. destruct (if (ch =? 45) || (ch =? 43) then _ else _) as [sg l2].
    destruct (digits_loop l2 b 0 false) as [[[x ok] l3]| |] eqn:E; cbn [bind]; [|discriminate|now apply D in E]. destruct (ckl _) eqn:E2; cbn [bind]; [discriminate|discriminate|now apply C in E2]. }
  assert (I : forall c n l, scan_item c n l <> Diverge).
  { intros c n l. unfold scan_item. destruct (c =? 115); [destruct (mygets _ _); discriminate|].
    pose proof (G l 10). pose proof (G l 16).
    destruct (c =? 100); [destruct (getlong l 10) as [[[? ?] ?]| |]; cbn [bind]; congruence|]. destruct (c =? 120); [destruct (getlong l 16) as [[[? ?] ?]| |]; cbn [bind]; congruence|].
    destruct (c =? 77); [destruct (getlong l 16) as [[[? ?] ?]| |]; cbn [bind]; congruence|discriminate]. }
  intros F. induction F as [st|c t s st sh N Ht F IH|n s st sh Hn F IH|c s st sh N F IH]; intros acc l.
  - discriminate.
  - rewrite vscan_pct by auto. destruct (scan_item c 0 l) as [[o l1]| |] eqn:E; cbn [bind]; [destruct o; [apply IH|discriminate]|discriminate|now apply I in E].
  - rewrite vscan_star by auto. destruct (scan_item 115 n l) as [[o l1]| |] eqn:E; cbn [bind]; [destruct o; [apply IH|discriminate]|discriminate|now apply I in E].
  - rewrite vscan_chr by auto. destruct (scan_char c l) as [ok l1]. destruct ok; [apply IH|discriminate].
Qed.
