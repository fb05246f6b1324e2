(** * The effect of importing exported wisdom, and what an accepted text contains *)
From Coq Require Import String ZArith List Lia Bool Permutation.
From Verif Require Import Base SpecWisdom SpecMd5 HashModel HashProofs Md5Model TextModel PropText PropMd5 PropWisdom Offs NumTheory PlannerModel PlannerScope SpecImport ImportModel ImportScan ImportProofs ImportRound ImportMerge.
Import ListNotations.
Open Scope Z_scope.

(** ** one record, abstractly: [U] is the other table *)
Definition Step (U T : list record) (r : record) (T' : list record) : Prop :=
  (T' = T /\ exists q, In q (T ++ U) /\ supersedes q r) \/
  ((forall q, In q (T ++ U) -> ~ supersedes q r) /\ exists K, Permutation T' (r :: K) /\ (forall x, In x K <-> In x T /\ ~ supersedes r x) /\ (NoDup T -> NoDup K) /\
     ((forall x, In x T -> ~ supersedes r x) -> K = T)).
Fixpoint Steps (U T rs T' : list record) : Prop :=
  match rs with [] => T' = T | r :: rs' => exists T1, Step U T r T1 /\ Steps U T1 rs' T' end.
Lemma supersedes_refl r : supersedes r r. Proof. split; [reflexivity|apply licenses_self]. Qed.
Lemma Steps_sub U : forall rs T T', Steps U T rs T' -> forall x, In x T' -> In x T \/ In x rs.
Proof.
  induction rs as [|r rs IH]; intros T T' H x Hx; cbn [Steps] in H; [subst; auto|]. destruct H as (T1 & H1 & H2). destruct (IH _ _ H2 x Hx) as [Q|Q]; [|right; now right].
  destruct H1 as [[-> _]|(_ & K & P & HK & _)]; [auto|]. apply (Permutation_in x P) in Q. destruct Q as [<-|Q]; [right; now left|]. left. now apply HK.
Qed.
Lemma Step_indep U T r T' : independent T -> Step U T r T' -> independent T'.
Proof.
  intros [N I] [[-> _]|(Hq & K & P & HK & HN & _)]; [split; auto|].
  assert (NK : NoDup (r :: K)). { constructor; auto. intros Q. apply HK in Q as [_ Q]. apply Q. apply supersedes_refl. }
  split; [eapply Permutation_NoDup; [symmetry; exact P|exact NK]|]. intros x y Hx Hy S.
  apply (Permutation_in x P) in Hx. apply (Permutation_in y P) in Hy. destruct Hx as [<-|Hx], Hy as [<-|Hy]; auto.
  - apply HK in Hy as [_ Hy]. contradiction.
  - apply HK in Hx as [Hx _]. exfalso. apply (Hq x); auto. apply in_or_app. now left.
  - apply I; auto; [now apply HK in Hx|now apply HK in Hy].
Qed.
Lemma Steps_indep U : forall rs T T', independent T -> Steps U T rs T' -> independent T'.
Proof.
  induction rs as [|r rs IH]; intros T T' HI H; cbn [Steps] in H; [now subst|]. destruct H as (T1 & H1 & H2). eapply IH; [|exact H2]. eapply Step_indep; eauto.
Qed.
Lemma Steps_exact : forall rs T T', independent (T ++ rs) -> Steps [] T rs T' -> Permutation T' (T ++ rs).
Proof.
  induction rs as [|r rs IH]; intros T T' HI H; cbn [Steps] in H; [subst; now rewrite app_nil_r|]. destruct H as (T1 & H1 & H2). destruct HI as [N I].
  assert (Ir : forall x, In x T -> In x (T ++ r :: rs)) by (intros; apply in_or_app; now left).
  assert (Rr : In r (T ++ r :: rs)) by (apply in_or_app; right; now left).
  assert (Nr : ~ In r T). { intros Q. apply NoDup_remove_2 in N. apply N. apply in_or_app. now left. }
  assert (P1 : Permutation T1 (r :: T)).
  { destruct H1 as [[_ (q & Hq & Sq)]|(_ & K & P & _ & _ & HK)].
    - exfalso. rewrite app_nil_r in Hq. assert (q = r) by (apply I; auto). subst. contradiction.
    - rewrite P. rewrite HK; [reflexivity|]. intros x Hx S. assert (r = x) by (apply I; auto). subst. contradiction. }
  assert (P2 : Permutation (T1 ++ rs) (T ++ r :: rs)) by (rewrite P1; cbn [app]; apply Permutation_middle).
  rewrite <- P2. apply IH; auto. split; [eapply Permutation_NoDup; [symmetry; exact P2|exact N]|].
  intros x y Hx Hy. apply I; eapply Permutation_in; eauto.
Qed.
(** superseded by a record of the same sort *)
Definition SS (q x : record) : Prop := supersedes q x /\ (infeasible q <-> infeasible x).
Lemma subset_trans a b c : subset a b -> subset b c -> subset a c. Proof. intros H1 H2 i Hi. auto. Qed.
Lemma SS_refl x : SS x x. Proof. split; [apply supersedes_refl|reflexivity]. Qed.
Lemma licenses_SS q x l u tl : SS q x -> licenses x l u tl -> licenses q l u tl.
Proof.
  intros [[_ S] F] [(N & A & C)|(N & A & C)].
  - left. destruct S as [(Nq & A' & C')|(Nq & _)]; [|tauto]. split; auto. split; eapply subset_trans; eauto.
  - right. destruct S as [(Nq & _)|(Nq & A' & C')]; [tauto|]. split; auto. split; [eapply subset_trans; eauto|lia].
Qed.
Lemma SS_trans a b c : SS a b -> SS b c -> SS a c.
Proof.
  intros H1 [[K L] F]. split; [|destruct H1 as [_ F1]; tauto]. split; [destruct H1 as [[K1 _] _]; congruence|]. eapply licenses_SS; eauto.
Qed.
Lemma consistent_SS R q x : consistent R -> In q R -> In x R -> supersedes q x -> SS q x.
Proof.
  intros HC Hq Hx S. split; auto. destruct S as [K L].
  assert (D : forall z, infeasible z \/ ~ infeasible z) by (intros z; unfold infeasible; destruct (Z.eq_dec (rndx z) 4095); auto).
  destruct L as [(N & A & C)|(N & A & C)].
  - split; [tauto|]. intros Ix. exfalso. exact (HC q x Hq Hx K N Ix C).
  - split; [intros _|auto]. destruct (D x) as [|Nx]; auto. exfalso. exact (HC x q Hx Hq (eq_sym K) Nx N A).
Qed.
Lemma supersedes_dec r x : supersedes r x \/ ~ supersedes r x.
Proof.
  destruct (killed_by (rkey r) (mkfl (rl r) (ru r) (rtl r) true) (rndx r) x) eqn:E.
  - left. apply killed_spec in E. destruct r as [k a b c d]; exact E.
  - right. intros Q. apply not_true_iff_false in E. apply E. apply killed_spec. destruct r as [k a b c d]; exact Q.
Qed.
Lemma Steps_cover U : forall rs T T', consistent (U ++ T ++ rs) -> Steps U T rs T' ->
  forall x, In x (U ++ T ++ rs) -> exists q, In q (U ++ T') /\ SS q x.
Proof.
  induction rs as [|r rs IH]; intros T T' HC H x Hx; cbn [Steps] in H.
  - subst. rewrite app_nil_r in Hx. exists x. split; auto. apply SS_refl.
  - destruct H as (T1 & H1 & H2).
    assert (M : forall y, In y (U ++ T ++ r :: rs) <-> In y U \/ In y T \/ y = r \/ In y rs).
    { intros y. rewrite !in_app_iff. cbn [In]. split; [intros [Q|[Q|[Q|Q]]]|intros [Q|[Q|[Q|Q]]]]; subst; auto 8. }
    assert (S1 : forall y, In y T1 -> In y T \/ y = r).
    { intros y Hy. destruct H1 as [[-> _]|(_ & K & P & HK & _)]; [auto|]. apply (Permutation_in y P) in Hy. destruct Hy as [<-|Hy]; auto. left. now apply HK. }
    assert (HC1 : consistent (U ++ T1 ++ rs)).
    { assert (G : forall y, In y (U ++ T1 ++ rs) -> In y (U ++ T ++ r :: rs)).
      { intros y Hy. apply M. rewrite !in_app_iff in Hy. destruct Hy as [Q|[Q|Q]]; auto. destruct (S1 y Q); auto. }
      intros a b Ha Hb. apply HC; apply G; assumption. }
    assert (C1 : exists q, In q (U ++ T1 ++ rs) /\ SS q x).
    { apply M in Hx. destruct Hx as [Hx|[Hx|[->|Hx]]].
      - exists x. split; [|apply SS_refl]. rewrite !in_app_iff. auto.
      - destruct H1 as [[-> _]|(_ & K & P & HK & _)].
        + exists x. split; [|apply SS_refl]. rewrite !in_app_iff. auto.
        + destruct (supersedes_dec r x) as [S|S].
          * exists r. split; [rewrite !in_app_iff; right; left; eapply Permutation_in; [symmetry; exact P|now left]|]. apply (consistent_SS (U ++ T ++ r :: rs)); auto; apply M; auto.
          * exists x. split; [|apply SS_refl]. rewrite !in_app_iff. right. left. eapply Permutation_in; [symmetry; exact P|]. right. now apply HK.
      - destruct H1 as [[-> (q & Hq & Sq)]|(_ & K & P & _)].
        + exists q. apply in_app_or in Hq. split; [rewrite !in_app_iff; tauto|]. apply (consistent_SS (U ++ T ++ r :: rs)); auto; apply M; tauto.
        + exists r. split; [|apply SS_refl]. rewrite !in_app_iff. right. left. eapply Permutation_in; [symmetry; exact P|]. now left.
      - exists x. split; [|apply SS_refl]. rewrite !in_app_iff. auto. }
    destruct C1 as (q & Hq & Sq). destruct (IH T1 T' HC1 H2 q Hq) as (q' & Hq' & Sq'). exists q'. split; auto. eapply SS_trans; eauto.
Qed.

(** ** one record, concretely *)
Lemma absorb_ok s r : WF (s_hb s) -> WF (s_hu s) -> nelem (s_hb s) < 2 ^ 30 -> 0 <= rndx r < 4096 ->
  exists s', absorb s r = Ret s' /\ s' = set_tabs s (s_hb s') (s_hu s) /\ WF (s_hb s') /\ nelem (s_hb s') <= nelem (s_hb s) + 1 /\
    Step (records (s_hu s)) (records (s_hb s)) r (records (s_hb s')).
Proof.
  intros W1 W2 Hn Hr. unfold absorb, hlookup. set (f := mkfl (rl r) (ru r) (rtl r) true).
  assert (MS : forall q, matches (rkey r) f q = true <-> supersedes q r) by (intros q; rewrite matches_spec; reflexivity).
  destruct (htab_lookup_ok (s_hb s) (rkey r) f W1) as (o1 & E1 & H1). rewrite E1. cbn [bind]. destruct o1 as [[g x]|].
  { cbn [bind]. exists s. split; [reflexivity|]. split; [symmetry; apply set_tabs_self|]. split; auto. split; [lia|]. left. split; auto. exists (rec_of x). split; [apply in_or_app; left; apply H1|]. apply MS. apply H1. }
  destruct (htab_lookup_ok (s_hu s) (rkey r) f W2) as (o2 & E2 & H2). rewrite E2. cbn [bind]. destruct o2 as [[g x]|].
  { exists s. split; [reflexivity|]. split; [symmetry; apply set_tabs_self|]. split; auto. split; [lia|]. left. split; auto. exists (rec_of x). split; [apply in_or_app; right; apply H2|]. apply MS. apply H2. }
  unfold hinsert, insert_guarded. cbn [fbless f]. destruct (Z.ltb_spec (nelem (s_hb s)) (2 ^ 30)); [|lia].
  destruct (htab_insert_ok (s_hb s) (rkey r) f (rndx r) W1 Hn ltac:(lia)) as (ht' & E & W' & Q). rewrite E. cbn [bind]. eexists. split; [reflexivity|]. cbn [s_hb s_hu set_tabs].
  split; [reflexivity|]. split; [exact W'|]. split.
  { rewrite (wf_nelem _ W'), (wf_nelem _ W1). apply Permutation_length in Q. cbn [length] in Q. rewrite Q. pose proof (filter_len (fun r0 => negb (killed_by (rkey r) f (rndx r) r0)) (records (s_hb s))). lia. }
  right. split.
  { intros q Hq S. apply in_app_or in Hq. destruct Hq as [Hq|Hq]; [specialize (H1 q Hq)|specialize (H2 q Hq)]; apply MS in S; congruence. }
  replace (mkrec (rkey r) (fl f) (fu f) (ftl f) (rndx r)) with r in Q by (destruct r; reflexivity).
  assert (KS : forall x, killed_by (rkey r) f (rndx r) x = true <-> supersedes r x).
  { intros x. rewrite killed_spec. destruct r as [k a b c d]; reflexivity. }
  eexists. split; [exact Q|]. split; [|split].
  - intros x. rewrite filter_In, negb_true_iff. rewrite <- KS. destruct (killed_by (rkey r) f (rndx r) x); intuition congruence.
  - intros N. now apply NoDup_filter.
  - intros H0. assert (G : forall l, (forall x, In x l -> ~ supersedes r x) -> filter (fun r0 => negb (killed_by (rkey r) f (rndx r) r0)) l = l).
    { induction l as [|x l IHl]; intros Hl; [reflexivity|]. cbn [filter]. destruct (killed_by (rkey r) f (rndx r) x) eqn:Ek; [exfalso; apply (Hl x); [now left|now apply KS]|]. cbn [negb]. f_equal. apply IHl. intros y Hy. apply Hl. now right. }
    now apply G.
Qed.
Lemma absorb_all_ok : forall rs s, WF (s_hb s) -> WF (s_hu s) -> nelem (s_hb s) + Z.of_nat (length rs) < 2 ^ 30 -> (forall r, In r rs -> 0 <= rndx r < 4096) ->
  exists s', absorb_all rs s = Ret s' /\ s' = set_tabs s (s_hb s') (s_hu s) /\ WF (s_hb s') /\ Steps (records (s_hu s)) (records (s_hb s)) rs (records (s_hb s')).
Proof.
  induction rs as [|r rs IH]; intros s W1 W2 Hn Hr; cbn [absorb_all Steps].
  - exists s. split; [reflexivity|]. split; [symmetry; apply set_tabs_self|]. auto.
  - cbn [length] in Hn. destruct (absorb_ok s r W1 W2 ltac:(lia) (Hr r (or_introl eq_refl))) as (s1 & E1 & S1 & W1' & N1 & St). rewrite E1. cbn [bind].
    assert (U1 : s_hu s1 = s_hu s) by (rewrite S1; reflexivity).
    destruct (IH s1) as (s' & E' & S' & W' & St'); auto; [now rewrite U1|lia|intros q Hq; apply Hr; now right|].
    exists s'. split; auto. split; [rewrite S', U1, S1; reflexivity|]. split; auto. exists (records (s_hb s1)). split; auto. now rewrite <- U1.
Qed.

(** ** the signature *)
Section Sig.
Context {P B : Type}.
Variable tbl : list (list Z * list (nat * (P -> prog P B))).
Hypothesis HT : usable tbl.
Let rg : registry P B := solvtab_exec tbl no_solvers.
Definition config : list Z := config_bytes (solver_names tbl).
Definition feeds (n : list (list Z * Z)) : list feed := Fu 8 :: flat_map (fun x => [Fint (snd x); FS (fst x)]) n.
Lemma feeds_bytes n : concat (map fed (feeds n)) = config_bytes n.
Proof.
  unfold feeds, config_bytes. cbn [map concat fed]. unfold le32 at 1. f_equal. induction n as [|x n IH]; cbn [flat_map map concat app]; [reflexivity|].
  rewrite IH. cbn [fed]. unfold le32. rewrite !app_assoc. reflexivity.
Qed.
Lemma feed_descs l : forall m, fold_left feed_desc l m = fold_left do_feed (flat_map (fun x => [Fint (snd x); FS (fst x)]) (map (@nm P B) l)) m.
Proof. induction l as [|d l IH]; intros m; cbn [fold_left map flat_map app]; [reflexivity|]. rewrite IH. reflexivity. Qed.
Lemma config_len n : (forall x, In x n -> (length (fst x) <= 64)%nat) -> (length (config_bytes n) <= 4 + 69 * length n)%nat.
Proof.
  intros H. unfold config_bytes. rewrite app_length. cbn [length le32 seq map]. apply le_n_S, le_n_S, le_n_S, le_n_S. cbn [Nat.add].
  induction n as [|x n IH]; [cbn; lia|]. cbn [map concat length]. rewrite !app_length, map_length. cbn [length le32 seq map]. specialize (IH (fun y Hy => H y (or_intror Hy))). specialize (H x (or_introl eq_refl)). lia.
Qed.
Lemma names_short : forall x, In x (solver_names tbl) -> (length (fst x) <= 64)%nat.
Proof. intros [a i] Hx. apply names_in in Hx as (y & Hy & -> & _). destruct HT as (_ & T2 & _). now destruct (T2 y Hy) as (_ & L & _). Qed.
Lemma signature_ok junk : signature_of_configuration junk rg = Ret (md5_words config).
Proof.
  unfold signature_of_configuration. rewrite feed_descs. unfold rg. rewrite exec_names.
  change (md5unsigned (md5begin junk) 8) with (do_feed (md5begin junk) (Fu 8)).
  change (fold_left do_feed (flat_map (fun x => [Fint (snd x); FS (fst x)]) (solver_names tbl)) (do_feed (md5begin junk) (Fu 8))) with (fold_left do_feed (feeds (solver_names tbl)) (md5begin junk)).
  destruct (C31_any_feeding junk (feeds (solver_names tbl))) as (p & E & Ep).
  - intros d Hd. unfold feeds in Hd. destruct Hd as [Hd|Hd]; [discriminate|]. apply in_flat_map in Hd as (x & _ & Hd). cbn in Hd. intuition discriminate.
  - rewrite feeds_bytes. pose proof (config_len (solver_names tbl) names_short) as L. destruct HT as (_ & _ & T3). rewrite names_length in L. lia.
  - rewrite E. cbn [bind]. rewrite feeds_bytes in Ep. cbv zeta in Ep. rewrite Ep. reflexivity.
Qed.
Lemma MD5_range m i : 0 <= i < 4 -> 0 <= MD5 m i < 2 ^ 32.
Proof.
  unfold MD5. cbv zeta. generalize (length (pad m) / 64)%nat. generalize (pad m).
  assert (G : forall k m r, (forall i, 0 <= i < 4 -> 0 <= r i < 2 ^ 32) -> forall i, 0 <= i < 4 -> 0 <= blocks k m r i < 2 ^ 32).
  { induction k as [|k IH]; intros m0 r Hr j Hj; cbn [blocks]; auto. apply IH; auto. intros j' _. unfold compress. apply Z.mod_pos_bound. unfold W. lia. }
  intros l n Hi. apply G; auto. clear. intros j Hj. assert (C : j = 0 \/ j = 1 \/ j = 2 \/ j = 3) by lia. destruct C as [->|[->|[->| ->]]]; vm_compute; intuition congruence.
Qed.
(** ** export, then import *)
Lemma export_import junk s : WF (s_hb s) -> (forall r, In r (records (s_hb s)) -> representable r /\ names_solver (Z.of_nat (length (flat_map snd tbl))) r) ->
  exists text, exprt junk rg s = Ret text /\
    forall junk' s' rest, WF (s_hb s') -> WF (s_hu s') -> nelem (s_hb s') + Z.of_nat (length (records (s_hb s))) < 2 ^ 30 ->
      exists s'', imprt junk' rg s' (text ++ rest) = Ret (Some true, 10 :: rest, s'') /\ s'' = set_tabs s' (s_hb s'') (s_hu s') /\ WF (s_hb s'') /\
        Steps (records (s_hu s')) (records (s_hb s')) (records (s_hb s)) (records (s_hb s'')).
Proof.
  intros W HR. unfold exprt. rewrite signature_ok. cbn [bind].
  destruct (header_round (s0 (md5_words config)) (s1 (md5_words config)) (s2 (md5_words config)) (s3 (md5_words config))) as (t1 & Et1 & Ht1);
    [exact (MD5_range config 0 ltac:(lia))|exact (MD5_range config 1 ltac:(lia))|exact (MD5_range config 2 ltac:(lia))|exact (MD5_range config 3 ltac:(lia))|].
  rewrite Et1. cbn [bind].
  pose proof (WF_2 _ W) as W2.
  destruct (export_loop_ok tbl HT (s_hb s) HR (Z.to_nat (hashsiz (s_hb s))) 0) as (ts & Et & Ft); [lia|lia|].
  change (solvtab_exec tbl no_solvers) with rg in Et. rewrite Et. cbn [bind]. change (vprint end_fmt []) with (Ret [41; 10]). cbn [bind].
  eexists. split; [reflexivity|]. intros junk' s' rest V1 V2 Hn. unfold imprt. rewrite <- !app_assoc.
  set (more := concat ts ++ [41; 10] ++ rest). destruct (Ht1 more) as [_ Hs]. unfold scan. rewrite (Hs []). cbn [bind app].
  rewrite signature_ok. cbn [bind]. replace (md5eq (md5_words config) (mksig (s0 (md5_words config)) (s1 (md5_words config)) (s2 (md5_words config)) (s3 (md5_words config)))) with true by (symmetry; now apply md5eq_iff).
  cbn [negb].
  assert (Eb : exists c0 l0, eat_blanks more = c0 :: l0 /\ isspace c0 = false /\ c0 <> EOF /\ (length (records (s_hb s)) <= length (eat_blanks more))%nat).
  { unfold more. change (records (s_hb s)) with (map (fun g => rec_of (sols (s_hb s) g)) (filter (live_at (s_hb s)) (zrange 0 (Z.to_nat (hashsiz (s_hb s)))))).
    destruct Ft as [|r t rs ts' Ht Fts].
    - exists 41, (10 :: rest). cbn. split; auto. split; [reflexivity|]. split; [discriminate|lia].
    - destruct Ht as (t' & nam & id & -> & _ & Hsc). destruct (Hsc (concat ts' ++ [41; 10] ++ rest)) as [[l0 E0] _].
      exists 40, l0. cbn [concat app]. rewrite !eat_sp by reflexivity. rewrite <- app_assoc. cbn [app] in E0. rewrite E0. split; [reflexivity|]. split; [reflexivity|]. split; [discriminate|].
      cbn [eat_blanks]. change (isspace 40) with false. cbv iota. change (ungetc 40 l0) with (40 :: l0). rewrite <- E0. rewrite app_length.
      assert (L : (length rs <= length (concat ts'))%nat). { clear -Fts. induction Fts as [|r t rs ts Ht F IH]; cbn [concat length]; [lia|]. destruct Ht as (t' & ? & ? & -> & _). rewrite app_length. cbn [length]. lia. }
      assert (Lt : (1 <= length t')%nat). { destruct (Hsc []) as [[l1 E1] _]. rewrite app_nil_r in E1. rewrite E1. cbn. lia. }
      rewrite app_length. cbn [length]. lia. }
  destruct Eb as (c0 & l0 & Eb & Sp & NE & Lb).
  unfold rg. rewrite (import_lines tbl (s_hb s') rest _ _ Ft).
  - destruct (absorb_all_ok (records (s_hb s)) s' V1 V2 Hn) as (s'' & Ea & Ha).
    { intros r Hr. destruct (HR r Hr) as [_ [Q|[Q _]]]; [unfold infeasible in Q; lia|]. destruct HT as (_ & _ & T3). lia. }
    exists s''. split; [|exact Ha]. change (map (fun g => rec_of (sols (s_hb s) g)) (filter (live_at (s_hb s)) (zrange 0 (Z.to_nat (hashsiz (s_hb s)))))) with (records (s_hb s)). rewrite Ea. reflexivity.
  - apply Forall_forall. intros r Hr. apply HR. exact Hr.
  - change (map (fun g => rec_of (sols (s_hb s) g)) (filter (live_at (s_hb s)) (zrange 0 (Z.to_nat (hashsiz (s_hb s)))))) with (records (s_hb s)). lia.
  - change (41 :: 10 :: rest) with ([41; 10] ++ rest). fold more. rewrite Eb. cbn [eat_blanks]. rewrite Sp. unfold ungetc. destruct (Z.eqb_spec c0 EOF); [contradiction|reflexivity].
Qed.
End Sig.
