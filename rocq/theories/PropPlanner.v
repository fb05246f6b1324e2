(** * The planner and the life of plans: properties C10, C11, C13, C17, C18, C19, C37, C43 *)
From Coq Require Import ZArith List Lia Bool Permutation.
From Verif Require Import Base SpecWisdom HashModel HashProofs PropWisdom FlagsModel PropFlags PlannerModel SpecPlanner PlannerScope PlannerTrace PlannerBuilt
  PlannerSafe PlannerMin PlannerRemember TextModel ImportModel ImportScan ImportProofs ApiPlanModel ApiPlanProofs SpecImport SpecApiPlan.
Import ListNotations.
Open Scope Z_scope.

(** ** what [configured] gives *)
Section Props.
Context {P B : Type}.
Variable e : env P B.
Notation plan := (plan B).
Lemma cf_reg : configured e -> reg_ok (e_reg e).
Proof. intros ((tbl & E) & _). rewrite E. apply reg_ok_solvtab, reg_ok_none. Qed.
Lemma cf_n : configured e -> nslv e <= 4095.
Proof. intros CF. apply CF. Qed.
Lemma cf_careful : configured e -> forall n d, nth_error (rg_descs (e_reg e)) n = Some d -> forall p, careful [] (sd_prog d p).
Proof. intros CF n d H p. eapply (proj2 (proj2 CF)); eauto. Qed.
Lemma cf_est : configured e -> forall n d, nth_error (rg_descs (e_reg e)) n = Some d -> forall p, never_clears ESTIMATE (sd_prog d p).
Proof. intros CF n d H p. eapply (proj2 (proj2 CF)); eauto. Qed.
Hint Resolve cf_reg cf_n cf_careful cf_est : core.

Lemma remove1_perm i : forall l l', remove1 i l = Some l' -> Permutation l (i :: l').
Proof.
  induction l as [|j l IH]; cbn; [discriminate|]. intros l'. destruct (Nat.eqb_spec i j) as [->|N].
  - intros H. inj H. reflexivity.
  - destruct (remove1 i l) as [r|]; [|discriminate]. intros H. inj H. rewrite (IH r eq_refl). apply perm_swap.
Qed.
Lemma free_perm is : forall l l', free_all is l = Ret l' -> Permutation l (is ++ l').
Proof.
  induction is as [|i is IH]; cbn; intros l l' H; [inj H; reflexivity|]. destruct (remove1 i l) as [r|] eqn:E; [|discriminate].
  apply remove1_perm in E. rewrite E. constructor. now apply IH.
Qed.
Lemma reachable_inv s : configured e -> Reachable e s -> Inv e s.
Proof.
  intros CF H. induction H as [s H|s f n w p k r s' H IH L W E|s a s' H IH E|s x s' H IH E|s junk txt b rest s' H IH D E].
  - unfold mkplanner in H. destruct mkhashtab_ok as (ht & E & Wf & R). rewrite E in H. cbn [bind] in H. inj H.
    assert (T : tab_ok e ht) by (split; [exact Wf|rewrite R; intros r []]).
    split; [split; constructor|]. split; [exact T|]. split; [exact T|]. discriminate.
  - pose proof (mkplan_safe e (cf_reg CF) (cf_n CF) (cf_careful CF) (cf_est CF) k p (set_ws (set_nthr (set_flags s f) n) w)) as Q.
    rewrite E in Q. apply Q. split; [exact IH|]. intros _. exact L.
  - destruct (forget_ok e a s) as (s1 & E1 & I1 & _); [apply IH|intros _; apply IH|apply IH|]. rewrite E in E1. inj E1. exact I1.
  - unfold destroy in E. ib E l El. inj E. apply free_perm in El. destruct IH as ((I1 & I2) & I3). split; [|exact I3].
    split; cbn.
    + eapply Permutation_NoDup in I1; [|exact El]. now apply NoDup_app_r in I1.
    + apply Forall_forall. intros i Hi. rewrite Forall_forall in I2. apply I2. eapply Permutation_in; [symmetry; exact El|]. apply in_or_app. now right.
  - exact (imprt_inv e (cf_n CF) D junk s txt (Some b) rest s' IH E).
Qed.
Lemma long_words_short txt : no_long_words txt <-> short_words txt.
Proof.
  assert (Q : forall c, letter_or_digit c <-> alnum c).
  { intros c. unfold letter_or_digit, alnum, digit_of, isdigit, isupper, islower.
    destruct (Z.leb_spec 48 c), (Z.leb_spec c 57), (Z.leb_spec 65 c), (Z.leb_spec c 90), (Z.leb_spec 97 c), (Z.leb_spec c 122); cbn; split; intros; try lia; try congruence. }
  assert (F : forall w, Forall letter_or_digit w <-> Forall alnum w) by (intros w; rewrite !Forall_forall; split; intros H c Hc; apply Q, H, Hc).
  split; intros H a w b E Fw; apply (H a w b E), F, Fw.
Qed.
Lemma unknown_lookup s k f : Inv e s -> unknown s k f <-> hlookup s k f = Ret None.
Proof.
  intros (_ & (W1 & _) & (W2 & _) & _). unfold hlookup. destruct (htab_lookup_ok (s_hb s) k f W1) as (r1 & -> & H1). cbn [bind].
  destruct r1 as [[g1 l1]|].
  - split; [|discriminate]. intros U. exfalso. destruct H1 as (_ & _ & H1 & M1 & _). apply matches_spec in M1 as [M1 M2]. eapply U; eauto.
  - destruct (htab_lookup_ok (s_hu s) k f W2) as (r2 & -> & H2). cbn [bind]. destruct r2 as [[g2 l2]|].
    + split; [|discriminate]. intros U. exfalso. destruct H2 as (_ & _ & H2 & M1 & _). apply matches_spec in M1 as [M1 M2]. eapply U; eauto.
    + split; [reflexivity|]. intros _ r [Hr|Hr] Hk Hl.
      * apply H1 in Hr. assert (matches k f r = true) by (apply matches_spec; auto). congruence.
      * apply H2 in Hr. assert (matches k f r = true) by (apply matches_spec; auto). congruence.
Qed.
Lemma lookup_record s k f sol : Inv e s -> hlookup s k f = Ret (Some sol) ->
  exists r, (In r (records (s_hb s)) \/ In r (records (s_hu s))) /\ rkey r = k /\ rndx r = sndx sol /\ licenses r (fl f) (fu f) (ftl f).
Proof.
  intros (_ & (W1 & _) & (W2 & _) & _). unfold hlookup. destruct (htab_lookup_ok (s_hb s) k f W1) as (r1 & -> & H1). cbn [bind].
  destruct r1 as [[g1 l1]|].
  - intros Q. inj Q. destruct H1 as (_ & _ & H1 & M1 & _). apply matches_spec in M1 as [M1 M2]. exists (rec_of sol). auto.
  - destruct (htab_lookup_ok (s_hu s) k f W2) as (r2 & -> & H2). cbn [bind]. destruct r2 as [[g2 l2]|]; [|discriminate].
    intros Q. inj Q. destruct H2 as (_ & _ & H2 & M1 & _). apply matches_spec in M1 as [M1 M2]. exists (rec_of sol). auto.
Qed.
Lemma Inv_set s f n w : Inv e s -> Inv e (set_ws (set_nthr (set_flags s f) n) w).
Proof. exact (fun H => H). Qed.

(** ** C18: planning is dynamically scoped *)
Theorem C18_scoped : forall fuel p s r s', mkplan e fuel p s = Ret (r, s') ->
  s_nthr s' = s_nthr s /\
  fl (s_flags s') = fl (s_flags s) /\ fu (s_flags s') = fu (s_flags s) /\ fbless (s_flags s') = fbless (s_flags s) /\
  (ESTIMATEP s = false -> ftl (s_flags s') = ftl (s_flags s)) /\
  (s_ws s' = s_ws s \/ (s_ws s' = WISDOM_IS_BOGUS /\ r = None)).
Proof.
  intros fuel p s r s' H. apply mkplan_Scoped in H as (F & _ & N & _ & W). destruct F as [F|[E F]]; rewrite F; cbn [fl fu ftl fbless].
  - auto 8.
  - split; [exact N|]. do 3 (split; [reflexivity|]). split; [intros Q; rewrite E in Q; discriminate|exact W].
Qed.

(** ** C19: the search *)
(** never an undefined operation; when the planner returns, the plans that were
    rejected on the way are destroyed: beyond what was allocated before, exactly
    the blocks of the result are *)
Theorem C19_no_leak : configured e -> forall fuel p s f n w, Reachable e s -> subset (fl f) (fu f) ->
  let t := set_ws (set_nthr (set_flags s f) n) w in
  mkplan e fuel p t <> UB /\
  forall r t', mkplan e fuel p t = Ret (r, t') -> NoDup (s_live t') /\
    Permutation (s_live t') (match r with Some x => ids x | None => [] end ++ s_live t).
Proof.
  intros CF fuel p s f n w R L t. pose proof (reachable_inv s CF R) as I.
  pose proof (mkplan_safe e (cf_reg CF) (cf_n CF) (cf_careful CF) (cf_est CF) fuel p t) as Q.
  assert (Pr : Pre e t) by (split; [exact I|intros _; exact L]). specialize (Q Pr). split.
  - intros E. rewrite E in Q. exact Q.
  - intros r t' E. rewrite E in Q. destruct Q as (Q1 & Q2 & _). split; [apply Q1|exact Q2].
Qed.
Lemma in_indexed (l : list (slvdesc P B)) : forall n d, In (n, d) (indexed l) <-> 0 <= n /\ nth_error l (Z.to_nat n) = Some d.
Proof.
  induction l as [|x l IH] using rev_ind; intros n d.
  - cbn. split; [tauto|]. intros [_ H]. destruct (Z.to_nat n); discriminate.
  - rewrite indexed_snoc, in_app_iff, IH. cbn [In]. split.
    + intros [[H1 H2]|[H|[]]].
      * split; auto. rewrite nth_error_app1; auto. apply nth_error_Some. congruence.
      * inj H. split; [lia|]. rewrite Nat2Z.id, nth_error_app2, Nat.sub_diag by lia. reflexivity.
    + intros [H1 H2]. destruct (Nat.lt_ge_cases (Z.to_nat n) (length l)) as [L|L].
      * left. split; auto. now rewrite nth_error_app1 in H2.
      * right. left. rewrite nth_error_app2 in H2 by auto. destruct (Z.to_nat n - length l)%nat as [|k] eqn:Ek; cbn in H2; [|destruct k; discriminate].
        inj H2. f_equal. lia.
Qed.
Lemma solver_for_kind p n : solver_for e p n <-> In n (kindlist e p).
Proof.
  unfold solver_for, kindlist, of_kind. rewrite in_map_iff. split.
  - intros (Hn & d & Hd & Hk). exists (n, d). split; [reflexivity|]. apply -> in_rev. apply filter_In. split.
    + now apply in_indexed.
    + now apply Nat.eqb_eq.
  - intros ([m d] & E & H). cbn in E. subst m. apply in_rev in H. apply filter_In in H as [H K]. apply in_indexed in H as [H1 H2].
    split; auto. exists d. split; auto. now apply Nat.eqb_eq.
Qed.
Lemma searched_outcome p s s' r t : s_tr s' = t ++ s_tr s -> Searched e p s s' r -> SearchOutcome e (s_depth s) (fl (s_flags s)) (fu (s_flags s)) p t r.
Proof.
  intros T (t1 & l' & V & L & (n & Known & O) & N). set (d := s_depth s) in *.
  assert (F : filter (at_depth d) t = t1 ++ [ESearch d]).
  { unfold vw in V. rewrite T, filter_app in V. apply (app_inv_tail (filter (at_depth d) (s_tr s))). rewrite V, <- app_assoc. reflexivity. }
  assert (Up : forall ev, In ev t1 -> In ev t).
  { intros ev H. assert (X : In ev (filter (at_depth d) t)) by (rewrite F; apply in_or_app; auto). now apply filter_In in X. }
  assert (Dn : forall l n o, In (ETry d l n o) t -> In (ETry d l n o) t1).
  { intros a b c H. assert (X : In (ETry d a b c) (filter (at_depth d) t)) by (apply filter_In; split; [auto|cbn; apply Nat.eqb_refl]).
    rewrite F in X. apply in_app_or in X as [X|[X|[]]]; [auto|discriminate]. }
  assert (Dc : forall i c, In (ECost d i c) t -> In (ECost d i c) t1).
  { intros a b H. assert (X : In (ECost d a b) (filter (at_depth d) t)) by (apply filter_In; split; [auto|cbn; apply Nat.eqb_refl]).
    rewrite F in X. apply in_app_or in X as [X|[X|[]]]; [auto|discriminate]. }
  split.
  - intros a b c H. apply solver_for_kind. eapply Known. apply Dn. exact H.
  - destruct r as [x|]; cbn [option_map] in O.
    + destruct O as (O1 & O2 & O3 & O4). cbn [fst snd] in *. exists l', n. split; [exact L|]. split; [auto|]. split.
      * intros a b i H. apply Dn in H. destruct (O2 _ _ _ H) as [E1 [E2|(c & C1 & C2 & C3)]]; split; auto. right. exists c.
        split; [auto|]. split; [|split; auto]. intros c' Hc'. apply Dc in Hc'. eapply O3; eauto.
      * intros Pr m Hm. apply solver_for_kind in Hm. destruct (O4 ltac:(unfold ALLOW_PRUNINGP, has; rewrite Pr; reflexivity) m Hm) as [o Ho]. eauto.
    + destruct O as ((O1 & O2) & O3). rewrite (N eq_refl) in O3. split.
      * intros a b i H. apply Dn in H. exact (O1 _ _ _ H).
      * intros m Hm. apply solver_for_kind in Hm. destruct (O3 m Hm) as [o Ho]. destruct o as [i|]; [exfalso; exact (O1 _ _ _ Ho)|auto].
Qed.
(** with no time limit, a problem about which nothing is known is searched for,
    and the result is a cheapest candidate, or NULL if every solver fails *)
Theorem C19_search_minimal : configured e -> e_timelimit e = false ->
  forall fuel p s f n w r t', Reachable e s -> w <> WISDOM_ONLY -> w <> WISDOM_IS_BOGUS ->
  let t := set_ws (set_nthr (set_flags s f) n) w in
  (w = WISDOM_IGNORE_ALL \/ unknown s (e_sig e n p) (request t)) ->
  mkplan e fuel p t = Ret (r, t') -> s_ws t' <> WISDOM_IS_BOGUS ->
  exists evs, s_tr t' = evs ++ s_tr t /\ SearchOutcome e (s_depth t) (fl f) (fu f) p evs r.
Proof.
  intros CF TL fuel p s f n w r t' R W1 W2 t U H NB. pose proof (reachable_inv s CF R) as I.
  pose proof (mkplan_Scoped _ _ _ _ _ _ H) as (_ & _ & _ & (evs & Ev) & _). exists evs. split; [exact Ev|].
  assert (Sr : Searched e p t t' r).
  { destruct (mkplan_searches e (cf_reg CF) TL fuel p t r t') as [Q|Q]; auto; [|contradiction].
    destruct U as [U|U]; [left; exact U|right]. apply unknown_lookup; [exact I|]. exact U. }
  exact (searched_outcome p t t' r evs Ev Sr).
Qed.
(** in all cases, with no time limit: either the planner did not try any solver
    of its own for this problem (wisdom decided), or the outcome is that of a search *)
Theorem C19_search_or_wisdom : configured e -> e_timelimit e = false ->
  forall fuel p s r s', mkplan e fuel p s = Ret (r, s') -> s_ws s' <> WISDOM_IS_BOGUS ->
  exists evs, s_tr s' = evs ++ s_tr s /\
   ((forall l n o, ~ In (ETry (s_depth s) l n o) evs) \/ SearchOutcome e (s_depth s) (fl (s_flags s)) (fu (s_flags s)) p evs r).
Proof.
  intros CF TL fuel p s r s' H NB. pose proof (mkplan_Scoped _ _ _ _ _ _ H) as (_ & _ & _ & (evs & Ev) & _). exists evs. split; [exact Ev|].
  destruct (mkplan_min e (cf_reg CF) TL fuel p s r s' H) as [Q|[Q|Q]]; [contradiction|left|right; now apply (searched_outcome p s s')].
  intros l n o Hi. unfold vw in Q. rewrite Ev, filter_app in Q. assert (X : In (ETry (s_depth s) l n o) (filter (at_depth (s_depth s)) evs)) by (apply filter_In; split; [auto|cbn; apply Nat.eqb_refl]).
  apply (f_equal (@length event)) in Q. rewrite app_length in Q. destruct (filter (at_depth (s_depth s)) evs); [destruct X|cbn in Q; lia].
Qed.

(** ** C10: whatever the wisdom, a plan is one the solvers build for the problem *)
Theorem C10_plan_built : configured e -> forall fuel p s x s', subset (fl (s_flags s)) (fu (s_flags s)) ->
  mkplan e fuel p s = Ret (Some x, s') -> Built e (s_nthr s) (fl (s_flags s)) (fu (s_flags s)) p x.
Proof. intros CF fuel p s x s' H. apply (mkplan_built e (cf_reg CF)). now left. Qed.

(** ** C11: what has been planned is not searched for again *)
Theorem C11_remembered : configured e -> forall fuel p s f n r t', Reachable e s -> subset (fl f) (fu f) -> 0 <= ftl f ->
  let t := set_ws (set_nthr (set_flags s f) n) WISDOM_NORMAL in
  mkplan e fuel p t = Ret (r, t') -> s_ws t' = WISDOM_NORMAL -> (r <> None \/ e_timelimit e = false) ->
  (exists c, (In c (records (s_hb t')) \/ In c (records (s_hu t'))) /\ rkey c = e_sig e n p /\ licenses c (fl (request t)) (fu (request t)) (ftl (request t))) /\
  forall fuel2 r2 t2, mkplan e fuel2 p t' = Ret (r2, t2) -> s_tr t2 = s_tr t' /\ s_nmeas t2 = s_nmeas t' /\ s_nclk t2 = s_nclk t'.
Proof.
  intros CF fuel p s f n r t' R L TL t H W D. pose proof (reachable_inv s CF R) as I.
  assert (I' : Inv e t').
  { pose proof (mkplan_safe e (cf_reg CF) (cf_n CF) (cf_careful CF) (cf_est CF) fuel p t) as Q. rewrite H in Q. apply Q. split; [exact I|intros _; exact L]. }
  destruct (mkplan_remembers e (cf_reg CF) (cf_n CF) (cf_careful CF) (cf_est CF) fuel p t r t' I TL L eq_refl H W D) as (sol & Hs). split.
  - destruct (lookup_record t' _ _ _ I' Hs) as (c & C1 & C2 & _ & C3). exists c. auto.
  - intros fuel2 r2 t2 H2. assert (E : hlookup t' (e_sig e (s_nthr t') p) (reqflags t') = Ret (Some sol)).
    { rewrite <- Hs. apply C18_scoped in H as (N & F1 & F2 & F3 & F4 & _). rewrite N. f_equal. unfold reqflags.
      replace (ESTIMATEP t') with (ESTIMATEP t) by (unfold ESTIMATEP; now rewrite F2). rewrite F1, F2, F3. destruct (ESTIMATEP t); [reflexivity|]. now rewrite F4. }
    destruct (mkplan_hit e fuel2 p t' r2 t2 sol W E H2) as [Q _]. exact Q.
Qed.
(** wisdom of failure: a problem recorded as infeasible under the request is refused without a search *)
Theorem C11_infeasible : configured e -> forall fuel p s f n, Reachable e s ->
  let t := set_ws (set_nthr (set_flags s f) n) WISDOM_NORMAL in
  ~ unknown s (e_sig e n p) (request t) ->
  (forall c, In c (records (s_hb s)) \/ In c (records (s_hu s)) -> rkey c = e_sig e n p -> licenses c (fl (request t)) (fu (request t)) (ftl (request t)) -> infeasible c) ->
  forall r t', mkplan e fuel p t = Ret (r, t') -> r = None /\ s_tr t' = s_tr t.
Proof.
  intros CF fuel p s f n R t U Ai r t' H. pose proof (reachable_inv s CF R) as I.
  destruct (hlookup t (e_sig e n p) (request t)) as [[sol|]| |] eqn:E.
  - destruct (lookup_record t _ _ _ I E) as (c & C1 & C2 & C3 & C4). specialize (Ai c C1 C2 C4).
    destruct (mkplan_hit e fuel p t r t' sol eq_refl E H) as [(Q1 & _) Q2]. split; [|exact Q1]. apply Q2. unfold infeasible in Ai. rewrite C3 in Ai. exact Ai.
  - exfalso. apply U. apply unknown_lookup in E; [|exact I]. exact E.
  - exfalso. pose proof (hlookup_safe e t (e_sig e n p) (request t) I) as Q. rewrite E in Q. exact Q.
  - exfalso. destruct I as (_ & (W1 & _) & (W2 & _) & _). unfold hlookup in E.
    destruct (htab_lookup_ok (s_hb t) (e_sig e n p) (request t) W1) as (r1 & E1 & _). rewrite E1 in E. cbn [bind] in E.
    destruct r1 as [[g1 l1]|]; [discriminate|]. destruct (htab_lookup_ok (s_hu t) (e_sig e n p) (request t) W2) as (r2 & E2 & _). rewrite E2 in E. discriminate.
Qed.

(** ** C17: wisdom only *)
Theorem C17_wisdom_only : configured e -> forall fuel p s f n r t', Reachable e s ->
  let t := set_ws (set_nthr (set_flags s f) n) WISDOM_ONLY in
  mkplan e fuel p t = Ret (r, t') ->
  s_tr t' = s_tr t /\ s_nmeas t' = s_nmeas t /\ s_nclk t' = s_nclk t /\
  (r <> None -> exists c, (In c (records (s_hb s)) \/ In c (records (s_hu s))) /\ rkey c = e_sig e n p /\ ~ infeasible c /\
       licenses c (fl (request t)) (fu (request t)) (ftl (request t))).
Proof.
  intros CF fuel p s f n r t' R t H. pose proof (reachable_inv s CF R) as I. destruct fuel as [|fuel]; cbn [mkplan] in H; [discriminate|].
  destruct (body_only e (mkplan e fuel)) with (p := p) (s := t) (r := r) (s' := t') as [(Q1 & Q2 & Q3) Q4]; auto.
  - intros. eapply mkplan_Scoped; eauto.
  - intros. eapply mkplan_only; eauto.
  - now left.
  - split; [exact Q1|]. split; [exact Q2|]. split; [exact Q3|]. intros Nn. destruct (Q4 Nn) as (sol & s0 & S1 & S2 & S3 & S4).
    rewrite (hlookup_tabs t s0) in S3 by auto. destruct (lookup_record t _ _ _ I S3) as (c & C1 & C2 & C3 & C4). exists c.
    split; [exact C1|]. split; [exact C2|]. split; [|exact C4]. unfold infeasible. rewrite C3. exact S4.
Qed.

(** ** C43: the estimator never measures *)
Definition measured (ev : event) : Prop := exists i, ev = EMeasure i.
Theorem C43_estimate_planner : configured e -> forall fuel p s r s', ESTIMATEP s = true -> mkplan e fuel p s = Ret (r, s') ->
  s_nmeas s' = s_nmeas s /\ exists evs, s_tr s' = evs ++ s_tr s /\ forall ev, In ev evs -> ~ measured ev.
Proof.
  intros CF fuel p s r s' E H. apply (mkplan_nm e (cf_est CF)) in H as ((evs & T & F) & N); [|now left]. split; auto. exists evs. split; auto.
  intros ev Hi (i & ->). rewrite Forall_forall in F. exact (F _ Hi).
Qed.
End Props.

(** ** C10: properties that the solvers preserve hold of every plan *)
Scheme Built_mind := Minimality for Built Sort Prop with Yields_mind := Minimality for Yields Sort Prop.
Lemma built_env {P B} (e e' : env P B) : e_reg e' = e_reg e -> e_kind e' = e_kind e -> forall nthr l u p x, Built e nthr l u p x -> Built e' nthr l u p x.
Proof.
  intros E1 E2. apply (Built_mind P B e (fun nthr l u p x => Built e' nthr l u p x) (fun nthr f g x => Yields e' nthr f g x)).
  - intros nthr l u p x n d l' u' bl Hn Hk H1 H2 _ IH. econstructor; [rewrite E1; exact Hn|rewrite E2; exact Hk|exact H1|exact H2|exact IH].
  - constructor.
  - intros. now apply Y_failed.
  - intros. eapply Y_child; eauto.
  - intros. now constructor.
  - intros. now constructor.
  - intros. now constructor.
Qed.
Section Closure.
Context {P B : Type}.
Variable e : env P B.
Notation plan := (plan B).
Lemma built_invariant (Q : P -> plan -> Prop) :
  (forall n d, nth_error (rg_descs (e_reg e)) n = Some d -> forall p, sd_kind d = e_kind e p -> preserves Q p (sd_prog d p)) ->
  forall nthr l u p x, Built e nthr l u p x -> Q p x.
Proof.
  intros HQ. apply (Built_mind P B e (fun nthr l u p x => Q p x) (fun nthr f g x => forall p, preserves Q p g -> Q p x)).
  - intros nthr l u p x n d l' u' bl Hn Hk _ _ _ IH. apply IH. eapply HQ; eauto.
  - intros nthr f ks b c c' es pr i p H. cbn in H. auto.
  - intros nthr f q ls us ur k x _ IH p H. apply IH. apply H.
  - intros nthr f q ls us ur k x y _ IH1 _ IH2 p H. apply IH2. apply H. exact IH1.
  - intros nthr f y k x _ IH p H. apply IH. exact H.
  - intros nthr f n k x _ IH p H. apply IH. exact H.
  - intros nthr f k x _ IH p H. apply IH. apply H.
Qed.
(** ** the API *)
Lemma force_pat flags : force_estimator flags = pat_flags flags 0.
Proof.
  unfold force_estimator, pat_flags, strip. cbn [nth pats]. apply Z.bits_inj'. intros i Hi.
  rewrite !Z.lor_spec, !Z.ldiff_spec, !Z.lor_spec. destruct (Z.testbit FFTW_ESTIMATE i), (Z.testbit flags i), (Z.testbit FFTW_MEASURE i),
      (Z.testbit FFTW_PATIENT i), (Z.testbit FFTW_EXHAUSTIVE i); reflexivity.
Qed.
Lemma force_L flags : PLNR_L (force_estimator flags) = PLNR_L flags.
Proof. rewrite force_pat. apply L_pat_const. lia. Qed.
Lemma planning_L b flags : word32 flags -> Forall (fun f => PLNR_L f = PLNR_L flags) (planning_flags b flags).
Proof. intros W. now apply C20_planning_flags. Qed.

Section Tl.
Variable fuel : nat.
Variable tl : option Z.
Hypothesis CF : configured e.
Notation e1 := (env_tl e tl).
Lemma cf_tl : configured e1. Proof. exact CF. Qed.
Definition OkB (L : Z) (p : P) (s : st) (q : option plan * st) : Prop :=
  s_nthr (snd q) = s_nthr s /\ forall x, fst q = Some x -> exists u, Built e (s_nthr s) L u p x.
Lemma mkplan_builtA l u p b c w s s' x : subset l u -> mkplan e1 fuel p (set_ws (set_flags s (mkfl l u c b)) w) = Ret (Some x, s') -> Built e (s_nthr s) l u p x.
Proof. intros L H. apply (C10_plan_built e1 cf_tl) in H; [|exact L]. apply (built_env e1 e eq_refl eq_refl) in H. exact H. Qed.
Lemma mkplan0_nthr flags p b w s r s' : mkplan0 e fuel tl flags p b w s = Ret (r, s') -> s_nthr s' = s_nthr s.
Proof. unfold mkplan0. intros H. apply mkplan_Scoped in H as (_ & _ & N & _). exact N. Qed.
Lemma mkplan0_built flags p b w s q : mkplan0 e fuel tl flags p b w s = Ret q -> OkB (PLNR_L flags) p s q.
Proof.
  destruct q as [r s']. intros H. split; [now apply mkplan0_nthr in H|]. cbn [fst]. intros x ->. exists (PLNR_U flags).
  eapply mkplan_builtA; [apply LU|exact H].
Qed.
Lemma OkB_trans L p s s1 q : s_nthr s1 = s_nthr s -> OkB L p s1 q -> OkB L p s q.
Proof. unfold OkB. now intros ->. Qed.
Lemma forget_nthr s a s' : forget s a = Ret s' -> s_nthr s' = s_nthr s.
Proof. unfold forget. intros H. ib H x Ex. ib H y Ey. inj H. destruct a; reflexivity. Qed.
Lemma destroy_nthr (x : option plan) s s' : destroy x s = Ret s' -> s_nthr s' = s_nthr s.
Proof. intros H. apply destroy_Sc in H as [_ H]. exact H. Qed.
Lemma api_mkplan_built flags p b s q : api_mkplan e fuel tl flags p b s = Ret q -> OkB (PLNR_L flags) p s q.
Proof.
  unfold api_mkplan. intros H. ib H r1 E1. apply mkplan0_built in E1. ib H r2 E2.
  assert (O2 : OkB (PLNR_L flags) p s r2).
  { destruct (_ && _) in E2; [|inj E2; exact E1]. apply mkplan0_built in E2. rewrite force_L in E2. eapply OkB_trans; [apply E1|exact E2]. }
  destruct (bogus (snd r2)); [|inj H; exact O2]. ib H s3 E3. apply forget_nthr in E3. ib H u Eu. ib H r4 E4. apply mkplan0_built in E4.
  assert (O4 : OkB (PLNR_L flags) p s r4) by (eapply OkB_trans; [|exact E4]; rewrite E3; apply O2).
  destruct (bogus (snd r4)); [|inj H; exact O4]. ib H s5 E5. apply forget_nthr in E5. ib H u' Eu'. apply mkplan0_built in H. rewrite force_L in H.
  eapply OkB_trans; [|exact H]. rewrite E5. apply O4.
Qed.
Lemma pat_loop_built fs L : forall p pln used s q, Forall (fun f => PLNR_L f = L) fs -> PLNR_L used = L \/ pln = None -> pat_loop e fuel tl fs p pln used s = Ret q ->
  s_nthr (snd q) = s_nthr s /\ (fst (fst q) <> None -> PLNR_L (snd (fst q)) = L).
Proof.
  induction fs as [|f fs IH]; intros p pln used s q F U H; cbn [pat_loop] in H.
  - inj H. cbn. split; auto. destruct U as [U|U]; [auto|congruence].
  - ib H r Er. apply api_mkplan_built in Er as [N _]. destruct (fst r) as [x|].
    + ib H s1 E1. apply destroy_nthr in E1. inversion F as [|? ? F1 F2]; subst. eapply IH in H; [|exact F2|left; reflexivity]. destruct H as [H1 H2]. split; [congruence|exact H2].
    + ib H u Eu. inj H. cbn. split; auto. destruct U as [U|U]; [auto|congruence].
Qed.
Lemma first_plan_L flags p s q : word32 flags -> first_plan e fuel tl flags p s = Ret q -> s_nthr (snd q) = s_nthr s /\ (fst (fst q) <> None -> PLNR_L (snd (fst q)) = PLNR_L flags).
Proof.
  intros W. unfold first_plan. destruct (flagset flags FFTW_WISDOM_ONLY).
  - intros H. ib H r Er. apply mkplan0_built in Er as [N _]. inj H. cbn. auto.
  - apply pat_loop_built; [now apply planning_L|now right].
Qed.
Lemma mkapi_built flags p s q : word32 flags -> mkapi_pln e fuel tl flags p s = Ret q -> OkB (PLNR_L flags) p s q.
Proof.
  intros W. unfold mkapi_pln. intros H. ib H r Er. apply first_plan_L in Er as [N L]; auto. destruct r as [[pln used] s1]. cbn [fst snd] in *.
  ib H q1 E1. ib H s3 E3. apply forget_nthr in E3. inj H. destruct pln as [x|].
  - ib E1 q2 E2. apply api_mkplan_built in E2. destruct (fst q2) as [y|] eqn:Y; [|discriminate]. ib E1 s2 Ed. apply destroy_nthr in Ed. inj E1. cbn [fst snd] in *.
    destruct E2 as [N2 B2]. split; cbn [fst snd]; [congruence|]. intros z Ez. inj Ez. destruct (B2 z Y) as [u Bu]. exists u. rewrite <- N. rewrite L in Bu by discriminate. exact Bu.
  - inj E1. cbn [fst snd] in *. split; cbn [fst snd]; [congruence|discriminate].
Qed.
End Tl.

(** every plan a creation returns is one that the solvers build for the problem
    under at least the hard restrictions the flags ask for (PLNR_L, see C20) *)
Theorem C10_created_plan_built : configured e -> forall fuel sign flags p a h a', word32 flags ->
  create e fuel sign flags p a = Ret (Some h, a') ->
  exists x u, find_h h (a_plans a') = Some x /\ ap_sign x = sign /\ Built e (s_nthr (a_st a')) (PLNR_L flags) u p (ap_pln x).
Proof.
  intros CF fuel sign flags p a h a' W H. unfold create in H. cbv zeta in H. ib H a1 E1. ib H r Er. apply (mkapi_built fuel _ CF) in Er as [N Bu]; auto.
  destruct (fst r) as [x|] eqn:Ex; [|discriminate]. inj H. destruct (Bu x eq_refl) as [u Hu]. exists (mkap x (a_nextp a) 1 sign), u. cbn [find_h a_plans a_st ap_pln]. rewrite Nat.eqb_refl.
  split; [reflexivity|]. split; [reflexivity|]. rewrite N. exact Hu.
Qed.
(** hence a property that every solver preserves holds of every plan ever
    returned, whatever wisdom was stored or imported before *)
Theorem C10_wisdom_cannot_break : configured e -> forall Q : P -> plan -> Prop,
  (forall n d, nth_error (rg_descs (e_reg e)) n = Some d -> forall p, sd_kind d = e_kind e p -> preserves Q p (sd_prog d p)) ->
  forall fuel sign flags p a h a', word32 flags -> create e fuel sign flags p a = Ret (Some h, a') ->
  exists x, find_h h (a_plans a') = Some x /\ Q p (ap_pln x).
Proof.
  intros CF Q HQ fuel sign flags p a h a' W H. destruct (C10_created_plan_built CF _ _ _ _ _ _ _ W H) as (x & u & F & _ & Bu).
  exists x. split; [exact F|]. eapply built_invariant; eauto.
Qed.

(** ** C43 for the API *)
Definition nm (s s' : st) : Prop := s_nmeas s' = s_nmeas s /\ exists evs, s_tr s' = evs ++ s_tr s /\ forall ev, In ev evs -> ~ measured ev.
Lemma nmr s : nm s s. Proof. split; auto. exists []. split; [reflexivity|intros ? []]. Qed.
Lemma nmt a b c : nm a b -> nm b c -> nm a c.
Proof.
  intros (A1 & t1 & A2 & A3) (B1 & t2 & B2 & B3). split; [congruence|]. exists (t2 ++ t1). split; [rewrite B2, A2; apply app_assoc|].
  intros ev H. apply in_app_or in H as [H|H]; auto.
Qed.
Lemma nm_same s s' : s_nmeas s' = s_nmeas s -> s_tr s' = s_tr s -> nm s s'.
Proof. intros H1 H2. split; auto. exists []. split; [exact H2|intros ? []]. Qed.
Lemma forget_nm s a s' : forget s a = Ret s' -> nm s s'.
Proof. unfold forget. intros H. ib H x Ex. ib H y Ey. inj H. destruct a; apply nm_same; reflexivity. Qed.
Lemma destroy_nm (x : option plan) s s' : destroy x s = Ret s' -> nm s s'.
Proof. unfold destroy. destruct x; intros H; [ib H l El|]; inj H; apply nm_same; reflexivity. Qed.
Section EstApi.
Variable fuel : nat.
Variable tl : option Z.
Hypothesis CF : configured e.
Lemma mkplan_nmA l u p b c w s r s' : flagset u ESTIMATE = true \/ w = WISDOM_ONLY ->
  mkplan (env_tl e tl) fuel p (set_ws (set_flags s (mkfl l u c b)) w) = Ret (r, s') -> nm s s'.
Proof.
  intros E H. set (t := set_ws _ w) in H. assert (N : nm s t) by (apply nm_same; reflexivity).
  eapply nmt; [exact N|]. assert (Q : nomeas t s').
  { apply (mkplan_nm (env_tl e tl) (cf_est _ CF)) in H; auto. destruct E as [E|E]; [left; exact E|right; left; exact E]. }
  destruct Q as ((evs & T & F) & M). split; auto. exists evs. split; auto. intros ev Hi (i & ->). rewrite Forall_forall in F. exact (F _ Hi).
Qed.
Lemma mkplan0_nm flags p b w s q : flagset (PLNR_U flags) ESTIMATE = true \/ w = WISDOM_ONLY -> mkplan0 e fuel tl flags p b w s = Ret q -> nm s (snd q).
Proof. intros E H. destruct q as [r s']. unfold mkplan0 in H. eapply mkplan_nmA in H; eauto. Qed.
Lemma force_U flags : flagset (PLNR_U (force_estimator flags)) ESTIMATE = true.
Proof.
  rewrite !PLNR_U_eq. change ESTIMATE with (2 ^ 1). rewrite !flagset_bit by lia. rewrite !u_bit by lia.
  assert (H : Z.testbit (force_estimator flags) 6 = true) by (unfold force_estimator; rewrite Z.lor_spec; apply orb_true_r).
  set (b := Z.testbit (force_estimator flags)) in *. clearbody b. cbv. rewrite H. repeat match goal with |- context [b ?k] => destruct (b k) end; reflexivity.
Qed.
Lemma api_mkplan_nm flags p b s q : flagset (PLNR_U flags) ESTIMATE = true -> api_mkplan e fuel tl flags p b s = Ret q -> nm s (snd q).
Proof.
  intros E H. unfold api_mkplan in H. ib H r1 E1. apply mkplan0_nm in E1; auto. ib H r2 E2.
  assert (O2 : nm s (snd r2)).
  { destruct (_ && _) in E2; [|inj E2; exact E1]. apply mkplan0_nm in E2; [|left; apply force_U]. eapply nmt; eauto. }
  destruct (bogus (snd r2)); [|inj H; exact O2]. ib H s3 E3. apply forget_nm in E3. ib H u Eu. ib H r4 E4. apply mkplan0_nm in E4; auto.
  assert (O4 : nm s (snd r4)) by (eapply nmt; [exact O2|]; eapply nmt; eauto).
  destruct (bogus (snd r4)); [|inj H; exact O4]. ib H s5 E5. apply forget_nm in E5. ib H u' Eu'. apply mkplan0_nm in H; [|left; apply force_U].
  eapply nmt; [exact O4|]. eapply nmt; eauto.
Qed.
Lemma pat_loop_nm fs : forall p pln used s q, Forall (fun f => flagset (PLNR_U f) ESTIMATE = true) fs -> flagset (PLNR_U used) ESTIMATE = true \/ pln = None -> pat_loop e fuel tl fs p pln used s = Ret q ->
  nm s (snd q) /\ (fst (fst q) <> None -> flagset (PLNR_U (snd (fst q))) ESTIMATE = true).
Proof.
  induction fs as [|f fs IH]; intros p pln used s q F U H; cbn [pat_loop] in H.
  - inj H. cbn [fst snd]. split; [apply nmr|]. destruct U as [U|U]; [auto|congruence].
  - inversion F as [|? ? F1 F2]; subst. ib H r Er. apply api_mkplan_nm in Er; [|exact F1]. destruct (fst r) as [x|].
    + ib H s1 E1. apply destroy_nm in E1. eapply IH in H; [|exact F2|left; exact F1]. destruct H as [H1 H2]. split; [|exact H2].
      eapply nmt; [exact Er|]. eapply nmt; eauto.
    + ib H u Eu. inj H. cbn [fst snd]. split; auto. destruct U as [U|U]; [auto|congruence].
Qed.
End EstApi.
Lemma planner_same a a1 : the_planner (B := B) a = Ret a1 -> nm (a_st a) (a_st a1) /\ s_tr (a_st a1) = s_tr (a_st a).
Proof.
  unfold the_planner. destruct (a_init a); intros H; [inj H; split; [apply nmr|reflexivity]|]. ib H s E. unfold mkplanner in E. ib E x Ex. ib E y Ey. inj E. inj H.
  split; [apply nm_same; reflexivity|reflexivity].
Qed.
(** creating a plan with FFTW_ESTIMATE runs no plan, hence touches no array *)
Theorem C43_estimate : configured e -> forall fuel sign flags p a h a', word32 flags ->
  flagset flags FFTW_ESTIMATE = true -> create e fuel sign flags p a = Ret (h, a') ->
  s_nmeas (a_st a') = s_nmeas (a_st a) /\ exists evs, s_tr (a_st a') = evs ++ s_tr (a_st a) /\ forall ev, In ev evs -> ~ measured ev.
Proof.
  intros CF fuel sign flags p a h a' W E H. unfold create in H. cbv zeta in H. ib H a1 E1. apply planner_same in E1 as [E1 _]. ib H r Er.
  assert (N : nm (a_st a1) (snd r)).
  { clear H. unfold mkapi_pln in Er. ib Er q Eq. destruct q as [[pln used] s1].
    assert (F : nm (a_st a1) s1 /\ (pln <> None -> flagset (PLNR_U used) ESTIMATE = true)).
    { unfold first_plan in Eq. destruct (flagset flags FFTW_WISDOM_ONLY).
      - ib Eq z Ez. apply (mkplan0_nm fuel _ CF) in Ez; [|now right]. inj Eq. split; [exact Ez|]. intros _. exact (proj1 (C20_estimate used W) E).
      - apply (pat_loop_nm fuel _ CF) in Eq; [exact Eq| |now right]. apply Forall_forall. intros f Hf. unfold planning_flags in Hf. unfold pat_max in Hf. rewrite E in Hf.
        destruct (a_tl a1); cbn [Nat.sub seq map In] in Hf; destruct Hf as [<-|[]]; rewrite <- force_pat; apply force_U. }
    destruct F as [F1 F2]. eapply nmt; [exact F1|]. ib Er q Eq2. ib Er s3 E3. apply forget_nm in E3. inj Er. cbn [snd]. eapply nmt; [|exact E3].
    destruct pln as [x|]; [|inj Eq2; apply nmr]. ib Eq2 z Ez. apply (api_mkplan_nm fuel _ CF) in Ez; [|apply F2; discriminate].
    destruct (fst z); [|discriminate]. ib Eq2 s4 E4. apply destroy_nm in E4. inj Eq2. cbn [snd]. eapply nmt; eauto. }
  assert (G : nm (a_st a) (snd r)) by (eapply nmt; eauto). destruct (fst r); inj H; exact G.
Qed.

(** ** C37: the life of plans *)
Notation occ := (count_occ Nat.eq_dec).
Lemma occ_perm l l' h : Permutation l l' -> occ l h = occ l' h.
Proof. intros H. now apply (Permutation_count_occ Nat.eq_dec) with (x := h) in H. Qed.
Lemma ref_find h a : AInv e a -> (0 < ref_of (B := B) h a <-> find_h h (a_plans a) <> None).
Proof.
  intros (_ & _ & _ & _ & _ & F). unfold ref_of. destruct (find_h h (a_plans a)) as [x|] eqn:E; [|split; [lia|congruence]].
  apply find_in in E. rewrite Forall_forall in F. apply F in E. cbn in E. split; [discriminate|]. intros _. apply E.
Qed.
Lemma create_okP : configured e -> e_debug e = false -> forall fuel sign flags p a h a', AInv e a -> create e fuel sign flags p a = Ret (h, a') ->
  AInv e a' /\ match h with
     | Some h => find_h h (a_plans a) = None /\ ref_of h a' = 1 /\ forall h', h' <> h -> find_h h' (a_plans a') = find_h h' (a_plans a)
     | None => a_plans a' = a_plans a end.
Proof.
  intros CF D fuel sign flags p a h a' I H.
  destruct (create_ok e fuel (cf_reg e CF) (cf_n e CF) (cf_careful e CF) (cf_est e CF) D sign flags p a I) as [(a1 & E1 & x & used & s1 & s2 & F & N)|Q].
  - exfalso. unfold create in H. cbv zeta in H. rewrite E1 in H. cbn [bind] in H. unfold mkapi_pln in H. rewrite F in H. cbn [bind] in H. rewrite N in H. cbn [bind fst] in H. discriminate.
  - rewrite H in Q. cbn [Safe fst snd] in Q. destruct Q as (Q1 & _ & _ & Q2). auto.
Qed.
Lemma run_inv : configured e -> e_debug e = false -> forall fuel own a, Run e fuel own a ->
  AInv e a /\ forall h, ref_of h a = Z.of_nat (occ own h).
Proof.
  intros CF D fuel own a H. induction H as [|own a sign flags p h a' H IH E|own a sign flags p a' H IH E|own a h a' H IH Hi E|own a h own' a' H IH Hp E|own a a' H IH E|own a a' H IH E|own a a' H IH E|own a t a' H IH E|own a junk txt b a' H IH E|own a H IH].
  - split; [apply boot_ok|]. reflexivity.
  - destruct IH as [I R]. apply create_okP in E as (I' & N & R1 & Fr); auto. split; auto. intros h'. cbn [count_occ]. destruct (Nat.eq_dec h h') as [->|Ne].
    + rewrite R1. specialize (R h'). unfold ref_of in R. rewrite N in R. lia.
    + rewrite <- R. unfold ref_of. rewrite Fr; auto.
  - destruct IH as [I R]. apply create_okP in E as (I' & N); auto. split; auto. intros h'. unfold ref_of. rewrite N. apply R.
  - destruct IH as [I R]. assert (Hf : find_h h (a_plans a) <> None).
    { apply ref_find; auto. rewrite R. apply (count_occ_In Nat.eq_dec) in Hi. lia. }
    destruct (copy_ok e h a I Hf) as (a1 & E1 & I1 & R1 & _ & Fr & _). rewrite E in E1. inj E1. split; auto. intros h'. cbn [count_occ]. destruct (Nat.eq_dec h h') as [->|Ne].
    + rewrite R1, R. lia.
    + rewrite <- R. unfold ref_of. rewrite Fr; auto.
  - destruct IH as [I R]. assert (Hf : find_h h (a_plans a) <> None).
    { apply ref_find; auto. rewrite R, (occ_perm _ _ _ Hp). cbn [count_occ]. destruct (Nat.eq_dec h h); [lia|congruence]. }
    destruct (destroy_ok e h a I Hf) as (a1 & E1 & I1 & R1 & _ & Fr & _). rewrite E in E1. inj E1. split; auto. intros h'.
    specialize (R h'). rewrite (occ_perm _ _ _ Hp) in R. cbn [count_occ] in R. destruct (Nat.eq_dec h h') as [->|Ne].
    + rewrite R1, R. lia.
    + rewrite <- R. unfold ref_of. rewrite Fr; auto.
  - cbn in E. inj E. exact IH.
  - cbn in E. inj E. exact IH.
  - destruct IH as [I R]. destruct (forget_wisdom_ok e a I) as (a1 & E1 & I1 & Pl & _). rewrite E in E1. inj E1. split; auto. intros h. unfold ref_of. rewrite Pl. apply R.
  - destruct IH as [I R]. destruct (set_timelimit_ok e t a I) as (a1 & E1 & I1 & Pl). rewrite E in E1. inj E1. split; auto. intros h. unfold ref_of. rewrite Pl. apply R.
  - destruct IH as [I R]. pose proof (import_ok e (cf_n e CF) D junk txt a I) as Q. rewrite E in Q. destruct Q as (I1 & Pl & _). split; auto. intros h. unfold ref_of. rewrite Pl. apply R.
  - destruct IH as [I R]. destruct (cleanup_ok e a I) as (I1 & Pl). split; auto.
Qed.
(** the plans that exist are exactly those the program owns, one handle each;
    the allocated blocks are exactly theirs *)
Theorem C37_exactly_owned : configured e -> e_debug e = false -> forall fuel own a, Run e fuel own a ->
  (forall h, In h own <-> exists x, In (h, x) (a_plans a)) /\
  NoDup (map fst (a_plans a)) /\
  NoDup (s_live (a_st a)) /\
  Permutation (s_live (a_st a)) (flat_map (fun x => ids (ap_pln (snd x))) (a_plans a)) /\
  Permutation (a_probs a) (map (fun x => ap_prb (snd x)) (a_plans a)) /\
  (own = [] -> s_live (a_st a) = [] /\ a_probs a = []).
Proof.
  intros CF D fuel own a H. destruct (run_inv CF D fuel own a H) as [I R].
  pose proof I as (I1 & I2 & I3 & I4 & I5 & I6).
  assert (Own : forall h, In h own <-> exists x, In (h, x) (a_plans a)).
  { intros h. rewrite (count_occ_In Nat.eq_dec). specialize (R h). pose proof (ref_find h a I) as F. split.
    - intros G. assert (X : find_h h (a_plans a) <> None) by (apply F; lia). destruct (find_h h (a_plans a)) as [x|] eqn:E; [|congruence]. exists x. now apply find_in.
    - intros [x Hx]. apply in_find in Hx; auto. assert (0 < ref_of h a) by (apply F; congruence). lia. }
  split; [exact Own|]. split; [exact I5|]. split; [apply I1|]. split; [exact I3|]. split; [exact I4|].
  intros ->. assert (E : a_plans a = []).
  { destruct (a_plans a) as [|[h x] l] eqn:E; auto. exfalso. apply (Own h). exists x. now left. }
  rewrite E in I3, I4. cbn in I3, I4. split; apply Permutation_nil; now symmetry.
Qed.
(** the calls a program may make are never undefined, with one exception: the
    planner had made a plan, and failed to make it again (api/apiplan.c:150
    dereferences that result) *)
Theorem C37_no_undefined_behaviour : configured e -> e_debug e = false -> forall fuel own a c, Run e fuel own a -> legal own c ->
  do_call e fuel c a = UB ->
  exists sign flags p a1 x used s1 s2, c = Create sign flags p /\ the_planner a = Ret a1 /\
    first_plan e fuel (a_tl a1) flags p (a_st a1) = Ret (Some x, used, s1) /\
    api_mkplan e fuel (a_tl a1) used p true s1 = Ret (None, s2).
Proof.
  intros CF D fuel own a c H L U. destruct (run_inv CF D fuel own a H) as [I R].
  assert (Own : forall h, In h own -> find_h h (a_plans a) <> None).
  { intros h Hh. apply ref_find; auto. rewrite R. apply (count_occ_In Nat.eq_dec) in Hh. lia. }
  destruct c as [sign flags p|h|h| |t| |junk txt]; cbn [do_call legal] in *.
  - destruct (create_ok e fuel (cf_reg e CF) (cf_n e CF) (cf_careful e CF) (cf_est e CF) D sign flags p a I) as [(a1 & E1 & x & used & s1 & s2 & F & N)|Q].
    + exists sign, flags, p, a1, x, used, s1, s2. auto.
    + rewrite U in Q. destruct Q.
  - destruct h as [h|]; [|discriminate]. destruct (copy_ok e h a I (Own h L)) as (a1 & E1 & _). rewrite E1 in U. discriminate.
  - destruct h as [h|]; [|discriminate]. destruct (destroy_ok e h a I (Own h L)) as (a1 & E1 & _). rewrite E1 in U. discriminate.
  - destruct (forget_wisdom_ok e a I) as (a1 & E1 & _). rewrite E1 in U. discriminate.
  - destruct (set_timelimit_ok e t a I) as (a1 & E1 & _). rewrite E1 in U. discriminate.
  - discriminate.
  - pose proof (import_ok e (cf_n e CF) D junk txt a I) as Q. apply long_words_short in L. destruct (import_wisdom e junk txt a) as [[b a1]| |]; cbn [bind fst snd] in U; [destruct b; discriminate|contradiction|discriminate].
Qed.
(** a plan the program owns before and after a call is the same plan *)
Theorem C37_plans_stay : configured e -> e_debug e = false -> forall fuel own a c r a', Run e fuel own a -> legal own c ->
  do_call e fuel c a = Ret (r, a') ->
  forall h x, In (h, x) (a_plans a) ->
    (c = Destroy (Some h) /\ occ own h = 1%nat /\ forall y, ~ In (h, y) (a_plans a')) \/
    (exists y, In (h, y) (a_plans a') /\ ap_pln y = ap_pln x /\ ap_prb y = ap_prb x /\ ap_sign y = ap_sign x).
Proof.
  intros CF D fuel own a c r a' H L E h x Hx. destruct (run_inv CF D fuel own a H) as [I R]. pose proof I as (_ & _ & _ & _ & ND & _).
  pose proof (in_find h _ x ND Hx) as Hf.
  assert (Same : a_plans a' = a_plans a -> exists y, In (h, y) (a_plans a') /\ ap_pln y = ap_pln x /\ ap_prb y = ap_prb x /\ ap_sign y = ap_sign x).
  { intros ->. exists x. auto. }
  assert (Fd : forall y, find_h h (a_plans a') = Some y -> ap_pln y = ap_pln x /\ ap_prb y = ap_prb x /\ ap_sign y = ap_sign x ->
     exists y, In (h, y) (a_plans a') /\ ap_pln y = ap_pln x /\ ap_prb y = ap_prb x /\ ap_sign y = ap_sign x).
  { intros y Hy Q. exists y. split; [now apply find_in|exact Q]. }
  destruct c as [sign flags p|h'|h'| |t| |junk txt]; cbn [do_call legal] in *.
  - right. apply create_okP in E as (_ & Q); auto. destruct r as [h'|]; [|auto]. destruct Q as (N & _ & Fr).
    apply (Fd x); auto. rewrite Fr; auto. congruence.
  - right. ib E a1 E1. inj E. destruct r as [h'|]; cbn [copy_plan] in E1; [|inj E1; auto].
    destruct (find_h h' (a_plans a)) as [z|] eqn:Fz; [|discriminate]. inj E1. cbn [a_plans] in *. destruct (Nat.eq_dec h h') as [->|Ne].
    + rewrite Hf in Fz. inj Fz. destruct (set_perm h' (a_plans a) z (mkap (ap_pln z) (ap_prb z) (ap_ref z + 1) (ap_sign z)) Hf) as (l' & _ & S2 & _).
      eexists. split; [eapply Permutation_in; [symmetry; exact S2|now left]|auto].
    + apply (Fd x); auto. rewrite find_set_other; auto.
  - ib E a1 E1. inj E. destruct h' as [h'|]; cbn [destroy_plan] in E1; [|inj E1; auto].
    destruct (find_h h' (a_plans a)) as [z|] eqn:Fz; [|discriminate]. destruct (Nat.eq_dec h h') as [->|Ne].
    + rewrite Hf in Fz. inj Fz. specialize (R h'). unfold ref_of in R. rewrite Hf in R.
      destruct (Z.eqb_spec (ap_ref z) 1) as [E1r|E1r].
      * left. split; [reflexivity|]. split; [lia|]. ib E1 s Es. destruct (remove1 (ap_prb z) (a_probs a)); [|discriminate]. inj E1. cbn [a_plans].
        destruct (set_perm h' (a_plans a) z z Hf) as (l' & S1 & _ & S3 & _). intros Hy. eapply Permutation_in in Hy; [|exact S3].
        apply (Permutation_map fst) in S1. eapply Permutation_NoDup in ND; [|exact S1]. cbn in ND. inversion ND as [|? ? ND1 _]; subst. apply ND1. apply in_map_iff. exists (h', y). auto.
      * right. inj E1. cbn [a_plans]. destruct (set_perm h' (a_plans a) z (mkap (ap_pln z) (ap_prb z) (ap_ref z - 1) (ap_sign z)) Hf) as (l' & _ & S2 & _).
        eexists. split; [eapply Permutation_in; [symmetry; exact S2|now left]|auto].
    + right. apply (Fd x); auto. destruct (ap_ref z =? 1).
      * ib E1 s Es. destruct (remove1 (ap_prb z) (a_probs a)); [|discriminate]. inj E1. cbn [a_plans]. rewrite find_set_other; auto.
      * inj E1. cbn [a_plans]. rewrite find_set_other; auto.
  - right. ib E a1 E1. inj E. destruct (forget_wisdom_ok e a I) as (a2 & E2 & _ & Pl & _). rewrite E1 in E2. inj E2. auto.
  - right. ib E a1 E1. inj E. destruct (set_timelimit_ok e t a I) as (a2 & E2 & _ & Pl). rewrite E1 in E2. inj E2. auto.
  - right. inj E. auto.
  - right. pose proof (import_ok e (cf_n e CF) D junk txt a I) as Q. destruct (import_wisdom e junk txt a) as [[[b|] a1]| |]; cbn [bind fst snd] in E; [|discriminate..]. inj E. destruct Q as (_ & Pl & _). auto.
Qed.
(** fftw_cleanup puts the library into its initial state, apart from the plans:
    no wisdom, no time limit, one thread *)
Theorem C37_cleanup : configured e -> e_debug e = false -> forall fuel own a, Run e fuel own a ->
  exists a', the_planner (cleanup a) = Ret a' /\ records (s_hb (a_st a')) = [] /\ records (s_hu (a_st a')) = [] /\
     a_tl a' = None /\ s_nthr (a_st a') = 1 /\ a_plans a' = a_plans a /\ s_live (a_st a') = s_live (a_st a).
Proof.
  intros CF D fuel own a H. destruct (run_inv CF D fuel own a H) as [I _]. destruct (cleanup_ok e a I) as [I' Pl].
  destruct (the_planner_ok e (cleanup a) I') as (a' & E & _ & _ & _ & P1 & _ & _ & _ & _ & F). destruct (F eq_refl) as (F1 & F2 & F3 & F4).
  exists a'. split; [exact E|]. split; [exact F1|]. split; [exact F2|]. split; [exact F3|]. split; [exact F4|]. split; [rewrite P1; exact Pl|].
  unfold the_planner in E. cbn [cleanup a_init] in E. ib E s Es. unfold mkplanner in Es. ib Es x Ex. ib Es y Ey. inj Es. inj E. reflexivity.
Qed.

(** Only fftw_set_timelimit and fftw_cleanup change the time limit in force: the
    other calls leave it as set (after fftw_cleanup: as initialised, no limit). *)
Theorem C18_timelimit : forall fuel a c r a', do_call e fuel c a = Ret (r, a') ->
  match c with SetTimelimit t => a_tl a' = t | _ => a_tl a' = a_tl a \/ (a_init a = false /\ a_tl a' = None) end.
Proof.
  intros fuel a c r a' E.
  assert (TP : forall a1, the_planner a = Ret a1 -> a_tl a1 = a_tl a \/ (a_init a = false /\ a_tl a1 = None)).
  { intros a1 H. unfold the_planner in H. destruct (a_init a); [inj H; auto|]. ib H s Es. inj H. auto. }
  destruct c as [sign flags p|h|h| |t| |junk txt]; cbn [do_call] in E.
  - unfold create in E. ib E a1 E1. ib E x Ex. specialize (TP a1 E1). destruct (fst x); inj E; exact TP.
  - left. ib E a1 E1. assert (a1 = a') by congruence. subst a1. clear E. unfold copy_plan in E1. destruct h as [h|]; [|inj E1; auto]. destruct (find_h h (a_plans a)); [inj E1; reflexivity|discriminate].
  - left. ib E a1 E1. inj E. unfold destroy_plan in E1. destruct h as [h|]; [|inj E1; auto]. destruct (find_h h (a_plans a)) as [z|]; [|discriminate].
    destruct (ap_ref z =? 1); [|inj E1; reflexivity]. ib E1 s Es. destruct (remove1 (ap_prb z) (a_probs a)); [inj E1; reflexivity|discriminate].
  - unfold forget_wisdom in E. ib E q Eq. ib Eq a1 E1. ib Eq s Es. inj Eq. inj E. exact (TP a1 E1).
  - unfold set_timelimit in E. ib E q Eq. ib Eq a1 E1. inj Eq. inj E. reflexivity.
  - inj E. left. reflexivity.
  - unfold import_wisdom in E. ib E q Eq. ib Eq a1 E1. ib Eq x Ex. inj Eq. specialize (TP a1 E1). cbn [fst snd] in E. destruct (fst (fst x)); [|discriminate]. inj E. exact TP.
Qed.

(** ** C13 for the planner and the API *)
Theorem C13_forget_wisdom : configured e -> e_debug e = false -> forall fuel own a, Run e fuel own a ->
  exists a', forget_wisdom a = Ret a' /\ records (s_hb (a_st a')) = [] /\ records (s_hu (a_st a')) = [] /\
    (forall k f, unknown (a_st a') k f) /\ a_plans a' = a_plans a.
Proof.
  intros CF D fuel own a H. destruct (run_inv CF D fuel own a H) as [I _]. destruct (forget_wisdom_ok e a I) as (a' & E & _ & Pl & _ & R1 & R2).
  exists a'. split; [exact E|]. split; [exact R1|]. split; [exact R2|]. split; [|exact Pl]. intros k f r. rewrite R1, R2. intros [[]|[]].
Qed.
(** wisdom gathered while planning that was not put into a plan returned to the
    user is dropped at the end of every creation, the rest is kept *)
Theorem C13_forget_accursed : configured e -> forall s s', Reachable e s -> forget s FORGET_ACCURSED = Ret s' ->
  s_hb s' = s_hb s /\ records (s_hu s') = [].
Proof.
  intros CF s s' R E. pose proof (reachable_inv e s CF R) as I. destruct (forget_ok e FORGET_ACCURSED s) as (s1 & E1 & _ & _ & R1 & R2); [apply I|intros _; apply I|apply I|].
  rewrite E in E1. inj E1. auto.
Qed.
Theorem C13_creation_drops_accursed : configured e -> e_debug e = false -> forall fuel own a sign flags p h a', Run e fuel own a ->
  create e fuel sign flags p a = Ret (h, a') -> records (s_hu (a_st a')) = [].
Proof.
  intros CF D fuel own a sign flags p h a' H E. destruct (run_inv CF D fuel own a H) as [I _].
  destruct (create_ok e fuel (cf_reg e CF) (cf_n e CF) (cf_careful e CF) (cf_est e CF) D sign flags p a I) as [(a1 & E1 & x & used & s1 & s2 & F & N)|Q].
  - exfalso. unfold create in E. cbv zeta in E. rewrite E1 in E. cbn [bind] in E. unfold mkapi_pln in E. rewrite F in E. cbn [bind] in E. rewrite N in E. cbn [bind fst] in E. discriminate.
  - rewrite E in Q. apply Q.
Qed.

Lemma wisdom_only_A fuel tl l u c b p s z s1 : Inv e s ->
  mkplan (env_tl e tl) fuel p (set_ws (set_flags s (mkfl l u c b)) WISDOM_ONLY) = Ret (z, s1) ->
  s_tr s1 = s_tr s /\ s_nmeas s1 = s_nmeas s /\ (z <> None -> exists c, (In c (records (s_hb s)) \/ In c (records (s_hu s))) /\ rkey c = e_sig e (s_nthr s) p /\ ~ infeasible c /\
      subset (ru c) u /\ subset l (rl c)).
Proof.
  intros I2 Ez. set (t := set_ws _ _) in Ez. destruct fuel as [|fuel']; cbn [mkplan] in Ez; [discriminate|].
  destruct (body_only (env_tl e tl) (mkplan (env_tl e tl) fuel')) with (p := p) (s := t) (r := z) (s' := s1) as [(Q1 & Q2 & Q3) Q4]; auto.
  - intros. eapply mkplan_Scoped; eauto.
  - intros. eapply mkplan_only; eauto.
  - now left.
  - split; [exact Q1|]. split; [exact Q2|]. intros Nn. destruct (Q4 Nn) as (sol & s0 & S1 & S2 & S3 & S4).
    rewrite (hlookup_tabs t s0) in S3 by auto. destruct (lookup_record e t _ _ _ I2 S3) as (r & C1 & C2 & C3 & C4).
    assert (NI : ~ infeasible r) by (unfold infeasible; rewrite C3; exact S4). exists r.
    split; [exact C1|]. split; [exact C2|]. split; [exact NI|]. destruct C4 as [C4|[C4 _]]; [|contradiction]. apply C4.
Qed.
(** ** C17 for the API *)
(** with FFTW_WISDOM_ONLY: if the wisdom does not say how to plan the problem the
    result is NULL, and nothing was searched for or measured; a plan is only
    returned if there is feasible wisdom for the problem *)
Theorem C17_create : configured e -> e_debug e = false -> forall fuel sign flags p own a a1 h a', Run e fuel own a -> the_planner a = Ret a1 ->
  flagset flags FFTW_WISDOM_ONLY = true -> create e fuel sign flags p a = Ret (h, a') ->
  (h = None -> s_tr (a_st a') = s_tr (a_st a) /\ s_nmeas (a_st a') = s_nmeas (a_st a)) /\
  (h <> None -> exists c, (In c (records (s_hb (a_st a1))) \/ In c (records (s_hu (a_st a1)))) /\ rkey c = e_sig e (s_nthr (a_st a1)) p /\ ~ infeasible c /\
      subset (ru c) (PLNR_U flags) /\ subset (PLNR_L flags) (rl c)).
Proof.
  intros CF D fuel sign flags p own a a1 h a' H E1 W E. destruct (run_inv CF D fuel own a H) as [I _].
  destruct (the_planner_ok e a I) as (a2 & E2 & _ & _ & I2 & _). rewrite E1 in E2. inj E2. rename a2 into a1.
  unfold create in E. cbv zeta in E. rewrite E1 in E. cbn [bind] in E. apply planner_same in E1 as [(M1 & _) T1].
  ib E r Er. unfold mkapi_pln in Er. ib Er q Eq. unfold first_plan in Eq. rewrite W in Eq. ib Eq z Ez. inj Eq. destruct z as [z s1]. cbn [fst snd] in *.
  unfold mkplan0 in Ez. pose proof (wisdom_only_A fuel _ _ _ _ _ _ _ _ _ I2 Ez) as Q.
  destruct Q as (Q1 & Q2 & Q3). ib Er q Eq2. ib Er s3 E3. apply forget_nm in E3 as E3'. inj Er. cbn [fst snd] in *. destruct z as [x|].
  - ib Eq2 y Ey. destruct (fst y); [|discriminate]. ib Eq2 s4 E4. inj Eq2. cbn [fst] in E. inj E. split; [discriminate|]. intros _. apply Q3. discriminate.
  - inj Eq2. cbn [fst snd] in *. inj E. cbn [a_st]. split; [|congruence]. intros _. 
    assert (s_tr s3 = s_tr s1 /\ s_nmeas s3 = s_nmeas s1) as [T3 N3].
    { unfold forget in E3. ib E3 xx Exx. ib E3 yy Eyy. inj E3. auto. }
    rewrite T3, N3, Q1, Q2. auto.
Qed.
(** ** C11 for the API: what has been created is remembered as wisdom *)
Lemma mkplan_blessA fuel tl l u c p s x s' : configured e -> Inv e s -> subset l u ->
  mkplan (env_tl e tl) fuel p (set_ws (set_flags s (mkfl l u c true)) WISDOM_NORMAL) = Ret (Some x, s') ->
  exists r, In r (records (s_hb s')) /\ rkey r = e_sig e (s_nthr s) p /\ licenses r l u (if flagset u ESTIMATE then 0 else c).
Proof.
  intros CF I L H. set (t := set_ws _ _) in H.
  destruct (mkplan_blesses (env_tl e tl) (cf_reg e CF) (cf_n e CF) (cf_careful e CF) (cf_est e CF) fuel p t x s' I L eq_refl eq_refl H) as ([g sl] & Hs).
  pose proof (mkplan_safe (env_tl e tl) (cf_reg e CF) (cf_n e CF) (cf_careful e CF) (cf_est e CF) fuel p t) as Q. rewrite H in Q.
  destruct Q as ((_ & (W1 & _) & _) & _); [split; [exact I|intros _; exact L]|].
  destruct (htab_lookup_ok (s_hb s') (e_sig e (s_nthr s) p) (reqflags t) W1) as (r1 & E1 & H1).
  assert (Er : r1 = Some (g, sl)).
  { assert (Q : Ret r1 = Ret (Some (g, sl))) by (rewrite <- E1; exact Hs). now inj Q. }
  subst r1. destruct H1 as (_ & _ & H1 & M1 & _). apply matches_spec in M1 as [M1 M2]. exists (rec_of sl). auto.
Qed.
Definition Bl (tl : option Z) (used : Z) (p : P) (s : st) (q : option plan * st) : Prop :=
  s_nthr (snd q) = s_nthr s /\
  (fst q <> None -> s_ws (snd q) = WISDOM_NORMAL -> exists r, In r (records (s_hb (snd q))) /\ rkey r = e_sig e (s_nthr s) p /\
     licenses r (PLNR_L used) (PLNR_U used) (if flagset (PLNR_U used) ESTIMATE then 0 else tlclass tl)).
Lemma Bl_trans tl used p s s1 q : s_nthr s1 = s_nthr s -> Bl tl used p s1 q -> Bl tl used p s q.
Proof. unfold Bl. now intros ->. Qed.
Lemma mkplan0_ws fuel tl used p b w s q : mkplan0 e fuel tl used p b w s = Ret q -> fst q <> None -> s_ws (snd q) = w.
Proof. destruct q as [r s']. intros H Nn. unfold mkplan0 in H. apply mkplan_Scoped in H as (_ & _ & _ & _ & [W|[_ W]]); [exact W|]. cbn in Nn. congruence. Qed.
Lemma mkplan0_bl fuel tl used p w s q : configured e -> Inv e s -> mkplan0 e fuel tl used p true w s = Ret q -> Bl tl used p s q.
Proof.
  destruct q as [r s']. intros CF I H. split; [exact (mkplan0_nthr fuel tl _ _ _ _ _ _ _ H)|]. intros Nn W. pose proof (mkplan0_ws _ _ _ _ _ _ _ _ H Nn) as W'.
  cbn [fst snd] in *. rewrite W in W'. subst w. destruct r as [x|]; [|congruence]. unfold mkplan0 in H.
  exact (mkplan_blessA fuel tl (PLNR_L used) (PLNR_U used) (tlclass tl) p s x s' CF I (LU used) H).
Qed.
Lemma Bl_other tl used p s q : s_nthr (snd q) = s_nthr s -> (fst q <> None -> s_ws (snd q) <> WISDOM_NORMAL) -> Bl tl used p s q.
Proof. intros H1 H2. split; [exact H1|]. intros A1 A2. now apply H2 in A1. Qed.
Lemma api_mkplan_bl fuel tl used p s q : configured e -> Inv e s -> api_mkplan e fuel tl used p true s = Ret q -> Bl tl used p s q.
Proof.
  intros CF I H.
  assert (IM : forall q fl w s, mkplan0 e fuel tl fl p true w s = Ret q -> Inv e s -> w <> WISDOM_IS_BOGUS -> Inv e (snd q)).
  { intros q0 f0 w s0 E0 I0 Nw. pose proof (mkplan0_safe e fuel (cf_reg e CF) (cf_n e CF) (cf_careful e CF) (cf_est e CF) tl f0 p true w s0 I0 Nw) as Q.
    rewrite E0 in Q. destruct Q as [[Q _] _]. exact Q. }
  assert (IF : forall s s', Inv e s -> forget s FORGET_EVERYTHING = Ret s' -> Inv e s').
  { intros s0 s0' I0 E0. destruct (forget_ok e FORGET_EVERYTHING s0) as (s1 & E1 & I1 & _); [apply I0|discriminate|apply I0|]. rewrite E0 in E1. inj E1. exact I1. }
  unfold api_mkplan in H. ib H r1 E1. pose proof (IM _ _ _ _ E1 I ltac:(discriminate)) as I1. apply mkplan0_bl in E1 as B1; auto. ib H r2 E2.
  assert (O2 : Bl tl used p s r2 /\ Inv e (snd r2)).
  { destruct (_ && _) in E2; [|inj E2; auto]. split; [|exact (IM _ _ _ _ E2 I1 ltac:(discriminate))]. apply Bl_other.
    - destruct r2. apply (mkplan0_nthr fuel tl) in E2. cbn [snd]. rewrite E2. apply B1.
    - intros Nn. apply mkplan0_ws in E2; auto. rewrite E2. discriminate. }
  destruct O2 as [O2 I2]. destruct (bogus (snd r2)); [|inj H; exact O2]. ib H s3 E3. pose proof (IF _ _ I2 E3) as I3. apply forget_nthr in E3. ib H u Eu. ib H r4 E4.
  pose proof (IM _ _ _ _ E4 I3 ltac:(discriminate)) as I4. apply mkplan0_bl in E4; auto.
  assert (O4 : Bl tl used p s r4) by (eapply Bl_trans; [|exact E4]; rewrite E3; apply O2).
  destruct (bogus (snd r4)); [|inj H; exact O4]. ib H s5 E5. pose proof (IF _ _ I4 E5) as I5. apply forget_nthr in E5. ib H u' Eu'. apply Bl_other.
  - destruct q. apply (mkplan0_nthr fuel tl) in H. cbn [snd]. rewrite H, E5. apply O4.
  - intros Nn. apply mkplan0_ws in H; auto. rewrite H. discriminate.
Qed.
Lemma pat_loop_used fuel tl fs : forall p pln used s q, pat_loop e fuel tl fs p pln used s = Ret q -> fst (fst q) <> None -> (pln <> None /\ snd (fst q) = used) \/ In (snd (fst q)) fs.
Proof.
  induction fs as [|f fs IH]; intros p pln used s q H Nn; cbn [pat_loop] in H.
  - inj H. left. cbn [fst snd] in *. auto.
  - ib H r Er. destruct (fst r) as [x|].
    + ib H s1 E1. eapply IH in H; [|exact Nn]. destruct H as [[_ H]|H]; [right; left; congruence|right; right; exact H].
    + ib H u Eu. inj H. left. cbn [fst snd] in *. auto.
Qed.
(** unless planning had to fall back to its degraded modes, a created plan is
    recorded in the lasting ("blessed") wisdom, under the flag word of one of the
    attempts that the creation makes: its own one (with FFTW_WISDOM_ONLY), or one
    of increasing patience up to what was asked for (C20_planning_flags) *)
Theorem C11_created_is_blessed : configured e -> e_debug e = false -> forall fuel sign flags p own a h a', Run e fuel own a ->
  create e fuel sign flags p a = Ret (Some h, a') -> s_ws (a_st a') = WISDOM_NORMAL ->
  exists used c, (if flagset flags FFTW_WISDOM_ONLY then used = flags else In used (planning_flags (match a_tl a' with Some _ => true | None => false end) flags)) /\
    In c (records (s_hb (a_st a'))) /\ rkey c = e_sig e (s_nthr (a_st a')) p /\
    licenses c (PLNR_L used) (PLNR_U used) (if flagset (PLNR_U used) ESTIMATE then 0 else match a_tl a' with Some t => t | None => 0 end).
Proof.
  intros CF D fuel sign flags p own a h a' H E W. destruct (run_inv CF D fuel own a H) as [I _].
  destruct (the_planner_ok e a I) as (a1 & E1 & _ & _ & I1 & _). unfold create in E. cbv zeta in E. rewrite E1 in E. cbn [bind] in E.
  ib E r Er. destruct (fst r) as [x|] eqn:Ex; [|discriminate]. inj E. cbn [a_st a_tl] in *. unfold mkapi_pln in Er. ib Er q Eq. destruct q as [[pln used] s1].
  pose proof (first_plan_safe e fuel (cf_reg e CF) (cf_n e CF) (cf_careful e CF) (cf_est e CF) (a_tl a1) D flags p (a_st a1) I1) as F. rewrite Eq in F. cbn [Safe] in F. destruct F as [I2 _]. cbn [snd fst] in I2.
  ib Er y Ey. ib Er s3 E3. inj Er. cbn [fst snd] in *. destruct pln as [x0|]; [|inj Ey; discriminate].
  ib Ey z Ez. destruct (fst z) as [w|] eqn:Zw; [|discriminate]. ib Ey s4 E4. inj Ey. cbn [fst snd] in *.
  apply api_mkplan_bl in Ez as [N Bz]; auto.
  assert (T : s_hb s3 = s_hb (snd z) /\ s_ws s3 = s_ws (snd z) /\ s_nthr s3 = s_nthr (snd z)).
  { unfold forget in E3. ib E3 xx Exx. ib E3 yy Eyy. inj E3. cbn [s_hb s_ws s_nthr set_tabs]. unfold destroy in E4. ib E4 l El. inj E4. auto. }
  destruct T as (T1 & T2 & T3). rewrite T1, T3, N in *. destruct Bz as (c & C1 & C2 & C3); [congruence|congruence|]. exists used, c.
  split; [|auto]. unfold first_plan in Eq. destruct (flagset flags FFTW_WISDOM_ONLY).
  - ib Eq v Ev. inj Eq. reflexivity.
  - apply pat_loop_used in Eq; [|discriminate]. destruct Eq as [[Q _]|Q]; [congruence|exact Q].
Qed.
End Closure.
(** ** concrete cases: three solvers for problems that are natural numbers *)
Module Toy.
Definition leaf (p : nat) : prog nat unit := match p with O => PRet (Some ([], tt, 0, 5, false)) | _ => PRet None end.
Definition step (p : nat) : prog nat unit :=
  match p with O => PRet None | S q => PSub q 0 0 0 (fun o => match o with None => PRet None | Some y => PRet (Some ([y], tt, 0, pest y + 3, false)) end) end.
Definition two (p : nat) : prog nat unit :=
  match p with S (S q) => PSub q 0 0 0 (fun o => match o with None => PRet None | Some y => PRet (Some ([y], tt, 0, pest y + 4, false)) end) | _ => PRet None end.
Definition tbl : list (list Z * list (nat * (nat -> prog nat unit))) := [([97; 98], [(0%nat, leaf); (0%nat, step)]); ([99], [(0%nat, two)])].
Definition toy : env nat unit := mkenv (fun _ => 0%nat) (fun n p => mksig n (Z.of_nat p) 0 0) (solvtab_exec tbl no_solvers) false (fun _ => false) (fun n => 40 - Z.of_nat n) false.
Lemma toy_configured : configured toy.
Proof.
  split; [exists tbl; reflexivity|]. split; [cbn; lia|]. intros n d H p.
  destruct n as [|[|[|n]]]; cbn in H; [| | |destruct n; discriminate]; inj H; cbn [sd_prog].
  - destruct p; cbn; split; auto; try constructor. constructor.
  - destruct p as [|p]; cbn; split; auto; try constructor; intros; auto; repeat constructor. destruct o; exact Logic.I.
  - destruct p as [|[|p]]; cbn; split; auto; try constructor; intros; auto; repeat constructor. destruct o; exact Logic.I.
Qed.
Definition st0 : st := match mkplanner blank with Ret s => s | _ => blank end.
Definition res {A} (d : A) (m : out A) : A := match m with Ret a => a | _ => d end.
Definition ask (flags : Z) (s : st) : st := set_ws (set_nthr (set_flags s (mkfl (PLNR_L flags) (PLNR_U flags) 0 false)) 1) WISDOM_NORMAL.
Definition isret {A} (m : out A) : bool := match m with Ret _ => true | _ => false end.
Lemma isret_res {A} (d : A) m : isret m = true -> m = Ret (res d m).
Proof. destruct m; cbn; congruence. Qed.
Lemma res_pair {A C} (d : A * C) m h : isret m = true -> fst (res d m) = h -> m = Ret (h, snd (res d m)).
Proof. destruct m as [[x y]| |]; cbn; intros; congruence. Qed.
Lemma st0_reachable : Reachable toy st0.
Proof. apply rc_new. apply (isret_res blank). vm_compute. reflexivity. Qed.
(** C10, C11, C18, C19: planning problem 3 patiently from scratch *)
Definition r1 := res (None, blank) (mkplan toy 10 3%nat (ask FFTW_PATIENT st0)).
Example plan3 : mkplan toy 10 3%nat (ask FFTW_PATIENT st0) = Ret r1 /\ option_map ids (fst r1) = Some [8; 7; 6; 5]%nat /\ s_ws (snd r1) = WISDOM_NORMAL /\
  rev (filter (at_depth 0) (s_tr (snd r1))) =
   [ESearch 0; ETry 0 69704 2 (Some 2%nat); ETry 0 69704 1 (Some 8%nat); ECost 0 2 38; ECost 0 8 37; ETry 0 69704 0 None].
Proof. split; [apply isret_res; vm_compute; reflexivity|]. vm_compute. auto. Qed.
Example plan3_hyps : Reachable toy st0 /\ unknown st0 (e_sig toy 1 3%nat) (request (ask FFTW_PATIENT st0)) /\ subset (PLNR_L FFTW_PATIENT) (PLNR_U FFTW_PATIENT).
Proof.
  split; [exact st0_reachable|]. split; [|apply LU]. assert (E : records (s_hb st0) = [] /\ records (s_hu st0) = []) by (vm_compute; auto). destruct E as [E1 E2].
  intros r. rewrite E1, E2. intros [[]|[]].
Qed.
(** replanning it *)
Definition r2 := res (None, blank) (mkplan toy 10 3%nat (snd r1)).
Example replan3 : mkplan toy 10 3%nat (snd r1) = Ret r2 /\ option_map ids (fst r2) = Some [12; 11; 10; 9]%nat /\ length (s_tr (snd r2)) = length (s_tr (snd r1)).
Proof. split; [apply isret_res; vm_compute; reflexivity|]. vm_compute. auto. Qed.
(** a property that the three solvers preserve *)
Example toy_preserves : forall n d, nth_error (rg_descs (e_reg toy)) n = Some d -> forall p, sd_kind d = e_kind toy p ->
  preserves (fun p x => 5 + 2 * Z.of_nat p <= pest x) p (sd_prog d p).
Proof.
  intros n d H p _. destruct n as [|[|[|n]]]; cbn in H; [| | |destruct n; discriminate]; inj H; cbn [sd_prog].
  - destruct p; cbn; [intros; lia|exact Logic.I].
  - destruct p as [|p]; [exact Logic.I|]. cbn [step preserves]. split; [exact Logic.I|]. intros y Hy. cbn [preserves pest]. intros. lia.
  - destruct p as [|[|p]]; [exact Logic.I|exact Logic.I|]. cbn [two preserves]. split; [exact Logic.I|]. intros y Hy. cbn [preserves pest]. intros. lia.
Qed.
(** C37, C17, C43: create, copy, destroy, destroy; with wisdom only; estimating *)
Definition a1 := res (None, boot) (create toy 10 (-1) FFTW_PATIENT 4%nat boot).
Definition a2 := res boot (copy_plan (Some 0%nat) (snd a1)).
Definition a3 := res boot (destroy_plan (Some 0%nat) a2).
Definition a4 := res boot (destroy_plan (Some 0%nat) a3).
Definition a5 := res (None, boot) (create toy 10 (-1) (FFTW_PATIENT + FFTW_WISDOM_ONLY) 3%nat a4).
Definition a6 := res (None, boot) (create toy 10 (-1) (FFTW_PATIENT + FFTW_WISDOM_ONLY) 7%nat (snd a5)).
Definition a7 := res (None, boot) (create toy 10 (-1) FFTW_ESTIMATE 9%nat (snd a6)).
Definition a8 := cleanup (snd a7).
Example run_toy : Run toy 10 [2; 1]%nat a8.
Proof.
  apply run_cleanup.
  assert (E1 : create toy 10 (-1) FFTW_PATIENT 4%nat boot = Ret (Some 0%nat, snd a1)) by (unfold a1; apply (res_pair (None, boot)); vm_compute; reflexivity).
  assert (R1 : Run toy 10 [0%nat] (snd a1)) by (eapply run_create; [constructor|exact E1]).
  assert (R2 : Run toy 10 [0; 0]%nat a2) by (unfold a2; eapply run_copy; [exact R1|now left|apply isret_res; vm_compute; reflexivity]).
  assert (R3 : Run toy 10 [0]%nat a3) by (unfold a3; eapply run_destroy; [exact R2|reflexivity|apply isret_res; vm_compute; reflexivity]).
  assert (R4 : Run toy 10 [] a4) by (unfold a4; eapply run_destroy; [exact R3|reflexivity|apply isret_res; vm_compute; reflexivity]).
  assert (E5 : create toy 10 (-1) (FFTW_PATIENT + FFTW_WISDOM_ONLY) 3%nat a4 = Ret (Some 1%nat, snd a5)) by (unfold a5; apply (res_pair (None, boot)); vm_compute; reflexivity).
  assert (R5 : Run toy 10 [1%nat] (snd a5)) by (eapply run_create; [exact R4|exact E5]).
  assert (E6 : create toy 10 (-1) (FFTW_PATIENT + FFTW_WISDOM_ONLY) 7%nat (snd a5) = Ret (None, snd a6)) by (unfold a6; apply (res_pair (None, boot)); vm_compute; reflexivity).
  assert (R6 : Run toy 10 [1%nat] (snd a6)) by (eapply run_create_null; [exact R5|exact E6]).
  assert (E7 : create toy 10 (-1) FFTW_ESTIMATE 9%nat (snd a6) = Ret (Some 2%nat, snd a7)) by (unfold a7; apply (res_pair (None, boot)); vm_compute; reflexivity).
  eapply run_create; [exact R6|exact E7].
Qed.
Example run_toy_facts : s_live (a_st a4) = [] /\ a_probs a4 = [] /\ length (s_live (a_st a8)) = 10%nat /\ (s_nmeas (a_st (snd a1)) = 6)%nat /\
  s_nmeas (a_st (snd a7)) = s_nmeas (a_st (snd a1)) /\ word32 FFTW_PATIENT /\ word32 FFTW_ESTIMATE.
Proof. vm_compute. repeat split; discriminate. Qed.
(** C11_created_is_blessed: after the first creation of the run above *)
Example created_hyps : create toy 10 (-1) FFTW_PATIENT 4%nat boot = Ret (Some 0%nat, snd a1) /\ s_ws (a_st (snd a1)) = WISDOM_NORMAL /\ e_debug toy = false.
Proof. split; [unfold a1; apply (res_pair (None, boot)); vm_compute; reflexivity|]. vm_compute. auto. Qed.
End Toy.

Print Assumptions C10_plan_built.
Print Assumptions C10_created_plan_built.
Print Assumptions C10_wisdom_cannot_break.
Print Assumptions C11_remembered.
Print Assumptions C11_infeasible.
Print Assumptions C11_created_is_blessed.
Print Assumptions C13_forget_wisdom.
Print Assumptions C13_forget_accursed.
Print Assumptions C13_creation_drops_accursed.
Print Assumptions C17_wisdom_only.
Print Assumptions C17_create.
Print Assumptions C18_scoped.
Print Assumptions C18_timelimit.
Print Assumptions C19_no_leak.
Print Assumptions C19_search_minimal.
Print Assumptions C19_search_or_wisdom.
Print Assumptions C37_exactly_owned.
Print Assumptions C37_no_undefined_behaviour.
Print Assumptions C37_plans_stay.
Print Assumptions C37_cleanup.
Print Assumptions C43_estimate_planner.
Print Assumptions C43_estimate.
