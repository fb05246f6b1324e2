(** * Moving wisdom between planners: properties C14, C15, C16 *)
From Coq Require Import String ZArith List Lia Bool Permutation.
From Verif Require Import Base SpecWisdom SpecMd5 HashModel HashProofs Md5Model TextModel PropText PropMd5 PropWisdom FlagsModel PlannerModel SpecPlanner PlannerScope PlannerSafe ApiPlanModel
  ApiPlanProofs SpecImport SpecApiPlan ImportModel ImportScan ImportProofs ImportRound ImportMerge ImportTheory ImportHead PropPlanner.
Import ListNotations.
Open Scope Z_scope.

Section Props.
Context {P B : Type}.
Notation registry := (registry P B).
Notation table := (list (list Z * list (nat * (P -> prog P B)))).

(** ** C14: a failed import changes nothing *)
(** whatever the text, the solvers and the state: an import that returns 0 leaves
    the planner exactly as it was *)
Theorem C14_failure_no_effect : forall junk (rg : registry) s txt rest s',
  imprt junk rg s txt = Ret (Some false, rest, s') -> s' = s.
Proof. intros junk rg s txt rest s' H. exact (proj2 (imprt_ret _ _ _ _ _ _ _ H) eq_refl). Qed.
(** an import that succeeds only touches the exportable wisdom *)
Theorem C14_only_exportable : forall junk (rg : registry) s txt b rest s',
  imprt junk rg s txt = Ret (b, rest, s') -> s' = set_tabs s (s_hb s') (s_hu s).
Proof. intros junk rg s txt b rest s' H. exact (proj1 (imprt_ret _ _ _ _ _ _ _ H)). Qed.
(** import of any text ends (there is memory for 2^30 records), and it is never
    undefined unless the text contains a word of more than 15 letters and digits;
    the planner is in a good state afterwards *)
Theorem C14_terminates : forall (e : env P B) junk s txt, configured e -> e_debug e = false -> Reachable e s ->
  Z.of_nat (length (records (s_hb s))) + Z.of_nat (length txt) < 2 ^ 30 ->
  (exists b rest s', imprt junk (e_reg e) s txt = Ret (Some b, rest, s') /\ Reachable e s') \/
  (exists rest s', imprt junk (e_reg e) s txt = Ret (None, rest, s')) \/
  (imprt junk (e_reg e) s txt = UB /\ ~ no_long_words txt).
Proof.
  intros e junk s txt CF HD R Hn. pose proof (reachable_inv e s CF R) as I. pose proof (proj1 (proj1 (proj2 I))) as W. rewrite <- (wf_nelem _ W) in Hn.
  pose proof (imprt_fine e (cf_n e CF) HD junk s txt I Hn) as F. unfold fine in F.
  destruct (imprt junk (e_reg e) s txt) as [[[[b|] rest] s']| |] eqn:E.
  - left. exists b, rest, s'. split; auto. eapply rc_import; eauto.
  - right; left. eauto.
  - right; right. split; auto. intros Q. apply F. now apply long_words_short.
  - destruct F.
Qed.
(** through the API: a failed import leaves the plans, the time limit and the
    planner (created if there was none) as they were *)
Theorem C14_api : forall (e : env P B) junk txt a a', import_wisdom e junk txt a = Ret (Some false, a') ->
  exists a1, the_planner a = Ret a1 /\ a_st a' = a_st a1 /\ a_tl a' = a_tl a1 /\ a_plans a' = a_plans a1 /\ a_probs a' = a_probs a1.
Proof.
  intros e junk txt a a' H. unfold import_wisdom in H. ib H a1 E1. ib H r E. destruct r as [[b rest] s']. inj H. cbn [fst snd] in *.
  exists a1. split; auto. split; [eapply C14_failure_no_effect; eauto|]. auto.
Qed.
(** the result [None] (the library aborts the program) needs flags that do not
    fit their fields: C14_abort_possible below shows such a text. *)

(** ** C15: export and import *)
Section Round.
Variable tbl : table.
Hypothesis HT : usable tbl.
Variables e e' : env P B.
Hypothesis HR : e_reg e = solvtab_exec tbl no_solvers.
Hypothesis HR' : e_reg e' = solvtab_exec tbl no_solvers.
Hypothesis CF : configured e.
Hypothesis CF' : configured e'.
Hypothesis HD' : e_debug e' = false.
Lemma inv_names s r : Inv e s -> In r (records (s_hb s)) -> names_solver (Z.of_nat (length (flat_map snd tbl))) r.
Proof.
  intros (_ & [_ T] & _) Hr. destruct (T r Hr) as [[Q|Q] _]; [now left|right]. unfold nslv in Q. rewrite HR, exec_length in Q. exact Q.
Qed.
(** the text of one planner, imported by another one with the same solvers (on
    another machine, after a restart): import succeeds, reads exactly the text, and
    - every record now known was known, or was in the text;
    - if the two planners do not contradict each other, exactly the requests are
      answered that one of them could answer, and in the same way *)
Theorem C15_merge : forall junk s, Reachable e s -> Forall representable (records (s_hb s)) ->
  exists text, exprt junk (e_reg e) s = Ret text /\
  forall junk' s' rest, Reachable e' s' -> Z.of_nat (length (records (s_hb s'))) + Z.of_nat (length (records (s_hb s))) < 2 ^ 30 ->
  exists s'', imprt junk' (e_reg e') s' (text ++ rest) = Ret (Some true, 10 :: rest, s'') /\ Reachable e' s'' /\
    s'' = set_tabs s' (s_hb s'') (s_hu s') /\
    (forall r, In r (records (s_hb s'')) -> In r (records (s_hb s')) \/ In r (records (s_hb s))) /\
    (consistent (records (s_hu s') ++ records (s_hb s') ++ records (s_hb s)) -> forall k l u tl,
       (plan_known (records (s_hu s'') ++ records (s_hb s'')) k l u tl <-> plan_known (records (s_hu s') ++ records (s_hb s') ++ records (s_hb s)) k l u tl) /\
       (failure_known (records (s_hu s'') ++ records (s_hb s'')) k l u tl <-> failure_known (records (s_hu s') ++ records (s_hb s') ++ records (s_hb s)) k l u tl)).
Proof.
  intros junk s R F. pose proof (reachable_inv e s CF R) as I. pose proof (proj1 (proj1 (proj2 I))) as W. rewrite Forall_forall in F.
  destruct (export_import tbl HT junk s W) as (text & Et & Ht). { intros r Hr. split; [auto|]. eapply inv_names; eauto. }
  exists text. rewrite HR. split; [exact Et|]. intros junk' s' rest R' Hn. pose proof (reachable_inv e' s' CF' R') as I'. destruct I' as (_ & [W1 _] & [W2 _] & _).
  destruct (Ht junk' s' rest W1 W2) as (s'' & E & S & W3 & St). { rewrite (wf_nelem _ W1). exact Hn. }
  exists s''. rewrite HR'. split; [exact E|]. split; [eapply rc_import; [exact R'|exact HD'|rewrite HR'; exact E]|]. split; [exact S|].
  split; [eapply Steps_sub; exact St|]. intros C k l u tl. replace (s_hu s'') with (s_hu s') by (rewrite S; reflexivity).
  assert (Sub : forall r, In r (records (s_hu s') ++ records (s_hb s'')) -> In r (records (s_hu s') ++ records (s_hb s') ++ records (s_hb s))).
  { intros r Hr. apply in_app_or in Hr. apply in_or_app. destruct Hr as [Hr|Hr]; [now left|right]. apply in_or_app. eapply Steps_sub; [exact St|exact Hr]. }
  pose proof (Steps_cover _ _ _ _ C St) as Cov. split; split.
  - intros (r & Hr & Hk). exists r. split; [auto|exact Hk].
  - intros (r & Hr & Hk & Nf & L). destruct (Cov r Hr) as (q & Hq & SSq). exists q. split; auto. split; [destruct SSq as [[K _] _]; congruence|]. split; [destruct SSq as [_ Q]; tauto|]. eapply licenses_SS; eauto.
  - intros (r & Hr & Hk). exists r. split; [auto|exact Hk].
  - intros (r & Hr & Hk & Nf & L). destruct (Cov r Hr) as (q & Hq & SSq). exists q. split; auto. split; [destruct SSq as [[K _] _]; congruence|]. split; [destruct SSq as [_ Q]; tauto|]. eapply licenses_SS; eauto.
Qed.
(** into a planner without wisdom: exactly the exported records, if none of them
    makes another superfluous; in any case the result has that property, so
    exporting and importing it once more is exact *)
Theorem C15_exact : forall junk s, Reachable e s -> Forall representable (records (s_hb s)) ->
  exists text, exprt junk (e_reg e) s = Ret text /\
  forall junk' s' rest, Reachable e' s' -> records (s_hb s') = [] -> records (s_hu s') = [] -> Z.of_nat (length (records (s_hb s))) < 2 ^ 30 ->
  exists s'', imprt junk' (e_reg e') s' (text ++ rest) = Ret (Some true, 10 :: rest, s'') /\
    (independent (records (s_hb s)) -> Permutation (records (s_hb s'')) (records (s_hb s))) /\
    independent (records (s_hb s'')) /\ Forall representable (records (s_hb s'')) /\ Reachable e' s''.
Proof.
  intros junk s R F. pose proof (reachable_inv e s CF R) as I. pose proof (proj1 (proj1 (proj2 I))) as W. rewrite Forall_forall in F.
  destruct (export_import tbl HT junk s W) as (text & Et & Ht). { intros r Hr. split; [auto|]. eapply inv_names; eauto. }
  exists text. rewrite HR. split; [exact Et|]. intros junk' s' rest R' H0 H1 Hn. pose proof (reachable_inv e' s' CF' R') as I'. destruct I' as (_ & [W1 _] & [W2 _] & _).
  destruct (Ht junk' s' rest W1 W2) as (s'' & E & S & W3 & St). { rewrite (wf_nelem _ W1), H0. exact Hn. }
  exists s''. rewrite HR'. split; [exact E|]. rewrite H0, H1 in St.
  split; [intros Hi; apply (Steps_exact (records (s_hb s)) [] _ Hi St)|].
  split; [eapply Steps_indep; [|exact St]; split; [constructor|intros r r' []]|].
  split; [|eapply rc_import; [exact R'|exact HD'|rewrite HR'; exact E]].
  apply Forall_forall. intros r Hr. destruct (Steps_sub _ _ _ _ St r Hr) as [[]|Q]. auto.
Qed.
End Round.
(** exporting, importing into an empty planner, and doing so again: the second
    time is exact *)
Theorem C15_stable : forall (tbl : table) (e e' e2 : env P B) junk s text junk' s' rest s'' t',
  usable tbl -> e_reg e = solvtab_exec tbl no_solvers -> e_reg e' = solvtab_exec tbl no_solvers -> e_reg e2 = solvtab_exec tbl no_solvers ->
  configured e -> configured e' -> configured e2 -> e_debug e' = false -> e_debug e2 = false ->
  Reachable e s -> Forall representable (records (s_hb s)) -> Z.of_nat (length (records (s_hb s))) < 2 ^ 30 ->
  exprt junk (e_reg e) s = Ret text ->
  Reachable e' s' -> records (s_hb s') = [] -> records (s_hu s') = [] ->
  imprt junk' (e_reg e') s' (text ++ rest) = Ret (Some true, t', s'') ->
  exists text2, exprt junk' (e_reg e') s'' = Ret text2 /\
  forall junk2 s2 rest2, Reachable e2 s2 -> records (s_hb s2) = [] -> records (s_hu s2) = [] ->
  exists s3, imprt junk2 (e_reg e2) s2 (text2 ++ rest2) = Ret (Some true, 10 :: rest2, s3) /\ Permutation (records (s_hb s3)) (records (s_hb s'')).
Proof.
  intros tbl e e' e2 junk s text junk' s' rest s'' t' HT HR HR' HR2 CF CF' CF2 HD' HD2 R F Hn Ex R' H0 H1 Im.
  destruct (C15_exact tbl HT e e' HR HR' CF CF' HD' junk s R F) as (text0 & Ex0 & X). rewrite Ex in Ex0. injection Ex0 as <-.
  destruct (X junk' s' rest R' H0 H1 Hn) as (s0 & Im0 & _ & Ind & Rep & R''). rewrite Im in Im0.
  assert (Es : s0 = s'') by congruence. subst s0. clear Im0 X.
  destruct (C15_exact tbl HT e' e2 HR' HR2 CF' CF2 HD2 junk' s'' R'' Rep) as (text2 & Ex2 & X). exists text2. split; auto.
  intros junk2 s2 rest2 R2 H2 H3. destruct (X junk2 s2 rest2 R2 H2 H3) as (s3 & Im3 & Per & _).
  { destruct (C15_merge tbl HT e e' HR HR' CF CF' HD' junk s R F) as (t0 & Ext & Y). rewrite Ex in Ext. injection Ext as <-.
    destruct (Y junk' s' rest R') as (s4 & Im4 & _ & _ & Sub & _). { rewrite H0. exact Hn. } rewrite Im in Im4. assert (Es : s4 = s'') by congruence. subst s4.
    assert (L : (length (records (s_hb s'')) <= length (records (s_hb s)))%nat).
    { apply NoDup_incl_length; [apply Ind|]. intros r Hr. destruct (Sub r Hr) as [Q|Q]; auto. rewrite H0 in Q. destruct Q. }
    lia. }
  exists s3. split; auto.
Qed.

(** ** C16: only wisdom of the same configuration is accepted *)
(** an accepted text begins with the preamble of this version and the MD5 digest
    of the importing library's configuration *)
Theorem C16_accepted : forall (tbl : table) junk s txt rest s', usable tbl ->
  imprt junk (solvtab_exec tbl no_solvers) s txt = Ret (Some true, rest, s') ->
  headed (md5_words (config_bytes (solver_names tbl))) txt.
Proof.
  intros tbl junk s txt rest s' HT H. unfold imprt in H. ib H r E. destruct r as [[vs|] txt']; [|discriminate].
  destruct (header_shape _ _ _ E) as (x0 & x1 & x2 & x3 & ->). rewrite (signature_ok tbl HT) in H. cbn [bind] in H.
  destruct (md5eq (md5_words (config tbl)) (mksig x0 x1 x2 x3)) eqn:M; cbn [negb] in H; [|discriminate]. clear H. apply md5eq_iff in M.
  apply (header_headed txt _ txt'). unfold config in M. rewrite M. exact E.
Qed.
(** any other text is rejected, without effect; the digits of the header may
    overflow, then the import does not return *)
Theorem C16_rejected : forall (tbl : table) junk s txt b rest s', usable tbl ->
  ~ headed (md5_words (config_bytes (solver_names tbl))) txt ->
  imprt junk (solvtab_exec tbl no_solvers) s txt = Ret (b, rest, s') -> b = Some false /\ s' = s.
Proof.
  intros tbl junk s txt b rest s' HT N H. unfold imprt in H. ib H r E. destruct r as [[vs|] txt'].
  2:{ split; congruence. }
  destruct (header_shape _ _ _ E) as (x0 & x1 & x2 & x3 & ->). rewrite (signature_ok tbl HT) in H. cbn [bind] in H.
  destruct (md5eq (md5_words (config tbl)) (mksig x0 x1 x2 x3)) eqn:M; cbn [negb] in H.
  - exfalso. apply N. apply md5eq_iff in M. apply (header_headed txt _ txt'). unfold config in M. rewrite M. exact E.
  - split; congruence.
Qed.
(** wisdom exported by a library with solvers [tbl1], accepted by a library with
    solvers [tbl2]: the same solvers, or a collision of MD5 *)
Theorem C16_other_configuration : forall (tbl1 tbl2 : table) junk1 junk2 s1 s2 text more rest s', usable tbl1 -> usable tbl2 ->
  exprt junk1 (solvtab_exec tbl1 no_solvers) s1 = Ret text ->
  imprt junk2 (solvtab_exec tbl2 no_solvers) s2 (text ++ more) = Ret (Some true, rest, s') ->
  solver_names tbl1 = solver_names tbl2 \/
  (config_bytes (solver_names tbl1) <> config_bytes (solver_names tbl2) /\
   md5_words (config_bytes (solver_names tbl1)) = md5_words (config_bytes (solver_names tbl2))).
Proof.
  intros tbl1 tbl2 junk1 junk2 z1 z2 text more rest s' HT1 HT2 Ex Im.
  assert (D : md5_words (config_bytes (solver_names tbl1)) = md5_words (config_bytes (solver_names tbl2))).
  { unfold exprt in Ex. rewrite (signature_ok tbl1 HT1) in Ex. cbn [bind] in Ex.
    destruct (header_round (s0 (md5_words (config tbl1))) (s1 (md5_words (config tbl1))) (s2 (md5_words (config tbl1))) (s3 (md5_words (config tbl1)))) as (t1 & Et1 & Ht1);
      [exact (MD5_range (config tbl1) 0 ltac:(lia))|exact (MD5_range (config tbl1) 1 ltac:(lia))|exact (MD5_range (config tbl1) 2 ltac:(lia))|exact (MD5_range (config tbl1) 3 ltac:(lia))|].
    rewrite Et1 in Ex. cbn [bind] in Ex. ib Ex t2 E2. ib Ex t3 E3. injection Ex as <-.
    unfold imprt in Im. rewrite <- !app_assoc in Im. destruct (Ht1 (t2 ++ t3 ++ more)) as [_ Hs]. unfold scan in Im. rewrite (Hs []) in Im. cbn [bind app] in Im.
    rewrite (signature_ok tbl2 HT2) in Im. cbn [bind] in Im.
    destruct (md5eq (md5_words (config tbl2)) _) eqn:M in Im; cbn [negb] in Im; [|discriminate]. apply md5eq_iff in M. unfold config in M. symmetry. exact M. }
  destruct (list_eq_dec Z.eq_dec (config_bytes (solver_names tbl1)) (config_bytes (solver_names tbl2))) as [E|E]; [left|right; auto].
  assert (Q : forall tbl : table, usable tbl -> forall x, In x (solver_names tbl) -> Forall nice (fst x) /\ 0 <= snd x < 2 ^ 32).
  { intros tbl (_ & T2 & T3) [a i] Hx. apply names_in in Hx as (y & Hy & -> & Hi). cbn [fst snd]. split; [apply (T2 y Hy)|]. lia. }
  apply config_inj; [apply Q; assumption|apply Q; assumption|exact E].
Qed.
End Props.

(** ** examples *)
Module Ex.
Import Toy.
Definition junk (i : Z) : Z := 0.
Definition bless_ask (s : st) : st := set_ws (set_nthr (set_flags s (mkfl (PLNR_L FFTW_PATIENT) (PLNR_U FFTW_PATIENT) 0 true)) 1) WISDOM_NORMAL.
Definition src := snd (res (None, blank) (mkplan toy 10 3%nat (bless_ask st0))).
Definition text := res [] (exprt junk (e_reg toy) src).
Definition got := res (None, [], blank) (imprt junk (e_reg toy) st0 (text ++ cs "tail")).
Lemma src_reachable : Reachable toy src.
Proof.
  assert (E : mkplan toy 10 3%nat (bless_ask st0) = Ret (fst (res (None, blank) (mkplan toy 10 3%nat (bless_ask st0))), src)).
  { unfold src. rewrite <- surjective_pairing. apply isret_res. vm_compute. reflexivity. }
  refine (rc_plan toy st0 _ _ _ _ _ _ _ st0_reachable _ _ E); [apply ApiPlanProofs.LU|discriminate].
Qed.
Example toy_usable : usable tbl.
Proof.
  split; [|split].
  - repeat constructor; cbn; intuition discriminate.
  - intros x [<-|[<-|[]]]; cbn [fst]; (split; [repeat constructor; discriminate|]); (split; [cbn; lia|discriminate]).
  - cbn. lia.
Qed.
(** the hypotheses of C15 are met by a planner that has planned, and a fresh one;
    the text of a round trip *)
Example src_records : Forall representable (records (s_hb src)) /\ length (records (s_hb src)) = 4%nat /\ length (records (s_hb (snd got))) = 4%nat /\
  fst got = (Some true, 10 :: cs "tail") /\ records (s_hb st0) = [] /\ records (s_hu st0) = [] /\
  firstn 150 text = cs "(fftw-3.3.11 fftw_wisdom #xda2145ca #x78dd8390 #x1b2d64a1 #xb929952d" ++ [10] ++ firstn 81 (skipn 69 text).
Proof.
  split; [|vm_compute; repeat split].
  assert (E : map (fun r => (s0 (rkey r), s1 (rkey r), s2 (rkey r), s3 (rkey r), rl r, ru r, rtl r)) (records (s_hb src)) =
     map (fun i => (1, i, 0, 0, 69704, 69704, 0)) [3; 1; 0; 2]) by (vm_compute; reflexivity).
  apply Forall_forall. intros r Hr. apply (in_map (fun r => (s0 (rkey r), s1 (rkey r), s2 (rkey r), s3 (rkey r), rl r, ru r, rtl r))) in Hr. rewrite E in Hr.
  assert (B : forall i, 0 <= i < 4 -> (s0 (rkey r), s1 (rkey r), s2 (rkey r), s3 (rkey r), rl r, ru r, rtl r) = (1, i, 0, 0, 69704, 69704, 0) -> representable r).
  { intros i Hi Q. injection Q as Q0 Q1 Q2 Q3 Q4 Q5 Q6. unfold representable. rewrite Q0, Q1, Q2, Q3, Q4, Q5, Q6. lia. }
  destruct Hr as [Q|[Q|[Q|[Q|[]]]]]; symmetry in Q; eapply B; try exact Q; lia.
Qed.
(** failures: the empty text, a truncated text, an unknown solver in the last line, a wrong digest *)
Definition outcome (t : list Z) : option (option bool * nat) := match imprt junk (e_reg toy) src t with Ret (b, _, s) => Some (b, length (records (s_hb s))) | _ => None end.
Definition head : list Z := firstn 69 text.
Example failures : outcome [] = Some (Some false, 4%nat) /\ outcome (firstn 140 text) = Some (Some false, 4%nat) /\
  outcome (head ++ cs "(ab 1 #x0 #x0 #x0 #x9 #x0 #x0 #x0)(zz 0 #x0 #x0 #x0 #x8 #x0 #x0 #x0))") = Some (Some false, 4%nat) /\
  outcome (head ++ cs "(ab 1 #x0 #x0 #x0 #x9 #x0 #x0 #x0)(c 0 #x0 #x0 #x0 #x8 #x0 #x0 #x0))") = Some (Some true, 6%nat) /\
  outcome (cs "(fftw-3.3.11 fftw_wisdom #xda2145ca #x78dd8390 #x1b2d64a1 #xb929952e)") = Some (Some false, 4%nat).
Proof. vm_compute. repeat split. Qed.
(** the two ways in which a text can end the program: a flag word of 21 bits
    (the CK() at kernel/planner.c:890-893), and a number that overflows a long *)
Example C14_abort_possible : outcome (head ++ cs "(ab 1 #x100000 #x0 #x0 #x9 #x0 #x0 #x0))") = Some (None, 4%nat).
Proof. vm_compute. reflexivity. Qed.
Example C14_overflow_possible : imprt junk (e_reg toy) src (cs "(fftw-3.3.11 fftw_wisdom #x8000000000000000 #x0 #x0 #x0)") = UB.
Proof. vm_compute. reflexivity. Qed.
(** exactness of C15 needs independence: of two records, one superfluous, one survives *)
Definition two_recs : list record := [mkrec (mksig 1 2 3 4) 3 0 0 1; mkrec (mksig 1 2 3 4) 1 0 0 2].
Example not_independent : ~ independent two_recs.
Proof.
  intros [_ H]. assert (Q : mkrec (mksig 1 2 3 4) 3 0 0 1 = mkrec (mksig 1 2 3 4) 1 0 0 2).
  { apply H; [now left|right; now left|]. split; [reflexivity|]. left. split; [discriminate|]. split; [intros i; cbn; auto|].
    intros i. cbn [rl]. destruct i as [|p|p]; [reflexivity| |discriminate]. destruct p; discriminate. }
  discriminate.
Qed.
(** C16: two configurations with different solvers *)
Definition tbl2 : list (list Z * list (nat * (nat -> prog nat unit))) := [([97; 98], [(0%nat, leaf)]); ([99], [(0%nat, step); (0%nat, two)])].
Example other_config : solver_names tbl <> solver_names tbl2 /\ config_bytes (solver_names tbl) <> config_bytes (solver_names tbl2) /\
  match imprt junk (solvtab_exec tbl2 no_solvers) st0 text with Ret (b, _, _) => b = Some false | _ => False end.
Proof. vm_compute. repeat split; discriminate. Qed.
End Ex.
Print Assumptions C14_failure_no_effect.
Print Assumptions C14_only_exportable.
Print Assumptions C14_terminates.
Print Assumptions C14_api.
Print Assumptions C15_merge.
Print Assumptions C15_exact.
Print Assumptions C15_stable.
Print Assumptions C16_accepted.
Print Assumptions C16_rejected.
Print Assumptions C16_other_configuration.
