(** * Planner: what has been planned is remembered *)
From Coq Require Import ZArith List Lia Bool Permutation.
From Verif Require Import Base SpecWisdom HashModel HashProofs FlagsModel PlannerModel SpecPlanner PlannerScope PlannerTrace PlannerBuilt PlannerSafe PlannerMin.
Import ListNotations.
Open Scope Z_scope.

Section S.
Context {P B : Type}.
Variable e : env P B.
Notation plan := (plan B).
Hypothesis HReg : reg_ok (e_reg e).
Hypothesis HN : nslv e <= 4095.
Hypothesis HC : forall n d, nth_error (rg_descs (e_reg e)) n = Some d -> forall p, careful [] (sd_prog d p).
Hypothesis HE : forall n d, nth_error (rg_descs (e_reg e)) n = Some d -> forall p, never_clears ESTIMATE (sd_prog d p).

Lemma insert_hit ht k f n ht' g : WF ht -> 0 <= n < 2 ^ 12 -> insert_guarded ht k f n = Ret ht' -> subsumes f n g = true ->
  exists r, htab_lookup ht' k g = Ret (Some r).
Proof.
  intros W Hn H Hs. unfold insert_guarded in H. destruct (Z.ltb_spec (nelem ht) (2 ^ 30)); [|discriminate].
  destruct (htab_insert_ok ht k f n W H0 Hn) as (h & E & W' & Q). rewrite E in H. inj H.
  destruct (htab_lookup_ok ht' k g W') as (r & Er & Hr). rewrite Er. destruct r as [r|]; [eauto|]. exfalso.
  assert (Hi : In (mkrec k (fl f) (fu f) (ftl f) n) (records ht')) by (eapply Permutation_in; [symmetry; exact Q|now left]).
  apply Hr in Hi. unfold matches in Hi. cbn in Hi. apply andb_false_iff in Hi as [Hi|Hi].
  - assert (md5eq k k = true) by now apply md5eq_iff. congruence.
  - unfold subsumes, rflags in *. cbn in *. congruence.
Qed.
Lemma hinsert_hit s k f n s' g : tab_ok e (s_hb s) -> tab_ok e (s_hu s) -> 0 <= n < 2 ^ 12 -> hinsert s k f n = Ret s' -> subsumes f n g = true ->
  exists sol, hlookup s' k g = Ret (Some sol).
Proof.
  intros T1 T2 Hn H Hs. unfold hinsert in H. destruct (fbless f); ib H ht Eh; inj H; unfold hlookup; cbn [s_hb s_hu set_tabs].
  - destruct (insert_hit _ _ _ _ _ g (proj1 T1) Hn Eh Hs) as ([g' l] & ->). cbn [bind]. eauto.
  - destruct (htab_lookup_ok (s_hb s) k g (proj1 T1)) as (r & -> & _). cbn [bind]. destruct r as [[g1 l1]|]; [eauto|].
    destruct (insert_hit _ _ _ _ _ g (proj1 T2) Hn Eh Hs) as ([g' l] & ->). cbn [bind]. eauto.
Qed.
Lemma hlookup_tabs s t k g : s_hb t = s_hb s -> s_hu t = s_hu s -> hlookup t k g = hlookup s k g.
Proof. unfold hlookup. now intros -> ->. Qed.
Section R.
Variable rec : P -> st -> out (option plan * st).
Hypothesis HS : forall p s r s', rec p s = Ret (r, s') -> Scoped s s' r.
Hypothesis HRec : forall p s, Pre e s -> Safe (rec p s) (Post e (s_live s) s).
Hypothesis HD : e_timelimit e = false -> forall p s r s', rec p s = Ret (r, s') -> Deep (s_depth s) s s'.

Definition fflags (f : flags_t) (l : Z) : flags_t := mkfl l (fu f) (ftl f) (fbless f).
Lemma relax_flags p l tab : forall x f s b last f' s', fl f = x -> relax_loop e rec tab p l x x f s = Ret (b, last, f', s') ->
  (subset l x -> subset l last) /\ f' = fflags f last.
Proof.
  induction tab as [|m tab IH]; intros x f s b last f' s' Hx H; cbn [relax_loop] in H.
  - inj H. split; auto. unfold fflags. destruct f'; reflexivity.
  - cbv zeta in H. set (x' := if LEQ l (Z.ldiff x m) then _ else _) in *.
    assert (X : subset l x -> subset l x').
    { unfold x'. destruct (LEQ l (Z.ldiff x m)) eqn:Q; [apply LEQ_sub in Q|]; auto. }
    clearbody x'. destruct (Z.eqb_spec x' x) as [E|E]; cbn [negb] in H.
    + rewrite E in H. eapply IH in H; auto.
    + ib H q Eq. destruct q as [[q|] s1].
      * inj H. split; [auto|reflexivity].
      * eapply IH in H; [|reflexivity]. destruct H as [H ->]. split; [auto|reflexivity].
Qed.
Lemma search_flags p s b f' s' : search e rec p (s_flags s) s = Ret (b, f', s') -> subset (fl (s_flags s)) (fu (s_flags s)) ->
  exists l', f' = fflags (s_flags s) l' /\ subset (fl (s_flags s)) l' /\ (b = None -> l' = fl (s_flags s)).
Proof.
  unfold search. cbv zeta. intros H L. set (s0 := emit s _) in *. clearbody s0. set (l := fl (s_flags s)) in *. set (u := fu (s_flags s)) in *.
  ib H q Eq. unfold relax_tab in Eq.
  assert (E1 : forall f tab, relax_loop e rec (0 :: tab) p l u (2 ^ 32 - 1 - u) f s0 =
     (q <- search0 e rec p (with_l f u) s0;; match q with (Some b, s1) => Ret (Some b, u, with_l f u, s1) | (None, s1) => relax_loop e rec tab p l u u (with_l f u) s1 end)).
  { intros f tab. cbn [relax_loop]. cbv zeta. rewrite Z.ldiff_0_r. replace (if LEQ l u then u else u) with u by (destruct (LEQ l u); reflexivity).
    destruct (Z.eqb_spec u (2 ^ 32 - 1 - u)); [lia|reflexivity]. }
  rewrite E1 in Eq. clear E1. ib Eq q1 Eq1. destruct q1 as [q1 s1].
  assert (R : let '(b, last', f', s') := q in subset l last' /\ f' = fflags (s_flags s) last').
  { destruct q1 as [x|].
    - inj Eq. split; [exact L|reflexivity].
    - destruct q as [[[b1 last'] f1] s2]. apply relax_flags in Eq as [Q1 ->]; [|reflexivity]. split; [auto|reflexivity]. }
  destruct q as [[[b1 last'] f1] s2]. destruct R as [R1 R2]. destruct b1 as [b1|].
  - inj H. exists last'. split; auto. split; auto. discriminate.
  - destruct (Z.eqb_spec l last') as [E|E]; cbn [negb] in H.
    + inj H. exists l. split; auto.
    + ib H q2 Eq2. inj H. exists l. split; [reflexivity|]. split; [apply subset_refl|auto].
Qed.
Definition reqflags (s : st) : flags_t := mkfl (fl (s_flags s)) (fu (s_flags s)) (if ESTIMATEP s then 0 else ftl (s_flags s)) (fbless (s_flags s)).
Definition tl_ok (s : st) : Prop := 0 <= ftl (s_flags s).
Lemma body_remembers p s r s' : Pre e s -> tl_ok s -> subset (fl (s_flags s)) (fu (s_flags s)) -> s_ws s = WISDOM_NORMAL ->
  mkplan_body e rec p s = Ret (r, s') -> s_ws s' = WISDOM_NORMAL -> (r <> None \/ e_timelimit e = false) ->
  exists sol, hlookup s' (e_sig e (s_nthr s) p) (reqflags s) = Ret (Some sol).
Proof.
  intros [I D] TL L W0 H W' NT. unfold mkplan_body in H. ib H u Eu. cbv zeta in H. set (s1 := if ESTIMATEP s then _ else s) in *.
  assert (Fl : s_flags s1 = reqflags s).
  { unfold s1, reqflags. destruct (ESTIMATEP s); [reflexivity|]. destruct (s_flags s); reflexivity. }
  assert (Ft : Inv e s1 /\ s_ws s1 = s_ws s /\ s_nthr s1 = s_nthr s).
  { unfold s1. destruct (ESTIMATEP s); auto. }
  clearbody s1. destruct Ft as (I1 & F2 & F5). rewrite W0 in F2.
  destruct (bogus s1) eqn:Bg. { unfold bogus in Bg. rewrite F2 in Bg. discriminate. }
  set (s2 := set_timeout s1 false (s_ntc s1)) in *.
  assert (I2 : Inv e s2) by (destruct I1 as (A1 & A2 & A3 & A4); split; [exact A1|]; split; [exact A2|]; split; [exact A3|discriminate]).
  assert (G : s_flags s2 = reqflags s /\ s_ws s2 = WISDOM_NORMAL /\ s_nthr s2 = s_nthr s /\ s_timed_out s2 = false) by auto.
  clearbody s2. clear I1 F2 F5 Fl Bg s1. destruct G as (G1 & G2 & G3 & G4). rewrite G3 in H. set (k := e_sig e (s_nthr s) p) in *. clearbody k.
  assert (D2 : Pre e s2) by (split; auto; rewrite G1; exact D).
  assert (TL2 : 0 <= ftl (reqflags s)) by (cbn; destruct (ESTIMATEP s); [lia|exact TL]).
  set (g := reqflags s) in *.
  assert (DS : forall z, do_search e rec p k s2 = Ret (r, z) -> s_ws z = WISDOM_NORMAL -> exists sol, hlookup z k g = Ret (Some sol)).
  { intros z Hz Wz. unfold do_search in Hz. rewrite G2 in Hz. cbn [ws_eqb] in Hz. ib Hz q Eq. destruct q as [[b f] s3].
    pose proof (search_safe e HReg HC HE rec HS HRec p s2 D2 G4) as SS. rewrite Eq in SS. cbn [Safe] in SS. destruct SS as ((I3 & P3 & N3 & T3 & E3) & _).
    pose proof (fun ht => search_min e HReg ht rec HS (HD ht) p s2 _ Eq G4) as SM. cbv zeta in SM.
    apply search_flags in Eq as (l' & -> & Ll & Ln); [|rewrite G1; exact L].
    destruct (bogus s3) eqn:B3. { apply isbogus_Sc in Hz as (_ & _ & Q & _). congruence. }
    assert (Ok : forall z, skip_search (B := B) k b (mkfl (fl (fflags (s_flags s2) l')) (fu (fflags (s_flags s2) l')) 0 (fbless (fflags (s_flags s2) l'))) s3 = Ret (r, z) -> s_ws z = WISDOM_NORMAL -> exists sol, hlookup z k g = Ret (Some sol)).
    { clear z Hz Wz. intros z Hz Wz. pose proof (skip_Sc _ _ _ _ _ _ Hz) as ((_ & Q) & _). unfold skip_search in Hz. rewrite <- Q, Wz in Hz. cbn [ws_eqb orb] in Hz. ib Hz s4 E4. inj Hz.
      eapply hinsert_hit; [apply I3|apply I3| |exact E4|].
      - destruct b as [[x n]|]; [cbn in N3; unfold nslv in *; lia|unfold INFEASIBLE_SLVNDX; lia].
      - unfold subsumes, fflags. cbn [fl fu ftl]. rewrite G1 in *. destruct b as [[x n]|].
        + assert (n <> 4095) by (cbn in N3; unfold nslv in *; lia). unfold INFEASIBLE_SLVNDX. destruct (Z.eqb_spec n 4095); [contradiction|]. cbn [negb].
          apply andb_true_iff. split; apply LEQ_sub; [apply subset_refl|exact Ll].
        + unfold INFEASIBLE_SLVNDX. cbn [negb Z.eqb Pos.eqb]. apply andb_true_iff. split; [apply LEQ_sub; rewrite Ln by auto; apply subset_refl|apply Z.leb_le; exact TL2]. }
    destruct (s_timed_out s3) eqn:TO; [|eauto].
    destruct NT as [NT|NT].
    - exfalso. ib Hz u' Eu'. assert (b = None) by (destruct b; auto; discriminate T3; congruence). subst b.
      destruct (ftl (s_flags s3) =? 0); cbn [negb] in Hz; [inj Hz; congruence|]. apply skip_Sc in Hz as (_ & _ & ->). apply NT. reflexivity.
    - exfalso. specialize (SM NT). destruct SM as (t & l2 & _ & Q & _). congruence. }
  rewrite G2 in H. cbn [ws_eqb negb] in H. ib H sol Es. rewrite G1 in Es. fold g in Es. destruct sol as [sol|]; [|eauto].
  destruct (Z.eqb_spec (sndx sol) INFEASIBLE_SLVNDX) as [_|Ni].
  { cbn [ws_eqb] in H. inj H. eauto. }
  ib H d Ed. destruct (negb _). { apply isbogus_Sc in H as (_ & _ & Q & _). congruence. }
  ib H q Eq. destruct q as [x s4]. destruct (bogus s4) eqn:B4. { apply isbogus_Sc in H as (_ & _ & Q & _). congruence. }
  destruct x as [x|]. 2:{ apply isbogus_Sc in H as (_ & _ & Q & _). congruence. }
  assert (I4 : Inv e s4).
  { pose proof (hlookup_safe e s2 k g I2) as HL. rewrite Es in HL. destruct HL as [[Q|Q] Dg]; cbn in Q, Dg; [unfold INFEASIBLE_SLVNDX in Ni; congruence|].
    apply desc_at_inv in Ed as [_ Ed]. pose proof Eq as Eq0. unfold invoke_solver in Eq0. cbv zeta in Eq0. ib Eq0 ua Eua. clear Eq0.
    set (f' := mkfl _ _ _ _) in *. assert (Df : dbg e f') by (intros Hd; apply Dg; auto). set (s3 := set_ws s2 WISDOM_ONLY) in *.
    assert (K : e_debug e = true -> sd_kind d = e_kind e p).
    { intros Hd. unfold A_ in Eua. rewrite Hd in Eua. destruct (Nat.eqb_spec (e_kind e p) (sd_kind d)); [auto|discriminate]. }
    unfold invoke_solver in Eq. cbv zeta in Eq. rewrite Eua in Eq. cbn [bind] in Eq.
    pose proof (run_safe e rec HS HRec (sd_prog d p) (HE _ _ Ed p) [] (s_live s3) (set_flags s3 (mkfl (fl f') (fu f') 0 (fbless f')))) as RS.
    specialize (RS (HC _ _ Ed p)). ib Eq rr Err. rewrite Err in RS. cbn [Safe] in RS. destruct RS as (R1 & _); [split; [exact I2|exact Df]|reflexivity|]. inj Eq. exact R1. }
  pose proof (skip_Sc _ _ _ _ _ _ H) as ((_ & Q) & _). unfold skip_search in H. cbn [set_ws s_ws ws_eqb orb] in H. ib H s5 E5. inj H.
  eapply (hinsert_hit (set_ws s4 WISDOM_NORMAL)); [exact (proj1 (proj2 I4))|exact (proj1 (proj2 (proj2 I4)))| |exact E5|].
  - pose proof (hlookup_safe e s2 k g I2) as HL. rewrite Es in HL. destruct HL as [[Q'|Q'] _]; cbn in Q'; unfold nslv in *; [unfold INFEASIBLE_SLVNDX in *; lia|lia].
  - apply hlookup_sound in Es as [_ Es]. unfold subsumes in *. cbn [fl fu ftl]. destruct (Z.eqb_spec (sndx sol) INFEASIBLE_SLVNDX); [contradiction|]. cbn [negb] in *. exact Es.
Qed.
(** a lookup that succeeds means no search *)
Lemma body_hit p t r t' sol : (forall p s r s', only s -> rec p s = Ret (r, s') -> same_tr s s') ->
  s_ws t = WISDOM_NORMAL -> hlookup t (e_sig e (s_nthr t) p) (reqflags t) = Ret (Some sol) ->
  mkplan_body e rec p t = Ret (r, t') -> same_tr t t' /\ (sndx sol = INFEASIBLE_SLVNDX -> r = None).
Proof.
  intros HO W Hl H. unfold mkplan_body in H. ib H u Eu. cbv zeta in H. set (s1 := if ESTIMATEP t then _ else t) in *.
  assert (Fl : s_flags s1 = reqflags t).
  { unfold s1, reqflags. destruct (ESTIMATEP t); [reflexivity|]. destruct (s_flags t); reflexivity. }
  assert (Ft : same_tr t s1 /\ s_ws s1 = s_ws t /\ s_nthr s1 = s_nthr t /\ s_hb s1 = s_hb t /\ s_hu s1 = s_hu t).
  { unfold s1. destruct (ESTIMATEP t); repeat split. }
  clearbody s1. destruct Ft as (F1 & F2 & F3 & F4 & F5). rewrite W in F2.
  destruct (bogus s1) eqn:Bg. { unfold bogus in Bg. rewrite F2 in Bg. discriminate. }
  set (s2 := set_timeout s1 false (s_ntc s1)) in *.
  assert (G : same_tr t s2 /\ s_ws s2 = WISDOM_NORMAL) by (split; [exact F1|exact F2]). destruct G as [G1 G2].
  assert (E : hlookup s2 (e_sig e (s_nthr s2) p) (s_flags s2) = Ret (Some sol)).
  { change (s_nthr s2) with (s_nthr s1). change (s_flags s2) with (s_flags s1). rewrite F3, Fl. rewrite (hlookup_tabs t s2); auto. }
  rewrite E, G2 in H. cbn [ws_eqb negb bind] in H. destruct (Z.eqb_spec (sndx sol) INFEASIBLE_SLVNDX) as [Ei|Ni].
  { inj H. auto. }
  split; [|contradiction]. eapply same_trans; [exact G1|]. ib H d Ed. destruct (negb _). { apply isbogus_same in H as [H _]. exact H. }
  ib H q Eq. destruct q as [x s4].
  assert (Q : same_tr s2 s4).
  { unfold invoke_solver in Eq. cbv zeta in Eq. ib Eq u' Eu'. ib Eq y Ey. destruct y as [y s5]. eapply run_only in Ey; [|exact HS|exact HO|left; reflexivity]. inj Eq. exact Ey. }
  eapply same_trans; [exact Q|]. destruct (bogus s4); [now apply isbogus_same in H as [H _]|].
  destruct x as [x|]; [|now apply isbogus_same in H as [H _]]. apply skip_same in H. exact H.
Qed.
End R.
Lemma mkplan_remembers fuel p s r s' : Inv e s -> tl_ok s -> subset (fl (s_flags s)) (fu (s_flags s)) -> s_ws s = WISDOM_NORMAL ->
  mkplan e fuel p s = Ret (r, s') -> s_ws s' = WISDOM_NORMAL -> (r <> None \/ e_timelimit e = false) ->
  exists sol, hlookup s' (e_sig e (s_nthr s) p) (reqflags s) = Ret (Some sol).
Proof.
  intros I T L W H. destruct fuel as [|fuel]; cbn [mkplan] in H; [discriminate|]. eapply body_remembers; eauto.
  - intros. eapply mkplan_Scoped; eauto.
  - intros. now apply mkplan_safe.
  - intros. eapply mkplan_Deep; eauto.
  - split; auto. intros _. exact L.
Qed.
Lemma mkplan_hit fuel p t r t' sol : s_ws t = WISDOM_NORMAL -> hlookup t (e_sig e (s_nthr t) p) (reqflags t) = Ret (Some sol) ->
  mkplan e fuel p t = Ret (r, t') -> same_tr t t' /\ (sndx sol = INFEASIBLE_SLVNDX -> r = None).
Proof.
  intros W Hl H. destruct fuel as [|fuel]; cbn [mkplan] in H; [discriminate|]. eapply body_hit; eauto.
  - intros. eapply mkplan_Scoped; eauto.
  - intros. eapply mkplan_only; eauto.
Qed.

(** what is planned with blessing is found in the blessed table *)
Lemma hinsert_blessed s k f n s' g : tab_ok e (s_hb s) -> 0 <= n < 2 ^ 12 -> hinsert s k f n = Ret s' -> fbless f = true -> subsumes f n g = true ->
  exists r, htab_lookup (s_hb s') k g = Ret (Some r).
Proof.
  intros T1 Hn H Hb Hs. unfold hinsert in H. rewrite Hb in H. ib H ht Eh. inj H. cbn [s_hb set_tabs].
  exact (insert_hit _ _ _ _ _ g (proj1 T1) Hn Eh Hs).
Qed.
Lemma body_blesses rec p s x s' : (forall p s r s', rec p s = Ret (r, s') -> Scoped s s' r) ->
  (forall p s, Pre e s -> Safe (rec p s) (Post e (s_live s) s)) ->
  Pre e s -> subset (fl (s_flags s)) (fu (s_flags s)) -> s_ws s = WISDOM_NORMAL -> fbless (s_flags s) = true ->
  mkplan_body e rec p s = Ret (Some x, s') ->
  exists r, htab_lookup (s_hb s') (e_sig e (s_nthr s) p) (reqflags s) = Ret (Some r).
Proof.
  intros HS HRec [I D] L W0 Bl H. unfold mkplan_body in H. ib H u Eu. cbv zeta in H. set (s1 := if ESTIMATEP s then _ else s) in *.
  assert (Fl : s_flags s1 = reqflags s).
  { unfold s1, reqflags. destruct (ESTIMATEP s); [reflexivity|]. destruct (s_flags s); reflexivity. }
  assert (Ft : Inv e s1 /\ s_ws s1 = s_ws s /\ s_nthr s1 = s_nthr s).
  { unfold s1. destruct (ESTIMATEP s); auto. }
  clearbody s1. destruct Ft as (I1 & F2 & F5). rewrite W0 in F2.
  destruct (bogus s1) eqn:Bg. { unfold bogus in Bg. rewrite F2 in Bg. discriminate. }
  set (s2 := set_timeout s1 false (s_ntc s1)) in *.
  assert (I2 : Inv e s2) by (destruct I1 as (A1 & A2 & A3 & A4); split; [exact A1|]; split; [exact A2|]; split; [exact A3|discriminate]).
  assert (G : s_flags s2 = reqflags s /\ s_ws s2 = WISDOM_NORMAL /\ s_nthr s2 = s_nthr s /\ s_timed_out s2 = false) by auto.
  clearbody s2. clear I1 F2 F5 Fl Bg s1. destruct G as (G1 & G2 & G3 & G4). rewrite G3 in H. set (k := e_sig e (s_nthr s) p) in *. clearbody k.
  assert (D2 : Pre e s2) by (split; auto; rewrite G1; exact D).
  set (g := reqflags s) in *. assert (Bg : fbless g = true) by exact Bl.
  assert (DS : do_search e rec p k s2 = Ret (Some x, s') -> exists r, htab_lookup (s_hb s') k g = Ret (Some r)).
  { intros Hz. unfold do_search in Hz. rewrite G2 in Hz. cbn [ws_eqb] in Hz. ib Hz q Eq. destruct q as [[b f] s3].
    pose proof (search_safe e HReg HC HE rec HS HRec p s2 D2 G4) as SS. rewrite Eq in SS. cbn [Safe] in SS. destruct SS as ((I3 & P3 & N3 & T3 & E3) & _).
    pose proof (search_Sc e rec HS _ _ _ _ Eq) as [(_ & _ & W3 & _) _].
    apply search_flags in Eq as (l' & -> & Ll & Ln); [|rewrite G1; exact L].
    destruct (bogus s3) eqn:B3. { apply isbogus_Sc in Hz as (_ & _ & _ & Q). discriminate. }
    assert (W3' : s_ws s3 = WISDOM_NORMAL).
    { cbn [snd] in W3. destruct W3 as [W3|W3]; [congruence|]. unfold bogus in B3. rewrite W3 in B3. discriminate. }
    destruct (s_timed_out s3) eqn:TO.
    { exfalso. ib Hz u' Eu'. assert (b = None) by (destruct b; auto; discriminate T3; congruence). subst b.
      destruct (ftl (s_flags s3) =? 0); cbn [negb] in Hz; [discriminate Hz|]. apply skip_Sc in Hz as (_ & _ & Q). discriminate. }
    pose proof (skip_Sc _ _ _ _ _ _ Hz) as (_ & _ & Qx). destruct b as [[y n]|]; [|discriminate]. cbn in Qx. inj Qx.
    unfold skip_search in Hz. rewrite W3' in Hz. cbn [ws_eqb orb] in Hz. ib Hz s4 E4. inj Hz. cbn in N3.
    eapply (hinsert_blessed s3); [exact (proj1 (proj2 I3))| |exact E4| |].
    - unfold nslv in *. lia.
    - unfold fflags. cbn [fbless]. rewrite G1. exact Bg.
    - unfold subsumes, fflags. cbn [fl fu ftl]. rewrite G1 in *.
      assert (n <> 4095) by (unfold nslv in *; lia). unfold INFEASIBLE_SLVNDX. destruct (Z.eqb_spec n 4095); [contradiction|]. cbn [negb].
      apply andb_true_iff. split; apply LEQ_sub; [apply subset_refl|exact Ll]. }
  rewrite G2 in H. cbn [ws_eqb negb] in H. ib H sol Es. rewrite G1 in Es. fold g in Es. destruct sol as [sol|]; [|eauto].
  destruct (Z.eqb_spec (sndx sol) INFEASIBLE_SLVNDX) as [_|Ni].
  { discriminate H. }
  ib H d Ed. destruct (negb _). { apply isbogus_Sc in H as (_ & _ & _ & Q). discriminate. }
  ib H q Eq. destruct q as [y s4]. destruct (bogus s4) eqn:B4. { apply isbogus_Sc in H as (_ & _ & _ & Q). discriminate. }
  destruct y as [y|]. 2:{ apply isbogus_Sc in H as (_ & _ & _ & Q). discriminate. }
  assert (I4 : Inv e s4).
  { pose proof (hlookup_safe e s2 k g I2) as HL. rewrite Es in HL. destruct HL as [[Q|Q] Dg]; cbn in Q, Dg; [unfold INFEASIBLE_SLVNDX in Ni; congruence|].
    apply desc_at_inv in Ed as [_ Ed].
    set (f' := mkfl _ _ _ _) in *. assert (Df : dbg e f') by (intros Hd; apply Dg; auto). set (s3 := set_ws s2 WISDOM_ONLY) in *.
    unfold invoke_solver in Eq. cbv zeta in Eq. ib Eq ua Eua.
    pose proof (run_safe e rec HS HRec (sd_prog d p) (HE _ _ Ed p) [] (s_live s3) (set_flags s3 (mkfl (fl f') (fu f') 0 (fbless f')))) as RS.
    specialize (RS (HC _ _ Ed p)). ib Eq rr Err. rewrite Err in RS. cbn [Safe] in RS. destruct RS as (R1 & _); [split; [exact I2|exact Df]|reflexivity|]. inj Eq. exact R1. }
  unfold skip_search in H. cbn [set_ws s_ws ws_eqb orb] in H. ib H s5 E5. inj H.
  eapply (hinsert_blessed (set_ws s4 WISDOM_NORMAL)); [exact (proj1 (proj2 I4))| |exact E5| |].
  - pose proof (hlookup_safe e s2 k g I2) as HL. rewrite Es in HL. destruct HL as [[Q'|Q'] _]; cbn in Q'; unfold nslv in *; [unfold INFEASIBLE_SLVNDX in *; lia|lia].
  - cbn [fbless]. rewrite G1, Bg. apply orb_true_r.
  - apply hlookup_sound in Es as [_ Es]. unfold subsumes in *. cbn [fl fu ftl]. destruct (Z.eqb_spec (sndx sol) INFEASIBLE_SLVNDX); [contradiction|]. cbn [negb] in *. exact Es.
Qed.
Lemma mkplan_blesses fuel p s x s' : Inv e s -> subset (fl (s_flags s)) (fu (s_flags s)) -> s_ws s = WISDOM_NORMAL -> fbless (s_flags s) = true ->
  mkplan e fuel p s = Ret (Some x, s') -> exists r, htab_lookup (s_hb s') (e_sig e (s_nthr s) p) (reqflags s) = Ret (Some r).
Proof.
  intros I L W Bl H. destruct fuel as [|fuel]; cbn [mkplan] in H; [discriminate|]. eapply (body_blesses (mkplan e fuel)); eauto.
  - intros. eapply mkplan_Scoped; eauto.
  - intros. now apply mkplan_safe.
  - split; auto. intros _. exact L.
Qed.
End S.
