(** * Planner: WISDOM_ONLY never searches, ESTIMATE never measures *)
From Coq Require Import ZArith List Lia Bool.
From Verif Require Import Base SpecWisdom HashModel FlagsModel PlannerModel SpecPlanner PlannerScope.
Import ListNotations.
Open Scope Z_scope.

Section S.
Context {P B : Type}.
Variable e : env P B.
Notation plan := (plan B).
Definition only (s : st) : Prop := s_ws s = WISDOM_ONLY \/ s_ws s = WISDOM_IS_BOGUS.
Definition same_tr (s s' : st) : Prop := s_tr s' = s_tr s /\ s_nmeas s' = s_nmeas s /\ s_nclk s' = s_nclk s.
Lemma same_refl s : same_tr s s. Proof. repeat split. Qed.
Lemma same_trans a b c : same_tr a b -> same_tr b c -> same_tr a c.
Proof. unfold same_tr. intros (A1 & A2 & A3) (B1 & B2 & B3). repeat split; congruence. Qed.
Lemma destroy_same x s s' : destroy (B := B) x s = Ret s' -> same_tr s s'.
Proof. destruct x; cbn; intros H; [ib H l El|]; inj H; repeat split. Qed.
Lemma only_Sc s s' : only s -> Sc s s' -> only s'.
Proof. unfold only. intros O (_ & _ & [W|W] & _); rewrite W; auto. Qed.
Lemma skip_same k x f s r s' : skip_search (B := B) k x f s = Ret (r, s') -> same_tr s s'.
Proof.
  unfold skip_search. intros H. ib H s1 E1. inj H. destruct (_ || _); [|inj E1; apply same_refl].
  unfold hinsert in E1. destruct (fbless f); ib E1 ht Eh; inj E1; repeat split.
Qed.
Lemma isbogus_same x s r s' : wisdom_is_bogus (B := B) x s = Ret (r, s') -> same_tr s s' /\ r = None.
Proof. unfold wisdom_is_bogus. intros H. ib H s1 E1. apply destroy_same in E1. inj H. split; auto. Qed.

Section Only.
Variable rec : P -> st -> out (option plan * st).
Hypothesis HS : forall p s r s', rec p s = Ret (r, s') -> Scoped s s' r.
Hypothesis HO : forall p s r s', only s -> rec p s = Ret (r, s') -> same_tr s s'.
Lemma run_only g : forall s r s', only s -> run rec g s = Ret (r, s') -> same_tr s s'.
Proof.
  induction g as [o|p a b c k IH|x k IH|n k IH|k IH]; intros s r s' O H; cbn [run] in H.
  - destruct o as [[[[[ks b] c] es] pr]|]; inj H; repeat split.
  - ib H x Ex. pose proof Ex as Ex'. destruct x as [x s1]. apply (sub_Sc rec HS) in Ex'. unfold mkplan_f_d in Ex. cbv zeta in Ex. ib Ex y Ey. destruct y as [y s2].
    apply HO in Ey; [|exact O]. inj Ex. cbn [fst snd] in *. eapply same_trans; [|eapply IH; [|exact H]].
    + exact Ey.
    + eapply only_Sc; eauto.
  - ib H s1 E1. pose proof (destroy_Sc _ _ _ E1) as [C _]. apply destroy_same in E1. eapply same_trans; [exact E1|]. eapply IH; [|exact H]. eapply only_Sc; eauto.
  - eapply IH in H; [exact H|exact O].
  - eapply IH in H; [exact H|exact O].
Qed.
Lemma body_only p s r s' : only s -> mkplan_body e rec p s = Ret (r, s') ->
  same_tr s s' /\
  (r <> None -> exists sol s0, s_hb s0 = s_hb s /\ s_hu s0 = s_hu s /\
     hlookup s0 (e_sig e (s_nthr s) p) (mkfl (fl (s_flags s)) (fu (s_flags s)) (if ESTIMATEP s then 0 else ftl (s_flags s)) (fbless (s_flags s))) = Ret (Some sol) /\ sndx sol <> INFEASIBLE_SLVNDX).
Proof.
  intros O. unfold mkplan_body. intros H. ib H u Eu. cbv zeta in H. set (s1 := if ESTIMATEP s then _ else s) in *.
  assert (Fl : s_flags s1 = mkfl (fl (s_flags s)) (fu (s_flags s)) (if ESTIMATEP s then 0 else ftl (s_flags s)) (fbless (s_flags s))).
  { unfold s1. destruct (ESTIMATEP s); [reflexivity|]. destruct (s_flags s); reflexivity. }
  assert (Ft : same_tr s s1 /\ s_ws s1 = s_ws s /\ s_hb s1 = s_hb s /\ s_hu s1 = s_hu s /\ s_nthr s1 = s_nthr s).
  { unfold s1. destruct (ESTIMATEP s); repeat split. }
  clearbody s1. destruct Ft as (F1 & F2 & F3 & F4 & F5).
  destruct (bogus s1) eqn:Bg.
  { apply isbogus_same in H as [H ->]. split; [eapply same_trans; eauto|congruence]. }
  assert (W : s_ws s1 = WISDOM_ONLY). { destruct O as [O|O]; [congruence|]. unfold bogus in Bg. rewrite F2, O in Bg. discriminate. }
  change (s_ws (set_timeout s1 false (s_ntc s1))) with (s_ws s1) in H. rewrite W in H. cbn [ws_eqb negb] in H. ib H sol Es.
  set (s2 := set_timeout s1 false (s_ntc s1)) in *. assert (F6 : same_tr s1 s2) by repeat split.
  assert (D : forall k r s', do_search e rec p k s2 = Ret (r, s') -> same_tr s s' /\ r = None).
  { intros k q z Hz. unfold do_search in Hz. change (s_ws s2) with (s_ws s1) in Hz. rewrite W in Hz. cbn [ws_eqb] in Hz. apply isbogus_same in Hz as [Hz ->].
    split; auto. eapply same_trans; [exact F1|]. eapply same_trans; [exact F6|exact Hz]. }
  destruct sol as [sol|].
  2:{ apply D in H as [H ->]. split; auto. congruence. }
  destruct (Z.eqb_spec (sndx sol) INFEASIBLE_SLVNDX) as [Ei|Ni].
  { inj H. split; [eapply same_trans; [exact F1|exact F6]|congruence]. }
  split; [|intros _; exists sol, s2; split; [exact F3|]; split; [exact F4|]; split; [|exact Ni]; rewrite <- Fl, <- F5; exact Es].
  ib H d Ed. destruct (negb _).
  { apply isbogus_same in H as [H _]. eapply same_trans; [exact F1|exact H]. }
  ib H q Eq. destruct q as [x s4]. eapply same_trans; [exact F1|].
  assert (Q : same_tr s2 s4).
  { unfold invoke_solver in Eq. cbv zeta in Eq. ib Eq u' Eu'. ib Eq y Ey. destruct y as [y s5]. apply run_only in Ey; [|left; reflexivity]. inj Eq. exact Ey. }
  eapply same_trans; [exact F6|]. eapply same_trans; [exact Q|]. destruct (bogus s4); [now apply isbogus_same in H as [H _]|].
  destruct x as [x|]; [|now apply isbogus_same in H as [H _]]. apply skip_same in H. exact H.
Qed.
End Only.
Lemma mkplan_only fuel : forall p s r s', only s -> mkplan e fuel p s = Ret (r, s') -> same_tr s s'.
Proof.
  induction fuel as [|fuel IH]; intros p s r s' O H; cbn [mkplan] in H; [discriminate|].
  eapply body_only; eauto using mkplan_Scoped.
Qed.

(** ** ESTIMATE *)
Hypothesis HE : forall n d, nth_error (rg_descs (e_reg e)) n = Some d -> forall p, never_clears ESTIMATE (sd_prog d p).
Definition notmeas (ev : event) : Prop := match ev with EMeasure _ => False | _ => True end.
Definition nomeas (s s' : st) : Prop := (exists t, s_tr s' = t ++ s_tr s /\ Forall notmeas t) /\ s_nmeas s' = s_nmeas s.
Lemma nm_refl s : nomeas s s. Proof. split; [exists []; auto|reflexivity]. Qed.
Lemma nm_trans a b c : nomeas a b -> nomeas b c -> nomeas a c.
Proof.
  intros [(t & A1 & A2) A3] [(t' & B1 & B2) B3]. split; [|congruence]. exists (t' ++ t). rewrite B1, A1, app_assoc. split; auto. apply Forall_app; auto.
Qed.
Lemma same_nm a b : same_tr a b -> nomeas a b.
Proof. intros (H1 & H2 & _). split; [exists []; rewrite H1; auto|auto]. Qed.
Definition est (s : st) : Prop := ESTIMATEP s = true.
Definition einv (s : st) : Prop := est s \/ only s.
Lemma est_flags s s' : s_flags s' = s_flags s -> est s -> est s'.
Proof. unfold est, ESTIMATEP. now intros ->. Qed.
Lemma einv_Sc s s' : einv s -> Sc s s' -> einv s'.
Proof. intros [H|H] S; [left|right]. - destruct S as (S & _). eapply est_flags; eauto. - eapply only_Sc; eauto. Qed.
Lemma has_ESTIMATE x : has x ESTIMATE = Z.testbit x 1.
Proof.
  unfold has, ESTIMATE. change 2 with (2 ^ 1). destruct (Z.testbit x 1) eqn:E.
  - apply negb_true_iff, Z.eqb_neq. intros H. apply (f_equal (fun z => Z.testbit z 1)) in H. rewrite Z.land_spec, E in H. discriminate.
  - apply negb_false_iff, Z.eqb_eq. apply Z.bits_inj'. intros i Hi. rewrite Z.land_spec, Z.bits_0, Z.pow2_bits_eqb by lia.
    destruct (Z.eqb_spec 1 i) as [<-|N]; [now rewrite E|apply andb_false_r].
Qed.
Lemma est_keep x us ls ur : Z.land ur ESTIMATE = 0 -> has x ESTIMATE = true -> has (Z.lor (Z.ldiff x ur) (Z.lor us ls)) ESTIMATE = true.
Proof.
  intros Hr. rewrite !has_ESTIMATE. intros H. rewrite Z.lor_spec, Z.ldiff_spec, H.
  assert (R : Z.testbit ur 1 = false). { pose proof (has_ESTIMATE ur) as Q. unfold has in Q. rewrite Hr in Q. cbn in Q. auto. }
  rewrite R. reflexivity.
Qed.
Lemma eval_nm x s x' s' : est s -> evaluate_plan e x s = (x', s') -> nomeas s s'.
Proof.
  unfold evaluate_plan, est. intros E. rewrite E. cbn [orb]. intros H. inj H. split; [eexists [_]; split; [reflexivity|repeat constructor]|reflexivity].
Qed.
Lemma timeout_nm s b s' : timeout_p e s = Ret (b, s') -> nomeas s s'.
Proof.
  unfold timeout_p. assert (N : forall s a t, (_ <- A_ e a;; Ret (false, set_timeout s t false)) = Ret (b, s') -> nomeas s s').
  { intros s0 a t H. ib H u Eu. inj H. split; [exists []; auto|reflexivity]. }
  destruct (ESTIMATEP s); cbn [negb]; [apply N|]. destruct (s_timed_out s).
  - intros H. ib H u Eu. inj H. apply nm_refl.
  - destruct (e_timelimit e); [|apply N]. destruct (e_clock e (s_nclk s)); intros H.
    + inj H. split; [exists []; auto|reflexivity].
    + apply N in H. exact H.
Qed.
Lemma emit_nm s ev : notmeas ev -> nomeas s (emit s ev).
Proof. intros H. split; [exists [ev]; auto|reflexivity]. Qed.

Section Est.
Variable rec : P -> st -> out (option plan * st).
Hypothesis HS : forall p s r s', rec p s = Ret (r, s') -> Scoped s s' r.
Hypothesis HO : forall p s r s', only s -> rec p s = Ret (r, s') -> same_tr s s'.
Hypothesis HM : forall p s r s', einv s -> rec p s = Ret (r, s') -> nomeas s s'.
Lemma run_nm g : never_clears ESTIMATE g -> forall s r s', einv s -> run rec g s = Ret (r, s') -> nomeas s s'.
Proof.
  induction g as [o|p a b c k IH|x k IH|n k IH|k IH]; intros NC s r s' O H; cbn [run never_clears] in *.
  - destruct o as [[[[[ks b] c] es] pr]|]; inj H; [|apply nm_refl]. split; [exists []; auto|reflexivity].
  - destruct NC as [NC1 NC2]. ib H x Ex. pose proof Ex as Ex'. destruct x as [x s1]. apply (sub_Sc rec HS) in Ex'.
    unfold mkplan_f_d in Ex. cbv zeta in Ex. ib Ex y Ey. destruct y as [y s2]. apply HM in Ey.
    2:{ destruct O as [O|O]; [left|right; exact O]. unfold est, ESTIMATEP in *. cbn [s_flags set_flags set_depth fu]. now apply est_keep. }
    inj Ex. cbn [fst snd] in *. apply nm_trans with (set_depth (set_flags s2 (s_flags s)) (s_depth s)); [exact Ey|]. eapply IH; [apply NC2| |exact H]. eapply einv_Sc; eauto.
  - ib H s1 E1. pose proof (destroy_Sc _ _ _ E1) as [C _]. apply destroy_same in E1. eapply nm_trans; [apply same_nm; exact E1|]. eapply IH; eauto. eapply einv_Sc; eauto.
  - eapply (IH NC _ r s') in H; [exact H|exact O].
  - eapply (IH _ _ (NC _ _) s r s') in H; [exact H|exact O].
Qed.
Lemma invoke_nm p d f s r s' n : nth_error (rg_descs (e_reg e)) n = Some d -> (has (fu f) ESTIMATE = true \/ only s) -> invoke_solver e rec p d f s = Ret (r, s') -> nomeas s s'.
Proof.
  intros Hd Hf H. unfold invoke_solver in H. cbv zeta in H. ib H u Eu. ib H y Ey. destruct y as [y s5]. apply run_nm in Ey; [|eapply HE; eauto|].
  - inj H. exact Ey.
  - destruct Hf as [Hf|Hf]; [left|right]; exact Hf.
Qed.
Definition reg_list (l : list (Z * slvdesc P B)) : Prop := forall n d, In (n, d) l -> 0 <= n /\ nth_error (rg_descs (e_reg e)) (Z.to_nat n) = Some d.
Lemma desc_at_inv rg n d : desc_at (P := P) (B := B) rg n = Ret d -> 0 <= n /\ nth_error (rg_descs rg) (Z.to_nat n) = Some d.
Proof. unfold desc_at. destruct (Z.leb_spec 0 n); [|discriminate]. destruct (nth_error _ _) eqn:E; [|discriminate]. intros H0. inj H0. auto. Qed.
Lemma walk_reg fuel : forall c l, walk fuel (e_reg e) c = Ret l -> reg_list l.
Proof.
  induction fuel as [|fuel IH]; intros c l H; cbn [walk] in H; destruct (0 <=? c); try discriminate.
  - inj H. intros ? ? [].
  - ib H d Ed. ib H l' El. inj H. apply desc_at_inv in Ed. intros n d' [Q|Q]; [inj Q; auto|]. eapply IH; eauto.
  - inj H. intros ? ? [].
Qed.
Lemma loop_nm p f l : reg_list l -> has (fu f) ESTIMATE = true -> forall best nyt s r s', est s -> search_loop e rec l p f best nyt s = Ret (r, s') -> nomeas s s'.
Proof.
  intros Hl Hf. induction l as [|[n d] l IH]; intros best nyt s r s' O H; cbn [search_loop] in H.
  - inj H. apply nm_refl.
  - ib H x Ex. destruct x as [x s1]. pose proof (invoke_Sc e rec HS _ _ _ _ _ _ Ex) as [C1 _].
    eapply invoke_nm in Ex; [|apply Hl; now left|left; exact Hf]. eapply nm_trans; [exact Ex|]. clear Ex.
    assert (O1 : est s1) by (eapply est_flags; [apply C1|exact O]).
    cbv zeta in H. set (s2 := emit s1 _) in *. assert (E2 : nomeas s1 s2) by (apply emit_nm; exact Logic.I).
    assert (O2 : est s2) by exact O1. clearbody s2. eapply nm_trans; [exact E2|]. clear E2.
    ib H t Et. destruct t as [late s3].
    assert (E3 : nomeas s2 s3 /\ est s3).
    { destruct (s_ntc s2); [|inj Et; split; [apply nm_refl|auto]]. split; [eapply timeout_nm; eauto|]. apply timeout_Sc in Et as [(Q & _) _]. eapply est_flags; eauto. }
    destruct E3 as [E3 O3]. eapply nm_trans; [exact E3|]. clear E3 Et. destruct late.
    + ib H s4 E4. ib H s5 E5. inj H. apply destroy_same in E4, E5. apply same_nm. eapply same_trans; eauto.
    + assert (IH' : forall best nyt s r s', est s -> search_loop e rec l p f best nyt s = Ret (r, s') -> nomeas s s').
      { apply IH. intros m d' Hm. apply Hl. now right. }
      destruct x as [x|]; [|eapply IH'; eauto]. ib H c Ec. destruct c as [[b' n'] s7].
      assert (E7 : nomeas s3 s7 /\ est s7).
      { destruct best as [[b nb]|]; [|inj Ec; split; [apply nm_refl|auto]].
        destruct (if nyt then evaluate_plan e b s3 else (b, s3)) as [b1 s4] eqn:E4.
        assert (Q : nomeas s3 s4 /\ est s4).
        { destruct nyt; [|inj E4; split; [apply nm_refl|auto]]. split; [eapply eval_nm; eauto|]. apply eval_Sc in E4 as [(Q & _) _]. eapply est_flags; eauto. }
        destruct Q as [Q O4]. destruct (evaluate_plan e x s4) as [x1 s5] eqn:E5. pose proof (eval_nm _ _ _ _ O4 E5) as Q5. apply eval_Sc in E5 as [(C5 & _) _].
        assert (G : forall y s6, destroy (B := B) y s5 = Ret s6 -> nomeas s3 s6 /\ est s6).
        { intros y s6 Hy. pose proof (destroy_Sc _ _ _ Hy) as [(C & _) _]. apply destroy_same in Hy. split.
          - eapply nm_trans; [exact Q|]. eapply nm_trans; [exact Q5|]. now apply same_nm.
          - eapply est_flags; [exact C|]. eapply est_flags; [exact C5|exact O4]. }
        destruct (pcost x1 <? pcost b1); ib Ec s6 E6; inj Ec; eauto. }
      destruct E7 as [E7 O7]. eapply nm_trans; [exact E7|]. destruct (ALLOW_PRUNINGP s7 && pprune x); [inj H; apply nm_refl|]. eapply IH'; eauto.
Qed.
Lemma search0_nm p f s r s' : has (fu f) ESTIMATE = true -> est s -> search0 e rec p f s = Ret (r, s') -> nomeas s s'.
Proof.
  intros Hf O H. unfold search0 in H. ib H t Et. destruct t as [late s1]. pose proof (timeout_nm _ _ _ Et) as N. apply timeout_Sc in Et as [(C & _) _].
  eapply nm_trans; [exact N|]. destruct late; [inj H; apply nm_refl|]. ib H l El. eapply (loop_nm p f l (walk_reg _ _ _ El) Hf); [|exact H]. eapply est_flags; eauto.
Qed.
Lemma relax_nm p l tab : forall x last f s r, has (fu f) ESTIMATE = true -> est s -> relax_loop e rec tab p l x last f s = Ret r -> nomeas s (snd r) /\ fu (snd (fst r)) = fu f.
Proof.
  induction tab as [|t tab IH]; intros x last f s r Hf O H; cbn [relax_loop] in H.
  - inj H. split; [apply nm_refl|reflexivity].
  - cbv zeta in H. set (x' := if LEQ l (Z.ldiff x t) then _ else _) in *. clearbody x'. destruct (negb (x' =? last)); [|eapply IH; eauto].
    ib H q Eq. destruct q as [q s1]. pose proof (search0_Sc e rec HS _ _ _ _ _ Eq) as [(C & _) _]. apply search0_nm in Eq; auto. destruct q as [b|].
    + inj H. split; auto.
    + destruct (IH x' x' (with_l f x') s1 r Hf (est_flags _ _ C O) H) as [H1 H2]. split; [eapply nm_trans; eauto|exact H2].
Qed.
Lemma search_nm p s r : est s -> search e rec p (s_flags s) s = Ret r -> nomeas s (snd r).
Proof.
  intros O H. unfold search in H. cbv zeta in H. ib H q Eq. destruct q as [[[b last] f1] s1].
  pose proof (relax_Sc e rec HS _ _ _ _ _ _ _ _ Eq) as [(C & _) _]. apply relax_nm in Eq as [Eq Ef]; auto. cbn [snd fst] in *.
  eapply nm_trans; [apply (emit_nm s (ESearch (s_depth s))); exact Logic.I|]. eapply nm_trans; [exact Eq|]. destruct b; [inj H; apply nm_refl|].
  destruct (negb _); [|inj H; apply nm_refl]. ib H q Eq2. destruct q as [q s2]. inj H. eapply search0_nm; [| |exact Eq2].
  - cbn [with_l fu]. rewrite Ef. exact O.
  - eapply est_flags; [exact C|exact O].
Qed.
Lemma body_nm p s r s' : einv s -> mkplan_body e rec p s = Ret (r, s') -> nomeas s s'.
Proof.
  intros O. destruct O as [O|O]; [|intros H; apply same_nm; eapply (body_only rec); eauto].
  unfold mkplan_body. intros H. ib H u Eu. cbv zeta in H. unfold est in O. rewrite O in H. set (s1 := set_flags s _) in *.
  assert (O1 : est s1) by exact O. assert (N1 : nomeas s s1) by (split; [exists []; auto|reflexivity]). clearbody s1.
  destruct (bogus s1). { apply isbogus_same in H as [H _]. eapply nm_trans; [exact N1|]. now apply same_nm. }
  set (s2 := set_timeout s1 false (s_ntc s1)) in *. assert (O2 : est s2) by exact O1.
  assert (N2 : nomeas s s2) by exact N1. clearbody s2. set (k := e_sig e (s_nthr s2) p) in *. clearbody k.
  assert (D : forall r s', do_search e rec p k s2 = Ret (r, s') -> nomeas s s').
  { intros q z Hz. eapply nm_trans; [exact N2|]. unfold do_search in Hz. destruct (ws_eqb (s_ws s2) WISDOM_ONLY).
    { apply isbogus_same in Hz as [Hz _]. now apply same_nm. }
    ib Hz y Ey. destruct y as [[x f] s3]. apply search_nm in Ey; auto. cbn [snd] in Ey. eapply nm_trans; [exact Ey|]. apply same_nm.
    destruct (bogus s3); [now apply isbogus_same in Hz as [Hz _]|]. destruct (s_timed_out s3).
    - ib Hz u' Eu'. destruct (negb (ftl (s_flags s3) =? 0)); [now apply skip_same in Hz|]. inj Hz. apply same_refl.
    - now apply skip_same in Hz. }
  destruct (negb (ws_eqb (s_ws s2) WISDOM_IGNORE_ALL)); [|eauto].
  ib H sol Es. destruct sol as [sol|]; [|eauto]. destruct (sndx sol =? INFEASIBLE_SLVNDX).
  { destruct (ws_eqb (s_ws s2) WISDOM_IGNORE_INFEASIBLE); [eauto|]. inj H. exact N2. }
  ib H d Ed. destruct (negb _). { apply isbogus_same in H as [H _]. eapply nm_trans; [exact N2|]. apply same_nm. exact H. }
  ib H q Eq. destruct q as [x s4]. apply desc_at_inv in Ed as [_ Ed]. eapply invoke_nm in Eq; [|exact Ed|right; left; reflexivity].
  eapply nm_trans; [exact N2|]. eapply nm_trans; [exact Eq|]. apply same_nm. destruct (bogus s4); [now apply isbogus_same in H as [H _]|].
  destruct x as [x|]; [|now apply isbogus_same in H as [H _]]. apply skip_same in H. exact H.
Qed.
End Est.
Lemma mkplan_nm fuel : forall p s r s', einv s -> mkplan e fuel p s = Ret (r, s') -> nomeas s s'.
Proof.
  induction fuel as [|fuel IH]; intros p s r s' O H; cbn [mkplan] in H; [discriminate|].
  eapply (body_nm (mkplan e fuel)); eauto using mkplan_Scoped, mkplan_only.
Qed.
End S.
