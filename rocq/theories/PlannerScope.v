(** * Planner: dynamic scoping, traces, WISDOM_ONLY, ESTIMATE *)
From Coq Require Import ZArith List Lia Bool.
From Verif Require Import Base SpecWisdom HashModel FlagsModel PlannerModel.
Import ListNotations.
Open Scope Z_scope.

Lemma bind_Ret {A B} (m : out A) (f : A -> out B) v : bind m f = Ret v -> exists a, m = Ret a /\ f a = Ret v.
Proof. destruct m; cbn; try discriminate. eauto. Qed.
Tactic Notation "ib" hyp(H) ident(a) ident(E) := apply bind_Ret in H; destruct H as (a & E & H).
Ltac inj H := injection H; clear H; intros; subst.

Section S.
Context {P B : Type}.
Variable e : env P B.
Notation plan := (plan B).

(** the trace only grows *)
Definition Ext (s s' : st) : Prop := exists t, s_tr s' = t ++ s_tr s.
Lemma Ext_refl s : Ext s s. Proof. now exists []. Qed.
Lemma Ext_trans a b c : Ext a b -> Ext b c -> Ext a c.
Proof. intros [t H] [t' H']. exists (t' ++ t). now rewrite H', H, app_assoc. Qed.

(** what never changes over a solver, resp. over a call of the planner *)
Definition wsok (s s' : st) : Prop := s_ws s' = s_ws s \/ s_ws s' = WISDOM_IS_BOGUS.
Definition Sc (s s' : st) : Prop := s_flags s' = s_flags s /\ s_depth s' = s_depth s /\ wsok s s' /\ Ext s s'.
Definition Sn (s s' : st) : Prop := s_nthr s' = s_nthr s.
Definition fl_ok (s s' : st) : Prop :=
  s_flags s' = s_flags s \/ (ESTIMATEP s = true /\ s_flags s' = mkfl (fl (s_flags s)) (fu (s_flags s)) 0 (fbless (s_flags s))).
Definition Scoped (s s' : st) (r : option plan) : Prop :=
  fl_ok s s' /\ s_depth s' = s_depth s /\ s_nthr s' = s_nthr s /\ Ext s s' /\
  (s_ws s' = s_ws s \/ (s_ws s' = WISDOM_IS_BOGUS /\ r = None)).
Lemma Sc_refl s : Sc s s.
Proof. repeat split; auto; [now left|apply Ext_refl]. Qed.
Lemma Sc_trans a b c : Sc a b -> Sc b c -> Sc a c.
Proof.
  intros (A1 & A2 & A3 & A4) (B1 & B2 & B3 & B4). repeat split; try congruence; [|eapply Ext_trans; eauto].
  unfold wsok in *. destruct B3 as [B3|B3]; [|now right]. rewrite B3. destruct A3 as [A3|A3]; [left|right]; congruence.
Qed.
Lemma destroy_Sc x (s s' : st) : destroy (B := B) x s = Ret s' -> Sc s s' /\ Sn s s'.
Proof.
  destruct x; cbn; intros H; [ib H l El|]; inj H; split; auto using Sc_refl; try reflexivity.
  repeat split; [now left|now exists []].
Qed.
Lemma timeout_Sc s b s' : timeout_p e s = Ret (b, s') -> Sc s s' /\ Sn s s'.
Proof.
  unfold timeout_p. assert (N : forall s a t, (_ <- A_ e a;; Ret (false, set_timeout s t false)) = Ret (b, s') -> Sc s s' /\ Sn s s').
  { intros s0 a t H. ib H u Eu. inj H. split; [|reflexivity]. repeat split; [now left|now exists []]. }
  destruct (ESTIMATEP s); cbn [negb]; [apply N|]. destruct (s_timed_out s).
  - intros H. ib H u Eu. inj H. split; auto using Sc_refl; reflexivity.
  - destruct (e_timelimit e); [|apply N]. destruct (e_clock e (s_nclk s)).
    + intros H. inj H. split; [|reflexivity]. repeat split; [now left|now exists []].
    + intros H. apply N in H. exact H.
Qed.
Lemma eval_Sc x s x' s' : evaluate_plan e x s = (x', s') -> Sc s s' /\ Sn s s'.
Proof.
  unfold evaluate_plan. destruct (ESTIMATEP s || negb (BELIEVE_PCOSTP s) || (pcost x =? 0)).
  - destruct (ESTIMATEP s).
    + intros H. inj H. split; [|reflexivity]. repeat split; [now left|eexists [_]; reflexivity].
    + cbv zeta. destruct (e_meas e (s_nmeas s) <? 0); intros H; inj H; (split; [|reflexivity]; repeat split; [now left|eexists [_; _]; reflexivity]).
  - intros H. inj H. split; [|reflexivity]. repeat split; [now left|eexists [_]; reflexivity].
Qed.
Lemma emit_Sc s ev : Sc s (emit s ev) /\ Sn s (emit s ev).
Proof. split; [|reflexivity]. repeat split; [now left|eexists [_]; reflexivity]. Qed.
Lemma hinsert_Sc s k f n s' : hinsert s k f n = Ret s' -> Sc s s' /\ Sn s s'.
Proof.
  unfold hinsert. destruct (fbless f); intros H; ib H ht Eh; inj H; (split; [|reflexivity]; repeat split; [now left|now exists []]).
Qed.

Section R.
Variable rec : P -> st -> out (option plan * st).
Hypothesis HR : forall p s r s', rec p s = Ret (r, s') -> Scoped s s' r.

Lemma sub_Sc p a b c s r s' : mkplan_f_d rec p a b c s = Ret (r, s') -> Sc s s'.
Proof.
  unfold mkplan_f_d. cbv zeta. intros H. ib H x Ex. destruct x as [x s1]. apply HR in Ex. cbn [fst snd] in H. inj H.
  destruct Ex as (_ & _ & _ & X & W). repeat split; cbn in *.
  - destruct W as [W|[W _]]; [now left|now right].
  - exact X.
Qed.
Lemma run_Sc g : forall s r s', run rec g s = Ret (r, s') -> Sc s s'.
Proof.
  induction g as [o|p a b c k IH|x k IH|n k IH|k IH]; intros s r s' H; cbn [run] in H.
  - destruct o as [[[[[ks b] c] es] pr]|]; inj H; [|apply Sc_refl]. repeat split; [now left|now exists []].
  - ib H x Ex. destruct x as [x s1]. apply sub_Sc in Ex. apply IH in H. eapply Sc_trans; eauto.
  - ib H s1 E1. apply destroy_Sc in E1 as [E1 _]. apply IH in H. eapply Sc_trans; eauto.
  - apply IH in H. destruct H as (H1 & H2 & H3 & H4). repeat split; auto.
  - apply IH in H. exact H.
Qed.
Lemma invoke_Sc p d f s r s' : invoke_solver e rec p d f s = Ret (r, s') -> Sc s s' /\ Sn s s'.
Proof.
  unfold invoke_solver. cbv zeta. intros H. ib H u Eu. ib H x Ex. destruct x as [x s1]. apply run_Sc in Ex. cbn [fst snd] in H. inj H.
  destruct Ex as (_ & H2 & H3 & H4). split; [|reflexivity]. repeat split; auto.
Qed.
Lemma search_loop_Sc p f l : forall best nyt s r s', search_loop e rec l p f best nyt s = Ret (r, s') -> Sc s s' /\ Sn s s'.
Proof.
  assert (T : forall a b c, Sc a b /\ Sn a b -> Sc b c /\ Sn b c -> Sc a c /\ Sn a c).
  { unfold Sn. intros a b c [A1 A2] [B1 B2]. split; [eapply Sc_trans; eauto|congruence]. }
  induction l as [|[n d] l IH]; intros best nyt s r s' H; cbn [search_loop] in H.
  - inj H. split; [apply Sc_refl|reflexivity].
  - ib H x Ex. destruct x as [x s1]. apply invoke_Sc in Ex. eapply T; [exact Ex|]. clear Ex.
    cbv zeta in H. set (s2 := emit s1 _) in *. assert (E2 : Sc s1 s2 /\ Sn s1 s2) by apply emit_Sc. clearbody s2.
    eapply T; [exact E2|]. clear E2.
    ib H t Et. destruct t as [late s3].
    assert (E3 : Sc s2 s3 /\ Sn s2 s3).
    { destruct (s_ntc s2); [now apply timeout_Sc in Et|]. inj Et. split; [apply Sc_refl|reflexivity]. }
    eapply T; [exact E3|]. clear E3 Et. destruct late.
    + ib H s4 E4. ib H s5 E5. inj H. apply destroy_Sc in E4, E5. eapply T; eauto.
    + destruct x as [x|]; [|eapply IH; eauto]. ib H c Ec. destruct c as [[b' n'] s7].
      assert (E7 : Sc s3 s7 /\ Sn s3 s7).
      { destruct best as [[b nb]|]; [|inj Ec; split; [apply Sc_refl|reflexivity]].
        destruct (if nyt then evaluate_plan e b s3 else (b, s3)) as [b1 s4] eqn:E4.
        assert (Q : Sc s3 s4 /\ Sn s3 s4) by (destruct nyt; [eapply eval_Sc; eauto|inj E4; split; [apply Sc_refl|reflexivity]]).
        eapply T; [exact Q|]. destruct (evaluate_plan e x s4) as [x1 s5] eqn:E5. apply eval_Sc in E5. eapply T; [exact E5|].
        destruct (pcost x1 <? pcost b1); ib Ec s6 E6; inj Ec; now apply destroy_Sc in E6. }
      eapply T; [exact E7|]. destruct (ALLOW_PRUNINGP s7 && pprune x); [inj H; split; [apply Sc_refl|reflexivity]|]. eapply IH; eauto.
Qed.
Lemma SS_trans a b c : Sc a b /\ Sn a b -> Sc b c /\ Sn b c -> Sc a c /\ Sn a c.
Proof. unfold Sn. intros [A1 A2] [B1 B2]. split; [eapply Sc_trans; eauto|congruence]. Qed.
Lemma search0_Sc p f s r s' : search0 e rec p f s = Ret (r, s') -> Sc s s' /\ Sn s s'.
Proof.
  unfold search0. intros H. ib H t Et. destruct t as [late s1]. apply timeout_Sc in Et. eapply SS_trans; [exact Et|].
  destruct late; [inj H; split; [apply Sc_refl|reflexivity]|]. ib H l El. eapply search_loop_Sc; eauto.
Qed.
Lemma relax_Sc p l tab : forall x last f s r, relax_loop e rec tab p l x last f s = Ret r -> Sc s (snd r) /\ Sn s (snd r).
Proof.
  induction tab as [|t tab IH]; intros x last f s r H; cbn [relax_loop] in H.
  - inj H. split; [apply Sc_refl|reflexivity].
  - cbv zeta in H. set (x' := if LEQ l (Z.ldiff x t) then _ else _) in *. clearbody x'. destruct (negb (x' =? last)); [|eapply IH; eauto].
    ib H q Eq. destruct q as [q s1]. apply search0_Sc in Eq. destruct q as [b|].
    + inj H. exact Eq.
    + eapply SS_trans; [exact Eq|]. eapply IH; eauto.
Qed.
Lemma search_Sc p f s r : search e rec p f s = Ret r -> Sc s (snd r) /\ Sn s (snd r).
Proof.
  unfold search. cbv zeta. intros H. ib H q Eq. destruct q as [[[b last] f1] s1]. apply relax_Sc in Eq. cbn [snd] in Eq.
  eapply SS_trans; [apply (emit_Sc s (ESearch (s_depth s)))|]. eapply SS_trans; [exact Eq|]. destruct b; [inj H; split; [apply Sc_refl|reflexivity]|].
  destruct (negb (fl f =? last)).
  - ib H q Eq2. destruct q as [q s2]. inj H. now apply search0_Sc in Eq2.
  - inj H. split; [apply Sc_refl|reflexivity].
Qed.
Lemma ws_eqb_eq a b : ws_eqb a b = true <-> a = b.
Proof. destruct a, b; cbn; split; auto; discriminate. Qed.
Lemma bogus_false s : bogus s = false -> s_ws s <> WISDOM_IS_BOGUS.
Proof. unfold bogus. intros H E. rewrite E in H. discriminate. Qed.
Lemma skip_Sc k x f s r s' : skip_search (B := B) k x f s = Ret (r, s') -> (Sc s s' /\ s_ws s' = s_ws s) /\ Sn s s' /\ r = option_map fst x.
Proof.
  unfold skip_search. intros H. ib H s1 E1. inj H. destruct (_ || _).
  - pose proof E1 as E2. apply hinsert_Sc in E1 as [E1 E3]. split; [split; auto|auto].
    unfold hinsert in E2. destruct (fbless f); ib E2 ht Eh; inj E2; reflexivity.
  - inj E1. split; [split; [apply Sc_refl|reflexivity]|split; reflexivity].
Qed.
Lemma isbogus_Sc x s r s' : wisdom_is_bogus (B := B) x s = Ret (r, s') -> Sc s s' /\ Sn s s' /\ s_ws s' = WISDOM_IS_BOGUS /\ r = None.
Proof.
  unfold wisdom_is_bogus. intros H. ib H s1 E1. apply destroy_Sc in E1 as [(E1 & E2 & E3 & E4) E5]. inj H.
  repeat split; auto. now right.
Qed.
Lemma do_search_Sc p k s r s' : do_search e rec p k s = Ret (r, s') -> Sc s s' /\ Sn s s' /\ (s_ws s' = s_ws s \/ (s_ws s' = WISDOM_IS_BOGUS /\ r = None)).
Proof.
  unfold do_search. destruct (ws_eqb (s_ws s) WISDOM_ONLY).
  { intros H. apply isbogus_Sc in H as (H1 & H2 & H3 & H4). auto. }
  intros H. ib H q Eq. destruct q as [[x f] s1]. apply search_Sc in Eq. cbn [snd] in Eq. destruct (bogus s1) eqn:Bg.
  - apply isbogus_Sc in H as (H1 & H2 & H3 & H4). destruct (SS_trans s s1 s' Eq (Logic.conj H1 H2)). auto.
  - apply bogus_false in Bg. destruct Eq as [Eq Eqn]. assert (W : s_ws s1 = s_ws s) by (destruct Eq as (_ & _ & [?|?] & _); congruence).
    destruct (s_timed_out s1).
    + ib H u Eu. destruct (negb (ftl (s_flags s1) =? 0)).
      * apply skip_Sc in H as ((H1 & H2) & H3 & H4). destruct (SS_trans s s1 s' (Logic.conj Eq Eqn) (Logic.conj H1 H3)). rewrite H2. auto.
      * inj H. auto.
    + apply skip_Sc in H as ((H1 & H2) & H3 & H4). destruct (SS_trans s s1 s' (Logic.conj Eq Eqn) (Logic.conj H1 H3)). rewrite H2. auto.
Qed.
Lemma Ext_of s s' : Sc s s' -> Ext s s'. Proof. now intros (_ & _ & _ & H). Qed.

Lemma mkplan_body_Scoped p s r s' : mkplan_body e rec p s = Ret (r, s') -> Scoped s s' r.
Proof.
  unfold mkplan_body. intros H. ib H u Eu. cbv zeta in H. set (s1 := if ESTIMATEP s then _ else s) in *.
  assert (F1 : fl_ok s s1 /\ s_depth s1 = s_depth s /\ s_nthr s1 = s_nthr s /\ s_tr s1 = s_tr s /\ s_ws s1 = s_ws s).
  { unfold s1, fl_ok. destruct (ESTIMATEP s) eqn:E; cbn; auto 6. }
  clearbody s1. destruct F1 as (F1 & F2 & F3 & F4 & F5).
  assert (Fin : forall s' r, Sc s1 s' -> Sn s1 s' -> (s_ws s' = s_ws s1 \/ (s_ws s' = WISDOM_IS_BOGUS /\ r = None)) -> Scoped s s' r).
  { intros z q (S1 & S2 & S3 & [t S4]) S5 S6. unfold Sn in *. unfold Scoped, fl_ok. rewrite S1, S2, S5. repeat split; auto; [|rewrite <- F5; auto].
    exists t. congruence. }
  destruct (bogus s1).
  { apply isbogus_Sc in H as (H1 & H2 & H3 & H4). apply Fin; auto. }
  set (s2 := set_timeout s1 false (s_ntc s1)) in *.
  assert (F : Sc s1 s2 /\ Sn s1 s2 /\ s_ws s2 = s_ws s1) by (repeat split; [now left|now exists []]).
  clearbody s2. destruct F as (G1 & G2 & G3). set (k := e_sig e (s_nthr s2) p) in *. clearbody k.
  assert (D : forall r s', do_search e rec p k s2 = Ret (r, s') -> Scoped s s' r).
  { intros q z Hz. apply do_search_Sc in Hz as (H1 & H2 & H3). destruct (SS_trans s1 s2 z (Logic.conj G1 G2) (Logic.conj H1 H2)). apply Fin; auto.
    rewrite <- G3. auto. }
  destruct (negb (ws_eqb (s_ws s2) WISDOM_IGNORE_ALL)); [|auto].
  ib H sol Es. destruct sol as [sol|]; [|auto]. destruct (sndx sol =? INFEASIBLE_SLVNDX).
  { destruct (ws_eqb (s_ws s2) WISDOM_IGNORE_INFEASIBLE); [auto|]. inj H. apply Fin; auto. }
  ib H d Ed. set (s3 := set_ws s2 WISDOM_ONLY) in *.
  assert (Fb : forall x z q, wisdom_is_bogus (B := B) x z = Ret (q, s') -> s_flags z = s_flags s2 -> s_depth z = s_depth s2 -> s_nthr z = s_nthr s2 -> Ext s2 z -> Scoped s s' q).
  { intros x z q Hq Z1 Z2 Z3 Z4. apply isbogus_Sc in Hq as (H1 & H2 & H3 & H4). destruct G1 as (g1 & g2 & g3 & g4). destruct H1 as (h1 & h2 & h3 & h4).
    unfold Sn in *. apply Fin; [|unfold Sn; congruence|auto]. repeat split; [congruence|congruence|now right|].
    eapply Ext_trans; [exact g4|]. eapply Ext_trans; [exact Z4|exact h4]. }
  destruct (negb _).
  { eapply Fb in H; eauto. now exists []. }
  ib H q Eq. destruct q as [x s4]. apply invoke_Sc in Eq as [(I1 & I2 & I3 & I4) I5]. unfold Sn in I5. cbn in I1, I2, I5.
  destruct (bogus s4) eqn:Bg; [eapply Fb in H; eauto|]. destruct x as [x|]; [|eapply Fb in H; eauto].
  apply skip_Sc in H as (((H1 & H2 & _ & H6) & H3) & H4 & H5). unfold Sn in H4. cbn in H1, H2, H3, H4. destruct G1 as (g1 & g2 & g3 & g4). unfold Sn in *.
  apply Fin; [|unfold Sn; congruence|left; congruence]. repeat split; [congruence|congruence|left; congruence|].
  eapply Ext_trans; [exact g4|]. eapply Ext_trans; [exact I4|exact H6].
Qed.
End R.

Lemma mkplan_Scoped fuel : forall p s r s', mkplan e fuel p s = Ret (r, s') -> Scoped s s' r.
Proof. induction fuel as [|fuel IH]; intros p s r s' H; cbn [mkplan] in H; [discriminate|]. eapply mkplan_body_Scoped; eauto. Qed.
End S.
