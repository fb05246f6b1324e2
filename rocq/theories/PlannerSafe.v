(** * Planner: no undefined behaviour, no double free, no leak; time-outs *)
From Coq Require Import ZArith List Lia Bool Permutation.
From Verif Require Import Base SpecWisdom HashModel HashProofs FlagsModel PlannerModel SpecPlanner PlannerScope PlannerTrace PlannerBuilt.
Import ListNotations.
Open Scope Z_scope.

(** [m] does not go wrong, and if it ends, [Q] holds of its result *)
Definition Safe {A} (m : out A) (Q : A -> Prop) : Prop := match m with Ret a => Q a | UB => False | Diverge => True end.
Lemma Safe_bind {A B} (m : out A) (f : A -> out B) Q1 Q2 : Safe m Q1 -> (forall a, m = Ret a -> Q1 a -> Safe (f a) Q2) -> Safe (bind m f) Q2.
Proof. destruct m; cbn; auto. Qed.
Lemma Safe_imp {A} (m : out A) (Q1 Q2 : A -> Prop) : Safe m Q1 -> (forall a, m = Ret a -> Q1 a -> Q2 a) -> Safe m Q2.
Proof. destruct m; cbn; auto. Qed.

Section S.
Context {P B : Type}.
Variable e : env P B.
Notation plan := (plan B).
Definition nslv : Z := Z.of_nat (length (rg_descs (e_reg e))).
Hypothesis HReg : reg_ok (e_reg e).
Hypothesis HN : nslv <= 4095.
Hypothesis HC : forall n d, nth_error (rg_descs (e_reg e)) n = Some d -> forall p, careful [] (sd_prog d p).
Hypothesis HE : forall n d, nth_error (rg_descs (e_reg e)) n = Some d -> forall p, never_clears ESTIMATE (sd_prog d p).

(** ** the heap *)
Definition oids (r : option plan) : list nat := match r with Some x => ids x | None => [] end.
Definition HI (s : st) : Prop := NoDup (s_live s) /\ Forall (fun i => (i < s_next s)%nat) (s_live s).
Lemma remove1_in i l : In i l -> exists l', remove1 i l = Some l' /\ Permutation l (i :: l').
Proof.
  induction l as [|j l IH]; intros H; [destruct H|]. cbn [remove1]. destruct (Nat.eqb_spec i j) as [->|N]; [eauto|].
  destruct H as [H|H]; [congruence|]. destruct (IH H) as (l' & E & Q). rewrite E. exists (j :: l'). split; auto. rewrite Q. apply perm_swap.
Qed.
Lemma free_all_ok is : forall l rest, Permutation l (is ++ rest) -> exists l', free_all is l = Ret l' /\ Permutation l' rest.
Proof.
  induction is as [|i is IH]; intros l rest H; cbn [free_all app] in *; [eauto|].
  assert (Hi : In i l) by (eapply Permutation_in; [symmetry; exact H|now left]).
  destruct (remove1_in i l Hi) as (l' & E & Q). rewrite E. apply IH. eapply Permutation_cons_inv. rewrite <- Q. exact H.
Qed.
Lemma NoDup_app_r {A} (a b : list A) : NoDup (a ++ b) -> NoDup b.
Proof. induction a as [|x a IH]; cbn; auto. intros H. inversion H; auto. Qed.
(** ** the tables *)
Definition rec_ok (r : record) : Prop := (rndx r = 4095 \/ (0 <= rndx r < nslv /\ rtl r = 0)) /\ (e_debug e = true -> rndx r <> 4095 -> subset (rl r) (ru r)).
Definition tab_ok (ht : hashtab) : Prop := WF ht /\ forall r, In r (records ht) -> rec_ok r.
Definition Inv (s : st) : Prop := HI s /\ tab_ok (s_hb s) /\ tab_ok (s_hu s) /\ (s_timed_out s = true -> s_ntc s = true).
Lemma destroy_safe x s rest : Inv s -> Permutation (s_live s) (oids x ++ rest) ->
  Safe (destroy x s) (fun s' => Inv s' /\ Permutation (s_live s') rest /\ s_timed_out s' = s_timed_out s /\ s_ntc s' = s_ntc s).
Proof.
  intros (H1 & H2 & H3 & H4) Hp. destruct x as [x|]; cbn [destroy oids] in *.
  - destruct (free_all_ok _ _ _ Hp) as (l' & E & Q). rewrite E. cbn. split; [|auto]. split; [|auto]. destruct H1 as [N F]. split; cbn.
    + rewrite Hp in N. apply NoDup_app_r in N. eapply Permutation_NoDup; [symmetry; exact Q|exact N].
    + apply Forall_forall. intros i Hi. rewrite Forall_forall in F. apply F. eapply Permutation_in; [symmetry; exact Hp|]. apply in_or_app. right. eapply Permutation_in; eauto.
  - cbn. unfold Inv. auto.
Qed.
Lemma lookup_safe ht k f : tab_ok ht -> Safe (htab_lookup ht k f) (fun r => match r with Some (_, l) => rec_ok (rec_of l) | None => True end).
Proof.
  intros [W R]. destruct (htab_lookup_ok ht k f W) as (r & E & H). rewrite E. cbn. destruct r as [[g l]|]; auto. apply R. apply H.
Qed.
Lemma hlookup_safe s k f : Inv s -> Safe (hlookup s k f) (fun r => match r with Some l => rec_ok (rec_of l) | None => True end).
Proof.
  intros (_ & T1 & T2 & _). unfold hlookup. eapply Safe_bind; [apply lookup_safe; exact T1|]. intros r _ Hr. destruct r as [[g l]|]; [exact Hr|].
  eapply Safe_bind; [apply lookup_safe; exact T2|]. intros r _ Hr'. destruct r as [[g l]|]; exact Hr'.
Qed.
Lemma insert_safe ht k f n : tab_ok ht -> rec_ok (mkrec k (fl f) (fu f) (ftl f) n) -> Safe (insert_guarded ht k f n) tab_ok.
Proof.
  intros [W R] Ho. unfold insert_guarded. destruct (Z.ltb_spec (nelem ht) (2 ^ 30)); [|exact Logic.I].
  assert (Hn : 0 <= n < 2 ^ 12). { destruct Ho as [[Q|Q] _]; cbn in Q; unfold nslv in *; lia. }
  destruct (htab_insert_ok ht k f n W H Hn) as (ht' & E & W' & Q). rewrite E. cbn. split; auto. intros r Hr.
  eapply Permutation_in in Hr; [|exact Q]. destruct Hr as [<-|Hr]; [exact Ho|]. apply filter_In in Hr as [Hr _]. auto.
Qed.
Lemma hinsert_safe s k f n : Inv s -> rec_ok (mkrec k (fl f) (fu f) (ftl f) n) ->
  Safe (hinsert s k f n) (fun s' => Inv s' /\ s_live s' = s_live s /\ s_timed_out s' = s_timed_out s).
Proof.
  intros (H1 & T1 & T2 & H4) Ho. unfold hinsert. destruct (fbless f).
  - eapply Safe_bind; [apply insert_safe; [exact T1|exact Ho]|]. intros ht _ Ht. cbn. unfold Inv. auto.
  - eapply Safe_bind; [apply insert_safe; [exact T2|exact Ho]|]. intros ht _ Ht. cbn. unfold Inv. auto.
Qed.
Lemma A_safe b : (e_debug e = true -> b = true) -> Safe (A_ e b) (fun _ => True).
Proof. unfold A_. intros H. destruct (e_debug e); [rewrite H by auto|]; exact Logic.I. Qed.
Lemma timeout_safe s : Inv s -> (est s -> s_timed_out s = false) ->
  Safe (timeout_p e s) (fun r => Inv (snd r) /\ s_live (snd r) = s_live s /\ s_timed_out (snd r) = fst r /\ (fst r = true -> ~ est s)).
Proof.
  intros I E. assert (I' := I). destruct I' as (I1 & I2 & I3 & I4). unfold timeout_p.
  assert (N : forall z, Inv z -> s_timed_out z = false -> s_live z = s_live s ->
    Safe (_ <- A_ e (negb (s_timed_out z));; Ret (false, set_timeout z (s_timed_out z) false))
      (fun r => Inv (snd r) /\ s_live (snd r) = s_live s /\ s_timed_out (snd r) = fst r /\ (fst r = true -> ~ est s))).
  { intros z Iz Tz Lz. eapply Safe_bind; [apply A_safe; intros _; rewrite Tz; reflexivity|]. intros u _ _. cbn. rewrite Tz. split; [|repeat split; auto; discriminate].
    destruct Iz as (Z1 & Z2 & Z3 & Z4). split; [exact Z1|]. split; [exact Z2|]. split; [exact Z3|]. discriminate. }
  destruct (ESTIMATEP s) eqn:ES; cbn [negb].
  - apply N; auto.
  - destruct (s_timed_out s) eqn:T.
    + eapply Safe_bind; [apply A_safe; auto|]. intros u _ _. cbn. split; auto. split; auto. split; auto. intros _. unfold est. rewrite ES. discriminate.
    + destruct (e_timelimit e).
      * destruct (e_clock e (s_nclk s)).
        -- cbn. split; [|repeat split; auto; intros _; unfold est; rewrite ES; discriminate]. split; [exact I1|]. split; [exact I2|]. split; [exact I3|]. auto.
        -- apply N; auto.
      * specialize (N s). rewrite T in N. apply N; auto.
Qed.
Lemma ids_pcost x c : ids (with_pcost x c) = ids (B := B) x. Proof. destruct x; reflexivity. Qed.
Lemma eval_inv x s x' s' : evaluate_plan e x s = (x', s') -> Inv s -> Inv s' /\ s_live s' = s_live s /\ s_timed_out s' = s_timed_out s /\ ids x' = ids x /\ s_flags s' = s_flags s.
Proof.
  intros H (I1 & I2 & I3 & I4). unfold evaluate_plan in H. destruct (_ || _ || _); [destruct (ESTIMATEP s)|]; cbv zeta in H; [|destruct (_ <? 0)|]; inj H;
    (split; [split; [exact I1|]; split; [exact I2|]; split; [exact I3|]; auto; cbn; tauto|]); repeat split; apply ids_pcost.
Qed.

Section R.
Variable rec : P -> st -> out (option plan * st).
Definition dbg (f : flags_t) : Prop := e_debug e = true -> subset (fl f) (fu f).
Definition Pre (s : st) : Prop := Inv s /\ dbg (s_flags s).
Definition Post (base : list nat) (s : st) (q : option plan * st) : Prop :=
  Inv (snd q) /\ Permutation (s_live (snd q)) (oids (fst q) ++ base) /\ (einv s -> s_timed_out s = false -> s_timed_out (snd q) = false).
Hypothesis HS : forall p s r s', rec p s = Ret (r, s') -> Scoped s s' r.
Hypothesis HRec : forall p s, Pre s -> Safe (rec p s) (Post (s_live s) s).

Lemma run_safe g : never_clears ESTIMATE g -> forall own base s, careful own g -> Pre s -> Permutation (s_live s) (flat_map ids own ++ base) ->
  Safe (run rec g s) (Post base s).
Proof.
  induction g as [o|p a b c k IH|x k IH|n k IH|k IH]; intros NC own base s Hc Pr Hp; cbn [run never_clears] in *.
  - inversion Hc; subst; cbn.
    + unfold Post; cbn. destruct Pr. auto.
    + destruct Pr as [(I1 & I2 & I3 & I4) _]. unfold Post; cbn. split; [|split].
      * split; [|split; [exact I2|]; split; [exact I3|exact I4]]. destruct I1 as [N F]. split; cbn.
        -- constructor; auto. intros Hn. rewrite Forall_forall in F. specialize (F _ Hn). cbn in F. lia.
        -- constructor; [lia|]. eapply Forall_impl; [|exact F]. cbn. intros; lia.
      * constructor. rewrite Hp. apply Permutation_app_tail. apply Permutation_flat_map. auto.
      * auto.
  - destruct NC as [NC1 NC2]. inversion Hc as [| |? ? ? ? ? ? Hc1 Hc2| | |]; subst.
    eapply Safe_bind with (Q1 := Post (s_live s) s).
    { unfold mkplan_f_d. cbv zeta. destruct Pr as [I D]. eapply Safe_bind; [apply HRec|].
      - split; [exact I|]. unfold dbg in *. cbn. intros Hd. specialize (D Hd). intros i Hi. rewrite !Z.lor_spec, Z.ldiff_spec in *. specialize (D i).
        destruct (Z.testbit (fl (s_flags s)) i); cbn in *.
        + rewrite D by reflexivity. destruct (Z.testbit c i); cbn in *; auto. rewrite Hi. apply orb_true_r.
        + rewrite Hi. rewrite !orb_true_r. reflexivity.
      - intros [r s1] _ (R1 & R2 & R3). cbn in *. split; [exact R1|]. split; [exact R2|]. cbn. intros E T. apply R3; [|exact T].
        destruct E as [E|E]; [left|right; exact E]. unfold est, ESTIMATEP in *. cbn. now apply est_keep. }
    intros [r s1] Es (R1 & R2 & R3). cbn [fst snd] in *. pose proof (sub_Sc rec HS _ _ _ _ _ _ _ Es) as C.
    eapply Safe_imp; [eapply (IH r (NC2 r) (match r with Some y => y :: own | None => own end) base)|].
    + destruct r; auto.
    + split; auto. destruct C as (C & _). unfold dbg. rewrite C. apply Pr.
    + rewrite R2. destruct r as [y|]; cbn [oids flat_map app]; rewrite <- ?app_assoc; now apply Permutation_app_head || auto.
    + intros [r2 s2] _ (Q1 & Q2 & Q3). split; auto. split; auto. intros E T. apply Q3; [eapply einv_Sc; eauto|]. now apply R3.
  - inversion Hc as [| | |? own' ? ? Hp' Hc'| |]; subst. eapply Safe_bind; [apply (destroy_safe (Some x) s (flat_map ids own' ++ base)); [apply Pr|]|].
    + cbn [oids]. rewrite Hp. rewrite app_assoc. apply Permutation_app_tail. rewrite (Permutation_flat_map _ Hp'). reflexivity.
    + intros s1 Ed (Q1 & Q2 & Q3 & _). pose proof (destroy_Sc _ _ _ Ed) as [C _]. eapply Safe_imp; [eapply (IH NC own' base)|]; auto.
      * split; auto. destruct C as (C & _). unfold dbg. rewrite C. apply Pr.
      * intros q _ (X1 & X2 & X3). split; auto. split; auto. intros E T. apply X3; [eapply einv_Sc; eauto|congruence].
  - inversion Hc; subst. eapply Safe_imp; [eapply (IH NC own base)|]; auto.
  - inversion Hc as [| | | | |? ? Hc1]; subst. apply (IH _ _ (NC _ _) own base); auto.
Qed.
Lemma invoke_safe p n d f s : nth_error (rg_descs (e_reg e)) n = Some d -> sd_kind d = e_kind e p -> Inv s -> dbg f ->
  Safe (invoke_solver e rec p d f s) (fun q => Inv (snd q) /\ Permutation (s_live (snd q)) (oids (fst q) ++ s_live s) /\
    ((has (fu f) ESTIMATE = true \/ only s) -> s_timed_out s = false -> s_timed_out (snd q) = false)).
Proof.
  intros Hd Hk I D. unfold invoke_solver. cbv zeta. eapply Safe_bind; [apply A_safe; intros _; apply Nat.eqb_eq; auto|]. intros _ _ _.
  eapply Safe_bind; [eapply (run_safe _ (HE _ _ Hd p) [] (s_live s)); [eapply HC; eauto|split; auto|reflexivity]|].
  intros [r s1] _ (R1 & R2 & R3). cbn in *. split; [exact R1|]. split; [exact R2|]. intros E T. apply R3; auto.
Qed.

Definition bids (b : option (plan * Z)) : list nat := match b with Some (x, _) => ids x | None => [] end.
Definition ndx_in (b : option (plan * Z)) : Prop := match b with Some (_, n) => 0 <= n < nslv | None => True end.
Lemma bids_oids b : bids b = oids (option_map fst b). Proof. destruct b as [[x n]|]; reflexivity. Qed.
Lemma loop_safe p f lst : (forall n d, In (n, d) lst -> 0 <= n /\ nth_error (rg_descs (e_reg e)) (Z.to_nat n) = Some d /\ sd_kind d = e_kind e p) -> dbg f ->
  forall best nyt s base, fu f = fu (s_flags s) -> Inv s -> Permutation (s_live s) (bids best ++ base) -> s_timed_out s = false -> ndx_in best ->
  Safe (search_loop e rec lst p f best nyt s) (fun q => Inv (snd q) /\ Permutation (s_live (snd q)) (bids (fst q) ++ base) /\ ndx_in (fst q) /\
     (fst q <> None -> s_timed_out (snd q) = false) /\ (est s -> s_timed_out (snd q) = false)).
Proof.
  intros Hl D. induction lst as [|[n d] lst IH]; intros best nyt s base Hf I Hp T Hn; cbn [search_loop].
  { cbn. auto. }
  assert (IH' := IH (fun m d' Hm => Hl m d' (or_intror Hm))). clear IH.
  destruct (Hl n d (or_introl eq_refl)) as (Hn0 & Hd & Hk).
  assert (Hn1 : 0 <= n < nslv). { split; auto. assert (nth_error (rg_descs (e_reg e)) (Z.to_nat n) <> None) as Q by congruence. apply nth_error_Some in Q. unfold nslv. lia. }
  eapply Safe_bind; [eapply invoke_safe; eauto|]. intros [x s1] Ex (X1 & X2 & X3). cbn [fst snd] in *.
  pose proof (invoke_Sc e rec HS _ _ _ _ _ _ Ex) as [(F1 & _ & _ & _) _].
  set (s2 := emit s1 _). assert (I2 : Inv s2) by exact X1. assert (F2 : s_flags s2 = s_flags s) by exact F1.
  assert (T2 : est s2 -> s_timed_out s2 = false). { intros E. apply X3; auto. left. rewrite Hf, <- F2. exact E. }
  assert (P2 : Permutation (s_live s2) (oids x ++ bids best ++ base)) by (change (s_live s2) with (s_live s1); rewrite X2; now apply Permutation_app_head).
  clearbody s2. clear X1 X2 X3 F1 Ex s1.
  eapply Safe_bind with (Q1 := fun r => Inv (snd r) /\ s_live (snd r) = s_live s2 /\ s_timed_out (snd r) = fst r /\ (fst r = true -> ~ est s2) /\ s_flags (snd r) = s_flags s2).
  { destruct (s_ntc s2) eqn:NT.
    - eapply Safe_imp; [apply timeout_safe; auto|]. intros [b s3] Et (Q1 & Q2 & Q3 & Q4). cbn in *. apply timeout_Sc in Et as [(C & _) _]. auto.
    - cbn. split; auto. split; auto. split; [|split; [discriminate|auto]]. destruct (s_timed_out s2) eqn:Q; auto. destruct I2 as (_ & _ & _ & I2). rewrite NT in I2. discriminate (I2 Q). }
  intros [late s3] _ (I3 & L3 & T3 & E3 & F3). cbn [fst snd] in *. rewrite <- L3 in P2. destruct late.
  { eapply Safe_bind; [eapply (destroy_safe x s3 (bids best ++ base)); auto|]. intros s4 E4 (I4 & P4 & T4 & _).
    eapply Safe_bind; [eapply (destroy_safe (option_map fst best) s4 base); auto; rewrite <- bids_oids; auto|]. intros s5 E5 (I5 & P5 & T5 & _).
    cbn. split; auto. split; auto. split; auto. split; [congruence|]. intros E. exfalso. apply E3; auto. unfold est, ESTIMATEP in *. congruence. }
  destruct x as [x|].
  2:{ eapply Safe_imp; [eapply (IH' best nyt s3 base); auto; congruence|]. intros q _ (Q1 & Q2 & Q3 & Q4 & Q5). repeat (split; [assumption|]). intros E. apply Q5. unfold est, ESTIMATEP in *. congruence. }
  cbn [oids] in P2.
  eapply Safe_bind with (Q1 := fun c => let '(b', nyt', s7) := c in Inv s7 /\ Permutation (s_live s7) (bids (Some b') ++ base) /\ s_timed_out s7 = false /\ ndx_in (Some b') /\ s_flags s7 = s_flags s3).
  { destruct best as [[b nb]|].
    2:{ cbn in *. auto 6. }
    cbn [bids] in P2. destruct (if nyt then evaluate_plan e b s3 else (b, s3)) as [b1 s4] eqn:E4.
    assert (V4 : Inv s4 /\ s_live s4 = s_live s3 /\ s_timed_out s4 = s_timed_out s3 /\ ids b1 = ids b /\ s_flags s4 = s_flags s3).
    { destruct nyt; [eapply eval_inv; eauto|]. inj E4. auto. }
    destruct V4 as (I4 & L4 & T4 & D4 & F4). destruct (evaluate_plan e x s4) as [x1 s5] eqn:E5.
    destruct (eval_inv _ _ _ _ E5 I4) as (I5 & L5 & T5 & D5 & F5).
    assert (P5 : Permutation (s_live s5) (ids x1 ++ ids b1 ++ base)) by (rewrite L5, L4, D5, D4; exact P2).
    destruct (pcost x1 <? pcost b1).
    - eapply Safe_bind; [eapply (destroy_safe (Some b1) s5 (ids x1 ++ base)); auto|].
      + cbn [oids]. rewrite P5. rewrite !app_assoc. apply Permutation_app_tail, Permutation_app_comm.
      + intros s6 E6 (I6 & P6 & T6 & _). apply destroy_Sc in E6 as [(F6 & _) _]. cbn. split; auto. split; auto. split; [congruence|]. split; [auto|congruence].
    - eapply Safe_bind; [eapply (destroy_safe (Some x1) s5 (ids b1 ++ base)); auto|].
      intros s6 E6 (I6 & P6 & T6 & _). apply destroy_Sc in E6 as [(F6 & _) _]. cbn. split; auto. split; auto. split; [congruence|]. split; [auto|congruence]. }
  intros [[b' nyt'] s7] _ (I7 & P7 & T7 & N7 & F7). destruct (ALLOW_PRUNINGP s7 && pprune x).
  { cbn. auto. }
  eapply Safe_imp; [eapply (IH' (Some b') nyt' s7 base); auto; congruence|]. intros q _ (Q1 & Q2 & Q3 & Q4 & Q5). repeat (split; [assumption|]). intros E. apply Q5. unfold est, ESTIMATEP in *. congruence.
Qed.
Definition SPost (base : list nat) (s : st) (b : option (plan * Z)) (s' : st) : Prop :=
  Inv s' /\ Permutation (s_live s') (bids b ++ base) /\ ndx_in b /\ (b <> None -> s_timed_out s' = false) /\ (est s -> s_timed_out s' = false).
Lemma search0_safe p f s : fu f = fu (s_flags s) -> dbg f -> Inv s -> (est s -> s_timed_out s = false) ->
  Safe (search0 e rec p f s) (fun q => SPost (s_live s) s (fst q) (snd q)).
Proof.
  intros Hf D I E. unfold search0. eapply Safe_bind; [apply timeout_safe; auto|]. intros [late s1] Et (I1 & L1 & T1 & E1). cbn [fst snd] in *.
  apply timeout_Sc in Et as [(F1 & _) _]. destruct late.
  { cbn. unfold SPost. split; auto. split; [rewrite L1; reflexivity|]. split; [exact Logic.I|]. split; [congruence|]. intros Q. exfalso. apply E1; auto. }
  rewrite HReg. cbn [bind]. eapply Safe_imp; [eapply (loop_safe p f _ (fun n d Hm => proj1 (of_kind_in _ _ n d) Hm) D None true s1 (s_live s))|]; auto; try congruence.
  - rewrite L1. reflexivity.
  - exact Logic.I.
  - intros [b s2] _ (Q1 & Q2 & Q3 & Q4 & Q5). cbn [fst snd] in *. unfold SPost. repeat (split; [assumption|]). intros Q. apply Q5. unfold est, ESTIMATEP in *. congruence.
Qed.
Lemma relax_safe p l tab : forall x last f s, (e_debug e = true -> subset x (fu f)) -> fu f = fu (s_flags s) -> Inv s -> (est s -> s_timed_out s = false) -> dbg f ->
  Safe (relax_loop e rec tab p l x last f s) (fun r => let '(b, _, f', s') := r in SPost (s_live s) s b s' /\ fu f' = fu f /\ dbg f' /\ ftl f' = ftl f).
Proof.
  induction tab as [|t tab IH]; intros x last f s Hx Hf I E D; cbn [relax_loop].
  - cbn. split; [|auto]. unfold SPost. split; auto. split; [reflexivity|]. split; [exact Logic.I|]. split; [congruence|auto].
  - cbv zeta. set (x' := if LEQ l (Z.ldiff x t) then _ else _).
    assert (Hx' : e_debug e = true -> subset x' (fu f)).
    { intros Hd. unfold x'. destruct (LEQ l (Z.ldiff x t)); auto. intros i Hi. rewrite Z.ldiff_spec in Hi. apply andb_true_iff in Hi as [Hi _]. now apply Hx. }
    clearbody x'. destruct (negb (x' =? last)); [|apply IH; auto].
    eapply Safe_bind; [apply search0_safe; auto|]. intros [b s1] Es (I1 & P1 & N1 & T1 & E1). cbn [fst snd] in *.
    apply (search0_Sc e rec HS) in Es as [(F1 & _) _].
    destruct b as [b|].
    + cbn. split; [|auto]. split; auto.
    + assert (ES : est s1 -> est s) by (unfold est, ESTIMATEP; rewrite F1; auto). cbn [bids app] in P1.
      eapply Safe_imp; [apply IH; auto; cbn; rewrite ?F1; auto|]. intros [[[b last'] f'] s2] _ ((Q1 & Q2 & Q3 & Q4 & Q5) & Q6 & Q7 & Q8). split; [|auto].
      split; auto. split; [rewrite Q2; now apply Permutation_app_head|]. split; auto. split; auto. intros Z. apply Q5. unfold est, ESTIMATEP in *. congruence.
Qed.
Lemma search_safe p s : Pre s -> s_timed_out s = false ->
  Safe (search e rec p (s_flags s) s) (fun r => let '(b, f', s') := r in SPost (s_live s) s b s' /\ fu f' = fu (s_flags s) /\ dbg f' /\ ftl f' = ftl (s_flags s)).
Proof.
  intros [I D] T. unfold search. cbv zeta. set (s0 := emit s _). assert (I0 : Inv s0) by exact I.
  eapply Safe_bind; [apply (relax_safe p _ _ _ _ (s_flags s) s0); auto; intros _; apply subset_refl|].
  intros [[[b last] f1] s1] Er (SP & F1 & D1 & L1). pose proof (relax_Sc e rec HS _ _ _ _ _ _ _ _ Er) as [(C & _) _]. cbn [snd] in C.
  change (s_flags s0) with (s_flags s) in C. destruct b as [b|]; [cbn; auto|].
  destruct (negb (fl (s_flags s) =? last)); [|cbn; auto]. destruct SP as (Q1 & Q2 & Q3 & Q4 & Q5). cbn [bids app] in Q2. change (s_live s0) with (s_live s) in Q2.
  eapply Safe_bind; [apply search0_safe; auto; cbn; try congruence|].
  - unfold dbg in *. cbn. rewrite F1. auto.
  - intros Z. apply Q5. unfold est, ESTIMATEP in *. change (s_flags s0) with (s_flags s). congruence.
  - intros [q s2] _ (R1 & R2 & R3 & R4 & R5). cbn [Safe fst snd with_l fu ftl fl] in *. split; [|split; [auto|]; split; [unfold dbg, with_l; cbn [fl fu]; rewrite F1; auto|auto]].
    split; auto. split; [rewrite R2; now apply Permutation_app_head|]. split; auto. split; auto. intros Z. apply R5. unfold est, ESTIMATEP in *. congruence.
Qed.
Lemma skip_safe k x f s base : Inv s -> Permutation (s_live s) (bids x ++ base) -> ndx_in x -> (x <> None -> dbg f) -> (x <> None -> ftl f = 0) ->
  Safe (skip_search k x f s) (fun q => Inv (snd q) /\ Permutation (s_live (snd q)) (oids (fst q) ++ base) /\ s_timed_out (snd q) = s_timed_out s).
Proof.
  intros I Hp Hn D T0. unfold skip_search. eapply Safe_bind with (Q1 := fun s' => Inv s' /\ s_live s' = s_live s /\ s_timed_out s' = s_timed_out s).
  - destruct (_ || _); [|cbn; auto]. apply hinsert_safe; auto. split; cbn.
    + destruct x as [[x n]|]; [right; split; [exact Hn|apply T0; discriminate]|left; reflexivity].
    + intros Hd Hne. destruct x as [[x n]|]; [|exfalso; apply Hne; reflexivity]. apply D; [discriminate|auto].
  - intros s1 _ (Q1 & Q2 & Q3). cbn. split; auto. rewrite Q2, Hp, bids_oids. auto.
Qed.
Lemma isbogus_safe x s base : Inv s -> Permutation (s_live s) (oids x ++ base) ->
  Safe (wisdom_is_bogus x s) (fun q => Inv (snd q) /\ Permutation (s_live (snd q)) (oids (fst q) ++ base) /\ s_timed_out (snd q) = s_timed_out s).
Proof.
  intros I Hp. unfold wisdom_is_bogus. eapply Safe_bind; [eapply destroy_safe; eauto|]. intros s1 _ (Q1 & Q2 & Q3 & Q4). cbn. auto.
Qed.
Lemma body_safe p s : Pre s -> Safe (mkplan_body e rec p s) (Post (s_live s) s).
Proof.
  intros [I D]. unfold mkplan_body. eapply Safe_bind; [apply A_safe; intros Hd; apply LEQ_sub; apply D; auto|]. intros _ _ _. cbv zeta.
  set (s1 := if ESTIMATEP s then _ else s).
  assert (F : Inv s1 /\ s_live s1 = s_live s /\ s_timed_out s1 = s_timed_out s /\ s_ws s1 = s_ws s /\ (est s1 <-> est s) /\ dbg (s_flags s1)).
  { unfold s1, est. destruct (ESTIMATEP s) eqn:Q; [|rewrite Q; tauto]. split; [exact I|]. split; [reflexivity|]. split; [reflexivity|]. split; [reflexivity|]. split; [cbn; unfold ESTIMATEP in *; cbn; tauto|exact D]. }
  clearbody s1. destruct F as (I1 & L1 & T1 & W1 & E1 & D1). rewrite <- L1. destruct (bogus s1) eqn:Bg.
  { eapply Safe_imp; [apply (isbogus_safe None s1 (s_live s1)); auto|]. intros q _ (Q1 & Q2 & Q3). split; auto. split; auto. intros _ T. congruence. }
  set (s2 := set_timeout s1 false (s_ntc s1)).
  assert (I2 : Inv s2) by (destruct I1 as (A1 & A2 & A3 & A4); split; [exact A1|]; split; [exact A2|]; split; [exact A3|discriminate]).
  assert (Ex : forall q, Inv (snd q) /\ Permutation (s_live (snd q)) (oids (fst q) ++ s_live s1) /\ (einv s2 -> s_timed_out (snd q) = false) -> Post (s_live s1) s q).
  { intros q (Q1 & Q2 & Q3). split; auto. split; auto. intros [Ev|Ev] _; apply Q3; [left; apply E1; exact Ev|right]. unfold only in *. cbn. rewrite W1. exact Ev. }
  assert (P2 : Pre s2) by (split; [exact I2|exact D1]). assert (L2 : s_live s2 = s_live s1) by reflexivity.
  assert (W2 : s_ws s2 <> WISDOM_IS_BOGUS) by (apply bogus_false; exact Bg).
  assert (T2 : s_timed_out s2 = false) by reflexivity. clearbody s2.
  rewrite <- L2 in *. clear L2. set (k := e_sig e (s_nthr s2) p). clearbody k.
  assert (DS : Safe (do_search e rec p k s2) (Post (s_live s2) s)).
  { unfold do_search. destruct (ws_eqb (s_ws s2) WISDOM_ONLY) eqn:EO.
    { eapply Safe_imp; [apply (isbogus_safe None s2 (s_live s2)); auto|]. intros q _ (Q1 & Q2 & Q3). apply Ex. repeat (split; [assumption|]). intros _. congruence. }
    assert (NO : einv s2 -> est s2). { intros [Q|Q]; auto. exfalso. destruct Q as [Q|Q]; [|contradiction]. rewrite Q in EO. discriminate. }
    eapply Safe_bind; [apply search_safe; auto|]. intros [[b f] s3] _ ((I3 & P3 & N3 & T3 & E3) & F3 & D3 & L3).
    destruct (bogus s3).
    { eapply Safe_imp; [apply (isbogus_safe _ s3 (s_live s2)); auto; rewrite <- bids_oids; auto|]. intros q _ (Q1 & Q2 & Q3). apply Ex. repeat (split; [assumption|]). intros Q. rewrite Q3. auto. }
    destruct (s_timed_out s3) eqn:TO.
    - assert (b = None) by (destruct b; auto; discriminate T3; congruence). subst b. eapply Safe_bind; [apply A_safe; auto|]. intros _ _ _.
      destruct (negb (ftl (s_flags s3) =? 0)).
      + eapply Safe_imp; [apply (skip_safe k None _ s3 (s_live s2)); auto; congruence|]. intros q _ (Q1 & Q2 & Q3). apply Ex. repeat (split; [assumption|]). intros Q. exfalso. specialize (E3 (NO Q)). congruence.
      + cbn. apply Ex. cbn. repeat (split; [assumption|]). intros Q. rewrite TO. apply E3, NO, Q.
    - eapply Safe_imp; [apply (skip_safe k b _ s3 (s_live s2)); auto|]. intros q _ (Q1 & Q2 & Q3). apply Ex. repeat (split; [assumption|]). intros Q. congruence. }
  destruct (negb (ws_eqb (s_ws s2) WISDOM_IGNORE_ALL)); [|exact DS].
  eapply Safe_bind; [apply hlookup_safe; auto|]. intros [sol|] Es Hsol; [|exact DS].
  destruct (Z.eqb_spec (sndx sol) INFEASIBLE_SLVNDX) as [Ei|Ni].
  { destruct (ws_eqb (s_ws s2) WISDOM_IGNORE_INFEASIBLE); [exact DS|]. cbn. apply Ex. cbn. repeat (split; [assumption|]). auto. }
  destruct Hsol as [[Hs1|Hs1] Hs2]; cbn in Hs1, Hs2; [unfold INFEASIBLE_SLVNDX in *; congruence|].
  set (f' := mkfl _ _ _ _). set (s3 := set_ws s2 WISDOM_ONLY).
  assert (Df : dbg f') by (intros Hd; apply Hs2; auto). assert (Tf : ftl f' = 0) by exact (proj2 Hs1). clearbody f'. destruct Hs1 as [Hs1 _].
  unfold desc_at at 1. destruct (Z.leb_spec 0 (sndx sol)); [|lia]. destruct (nth_error (rg_descs (e_reg e)) (Z.to_nat (sndx sol))) as [d|] eqn:Ed.
  2:{ apply nth_error_None in Ed. unfold nslv in Hs1. lia. }
  cbn [bind]. destruct (Nat.eqb_spec (e_kind e p) (sd_kind d)) as [K|K]; cbn [negb].
  2:{ eapply Safe_imp; [apply (isbogus_safe None s3 (s_live s2)); auto|]. intros q _ (Q1 & Q2 & Q3). apply Ex. repeat (split; [assumption|]). intros _. rewrite Q3. exact T2. }
  eapply Safe_bind; [eapply (invoke_safe p _ d f' s3); eauto|]. intros [x s4] _ (I4 & P4 & T4). cbn [fst snd] in *.
  assert (T4' : s_timed_out s4 = false) by (apply T4; [right; left; reflexivity|exact T2]).
  change (s_live s3) with (s_live s2) in P4. destruct (bogus s4).
  { eapply Safe_imp; [apply (isbogus_safe x s4 (s_live s2)); auto|]. intros q _ (Q1 & Q2 & Q3). apply Ex. repeat (split; [assumption|]). intros _. congruence. }
  destruct x as [x|].
  - eapply Safe_imp; [apply (skip_safe k (Some (x, sndx sol)) f' (set_ws s4 (s_ws s2)) (s_live s2)); auto|]. intros q _ (Q1 & Q2 & Q3). apply Ex. repeat (split; [assumption|]). intros _. rewrite Q3. exact T4'.
  - eapply Safe_imp; [apply (isbogus_safe None s4 (s_live s2)); auto|]. intros q _ (Q1 & Q2 & Q3). apply Ex. repeat (split; [assumption|]). intros _. congruence.
Qed.
End R.
Lemma mkplan_safe fuel : forall p s, Pre s -> Safe (mkplan e fuel p s) (Post (s_live s) s).
Proof.
  induction fuel as [|fuel IH]; intros p s H; cbn [mkplan]; [exact Logic.I|].
  apply body_safe; auto. intros. eapply mkplan_Scoped; eauto.
Qed.
End S.
