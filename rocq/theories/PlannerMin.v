(** * Planner: the search returns a cheapest candidate *)
From Coq Require Import ZArith List Lia Bool Permutation.
From Verif Require Import Base SpecWisdom HashModel HashProofs FlagsModel PlannerModel SpecPlanner PlannerScope PlannerTrace PlannerBuilt PlannerSafe.
Import ListNotations.
Open Scope Z_scope.

Definition at_depth (d : nat) (ev : event) : bool :=
  match ev with ESearch d' => Nat.eqb d' d | ETry d' _ _ _ => Nat.eqb d' d | ECost d' _ _ => Nat.eqb d' d | EMeasure _ => false end.
Definition vw (d : nat) (s : st) : list event := filter (at_depth d) (s_tr s).

Section S.
Context {P B : Type}.
Variable e : env P B.
Notation plan := (plan B).
Hypothesis HReg : reg_ok (e_reg e).
Hypothesis HT : e_timelimit e = false.

Definition Deep (k : nat) (s s' : st) : Prop :=
  (forall d, (d < k)%nat -> vw d s' = vw d s) /\ (s_next s <= s_next s')%nat /\ (s_timed_out s = false -> s_timed_out s' = false).
Lemma Deep_refl k s : Deep k s s. Proof. repeat split; auto. Qed.
Lemma Deep_trans k a b c : Deep k a b -> Deep k b c -> Deep k a c.
Proof. intros (A1 & A2 & A3) (B1 & B2 & B3). split; [|split; [lia|auto]]. intros d Hd. rewrite B1, A1; auto. Qed.
Lemma Deep_le k k' s s' : (k' <= k)%nat -> Deep k s s' -> Deep k' s s'.
Proof. intros H (A1 & A2 & A3). split; [|auto]. intros d Hd. apply A1. lia. Qed.
Lemma Deep_same k s s' : s_tr s' = s_tr s -> s_next s' = s_next s -> s_timed_out s' = s_timed_out s -> Deep k s s'.
Proof. intros A B' C. unfold Deep, vw. rewrite A, B', C. auto. Qed.
Lemma vw_emit_lt d s ev : at_depth d ev = false -> vw d (emit s ev) = vw d s.
Proof. unfold vw. cbn [emit s_tr filter]. intros ->. reflexivity. Qed.
Lemma destroy_Deep k x s s' : destroy (B := B) x s = Ret s' -> Deep k s s'.
Proof. destruct x; cbn; intros H; [ib H l El|]; inj H; [|apply Deep_refl]. apply Deep_same; reflexivity. Qed.
Lemma timeout_late s b s' : timeout_p e s = Ret (b, s') -> s_timed_out s = false -> b = false.
Proof.
  unfold timeout_p. rewrite HT. intros H Q. rewrite Q in H. destruct (negb (ESTIMATEP s)); ib H u Eu; inj H; reflexivity.
Qed.
Lemma timeout_Deep k s b s' : timeout_p e s = Ret (b, s') -> Deep k s s'.
Proof.
  unfold timeout_p. rewrite HT. destruct (negb (ESTIMATEP s)); [destruct (s_timed_out s) eqn:Q|]; intros H; ib H u Eu; inj H; auto using Deep_refl; apply Deep_same; auto.
Qed.
(** an evaluation is one cost event *)
Lemma eval_view x s x' s' : evaluate_plan e x s = (x', s') ->
  vw (s_depth s) s' = ECost (s_depth s) (pid x') (pcost x') :: vw (s_depth s) s /\ Deep (s_depth s) s s' /\ pid x' = pid x /\ s_next s' = s_next s /\ s_timed_out s' = s_timed_out s.
Proof.
  assert (D : forall i c z, s_tr z = s_tr s \/ (exists j, s_tr z = EMeasure j :: s_tr s) -> s_next z = s_next s -> s_timed_out z = s_timed_out s -> s_depth z = s_depth s ->
    vw (s_depth s) (emit z (ECost (s_depth z) i c)) = ECost (s_depth s) i c :: vw (s_depth s) s /\ Deep (s_depth s) s (emit z (ECost (s_depth z) i c))).
  { intros i c z Z1 Z2 Z3 Z4. assert (V : forall d, vw d z = vw d s) by (intros d; unfold vw; destruct Z1 as [->|[j ->]]; reflexivity).
    rewrite Z4. split; [|split].
    - unfold vw at 1. cbn [emit s_tr filter at_depth]. rewrite Nat.eqb_refl. f_equal. apply V.
    - intros d Hd. rewrite vw_emit_lt; [apply V|]. cbn. apply Nat.eqb_neq. lia.
    - cbn. rewrite Z2, Z3. auto. }
  assert (PP : forall c, pid (with_pcost x c) = pid x) by (intros; destruct x; reflexivity).
  unfold evaluate_plan. destruct (_ || _ || _); [destruct (ESTIMATEP s)|]; cbv zeta; [|destruct (_ <? 0)|]; intros H; inj H; rewrite ?PP.
  - destruct (D (pid x) (pcost (with_pcost x (pest x))) s) as [D1 D2]; auto.
  - destruct (D (pid x) (pcost (with_pcost x (pest x))) (emit (tock s) (EMeasure (pid x)))) as [D1 D2]; [right; eexists; reflexivity|reflexivity|reflexivity|reflexivity|].
    split; [exact D1|]. split; [exact D2|]. auto.
  - set (z := set_timeout _ _ _). destruct (D (pid x) (pcost (with_pcost x (e_meas e (s_nmeas s)))) z) as [D1 D2]; [right; eexists; reflexivity|reflexivity|reflexivity|reflexivity|].
    split; [exact D1|]. split; [exact D2|]. auto.
  - destruct (D (pid x') (pcost x') s) as [D1 D2]; auto.
Qed.

Section R.
Variable rec : P -> st -> out (option plan * st).
Hypothesis HS : forall p s r s', rec p s = Ret (r, s') -> Scoped s s' r.
Hypothesis HD : forall p s r s', rec p s = Ret (r, s') -> Deep (s_depth s) s s'.
Lemma run_Deep g : forall s r s', run rec g s = Ret (r, s') ->
  Deep (S (s_depth s)) s s' /\ (forall x, r = Some x -> (s_next s <= pid x < s_next s')%nat).
Proof.
  induction g as [o|p a b c k IH|x k IH|n k IH|k IH]; intros s r s' H; cbn [run] in H.
  - destruct o as [[[[[ks b] c] es] pr]|]; inj H.
    + split; [|intros x Q; inj Q; cbn; lia]. split; [reflexivity|]. cbn. split; [lia|auto].
    + split; [apply Deep_refl|discriminate].
  - ib H x Ex. destruct x as [x s1]. pose proof (sub_Sc rec HS _ _ _ _ _ _ _ Ex) as (_ & Dp & _ & _).
    assert (D1 : Deep (S (s_depth s)) s s1).
    { unfold mkplan_f_d in Ex. cbv zeta in Ex. ib Ex y Ey. destruct y as [y s2]. apply HD in Ey. inj Ex. exact Ey. }
    apply IH in H as [H1 H2]. cbn [snd] in *. rewrite Dp in H1. split; [eapply Deep_trans; eauto|]. intros y Hy. apply H2 in Hy. destruct D1 as (_ & D1 & _). lia.
  - ib H s1 E1. pose proof (destroy_Sc _ _ _ E1) as [(_ & Dp & _) _]. apply (destroy_Deep (S (s_depth s))) in E1. apply IH in H as [H1 H2]. rewrite Dp in H1.
    split; [eapply Deep_trans; eauto|]. intros y Hy. apply H2 in Hy. destruct E1 as (_ & D1 & _). lia.
  - apply IH in H. exact H.
  - apply IH in H. exact H.
Qed.
Lemma invoke_Deep p d f s r s' : invoke_solver e rec p d f s = Ret (r, s') ->
  Deep (S (s_depth s)) s s' /\ (forall x, r = Some x -> (s_next s <= pid x < s_next s')%nat).
Proof.
  unfold invoke_solver. cbv zeta. intros H. ib H u Eu. ib H y Ey. destruct y as [y s5]. apply run_Deep in Ey. inj H. exact Ey.
Qed.

(** ** one round of the search: [t] are the events of the round so far *)
Definition Cand (d : nat) (t : list event) (i : nat) : Prop := exists l n, In (ETry d l n (Some i)) t.
Definition Good (d : nat) (l : Z) (t : list event) (hi : nat) (best : option (plan * Z)) (nyt : bool) : Prop :=
  (forall l' n o, In (ETry d l' n o) t -> l' = l) /\
  (forall i, Cand d t i -> (i < hi)%nat) /\
  (forall i c, In (ECost d i c) t -> Cand d t i) /\
  (forall i c c', In (ECost d i c) t -> In (ECost d i c') t -> c = c') /\
  match best with
  | None => nyt = true /\ forall i, ~ Cand d t i
  | Some (b, n) => In (ETry d l n (Some (pid b))) t /\
      if nyt then (forall i, Cand d t i -> i = pid b) /\ (forall i c, ~ In (ECost d i c) t)
      else In (ECost d (pid b) (pcost b)) t /\ forall i, Cand d t i -> exists c, In (ECost d i c) t /\ pcost b <= c
  end.
Lemma Cand_try d t l n o i : Cand d (ETry d l n o :: t) i <-> o = Some i \/ Cand d t i.
Proof.
  unfold Cand. split.
  - intros (l' & m & [H|H]); [inj H; auto|eauto].
  - intros [->|(l' & m & H)]; [exists l, n; now left|exists l', m; now right].
Qed.
Lemma Cand_cost d t j c i : Cand d (ECost d j c :: t) i <-> Cand d t i.
Proof.
  unfold Cand. split; [intros (l' & m & [H|H]); [discriminate|eauto]|intros (l' & m & H); exists l', m; now right].
Qed.
Lemma Good_fail d l t hi best nyt n : Good d l t hi best nyt -> Good d l (ETry d l n None :: t) hi best nyt.
Proof.
  intros (G0 & G1 & G2 & G3 & G4). split; [|split; [|split; [|split]]].
  - intros l' m o [H|H]; [now inj H|eauto].
  - intros i H. apply Cand_try in H as [H|H]; [discriminate|auto].
  - intros i c [H|H]; [discriminate|]. apply Cand_try. right. eauto.
  - intros i c c' [H|H] [H'|H']; try discriminate. eauto.
  - destruct best as [[b nb]|].
    + destruct G4 as [G4 G5]. split; [now right|]. destruct nyt.
      * destruct G5 as [G5 G6]. split.
        -- intros i H. apply Cand_try in H as [H|H]; [discriminate|auto].
        -- intros i c [H|H]; [discriminate|]. eapply G6; eauto.
      * destruct G5 as [G5 G6]. split; [now right|]. intros i H. apply Cand_try in H as [H|H]; [discriminate|]. destruct (G6 i H) as (c & Q & Q'). exists c. split; [now right|auto].
    + destruct G4 as [G4 G5]. split; auto. intros i H. apply Cand_try in H as [H|H]; [discriminate|]. eapply G5; eauto.
Qed.
Lemma Good_hi d l t hi hi' best nyt : (hi <= hi')%nat -> Good d l t hi best nyt -> Good d l t hi' best nyt.
Proof. intros H (G0 & G1 & G2 & G3 & G4). split; [auto|]. split; [|auto]. intros i Hi. apply G1 in Hi. lia. Qed.
Lemma Good_first d l t hi hi' n x nyt : Good d l t hi None nyt -> (hi <= pid x < hi')%nat ->
  Good d l (ETry d l n (Some (pid x)) :: t) hi' (Some (x, n)) true.
Proof.
  intros (G0 & G1 & G2 & G3 & [-> G4]) Hx. split; [|split; [|split; [|split]]].
  - intros l' m o [H|H]; [now inj H|eauto].
  - intros i H. apply Cand_try in H as [H|H]; [inj H; lia|exfalso; eapply G4; eauto].
  - intros i c [H|H]; [discriminate|]. apply Cand_try. right. eauto.
  - intros i c c' [H|H] [H'|H']; try discriminate. eauto.
  - split; [now left|]. split.
    + intros i H. apply Cand_try in H as [H|H]; [now inj H|exfalso; eapply G4; eauto].
    + intros i c [H|H]; [discriminate|]. apply G2 in H. eapply G4; eauto.
Qed.
(** after the second and later candidates *)
Lemma Good_next d l t hi hi' n nb (b b1 x x1 : plan) (nyt : bool) : Good d l t hi (Some (b, nb)) nyt -> (hi <= pid x < hi')%nat -> pid x1 = pid x ->
  pid b1 = pid b -> (nyt = false -> b1 = b) ->
  let t' := ECost d (pid x1) (pcost x1) :: (if nyt then [ECost d (pid b1) (pcost b1)] else []) ++ ETry d l n (Some (pid x)) :: t in
  forall y, y = (if pcost x1 <? pcost b1 then (x1, n) else (b1, nb)) -> Good d l t' hi' (Some y) false.
Proof.
  intros (G0 & G1 & G2 & G3 & [G4 G5]) Hx Ex Eb Enb t'.
  set (t1 := (if nyt then [ECost d (pid b1) (pcost b1)] else []) ++ ETry d l n (Some (pid x)) :: t).
  assert (C1 : forall i, Cand d t1 i <-> i = pid x \/ Cand d t i).
  { intros i. unfold t1. destruct nyt; cbn [app]; rewrite ?Cand_cost, Cand_try; (split; intros [H|H]; [left; congruence|now right|left; congruence|now right]). }
  assert (C2 : forall i c, In (ECost d i c) t1 -> (nyt = true /\ i = pid b /\ c = pcost b1) \/ (nyt = false /\ In (ECost d i c) t)).
  { intros i c H. unfold t1 in H. destruct nyt; cbn [app In] in H.
    - destruct H as [H|[H|H]]; [inj H; left; auto|discriminate|]. destruct G5 as [_ G5]. exfalso. eapply G5; eauto.
    - destruct H as [H|H]; [discriminate|auto]. }
  assert (Cb : In (ECost d (pid b1) (pcost b1)) t1).
  { unfold t1. destruct nyt; cbn [app]; [now left|]. right. destruct G5 as [G5 _]. rewrite (Enb eq_refl). exact G5. }
  assert (Fr : forall i, Cand d t i -> i <> pid x) by (intros i H Q; apply G1 in H; lia).
  assert (Bc : Cand d t (pid b)) by (exists l, nb; exact G4).
  assert (Lo : forall i, Cand d t i -> exists c, In (ECost d i c) t1 /\ pcost b1 <= c).
  { intros i H. destruct nyt.
    - destruct G5 as [G5 _]. apply G5 in H. subst i. exists (pcost b1). rewrite <- Eb. split; [exact Cb|lia].
    - destruct G5 as [_ G5]. destruct (G5 i H) as (c & Q & Q'). exists c. rewrite (Enb eq_refl). split; [|exact Q']. unfold t1. cbn [app]. now right. }
  assert (T1 : forall l' m o, In (ETry d l' m o) t1 -> l' = l).
  { intros l' m o H. unfold t1 in H. destruct nyt; cbn [app In] in H.
    - destruct H as [H|[H|H]]; [discriminate|now inj H|eauto].
    - destruct H as [H|H]; [now inj H|eauto]. }
  assert (Tx : In (ETry d l n (Some (pid x))) t1) by (unfold t1; destruct nyt; cbn [app]; [right; now left|now left]).
  assert (Tb : In (ETry d l nb (Some (pid b))) t1) by (unfold t1; destruct nyt; cbn [app]; [right; now right|now right]).
  change t' with (ECost d (pid x1) (pcost x1) :: t1). clearbody t1. clear t'.
  intros y Hy. split; [|split; [|split; [|split]]].
  - intros l' m o [H|H]; [discriminate|eauto].
  - intros i H. apply Cand_cost, C1 in H as [->|H]; [lia|]. apply G1 in H. lia.
  - intros i c [H|H]; apply Cand_cost, C1; [inj H; now left|]. right. apply C2 in H as [(_ & -> & _)|[_ H]]; eauto.
  - assert (Nx : forall c, ~ In (ECost d (pid x1) c) t1).
    { intros c H. apply C2 in H as [(_ & H & _)|[_ H]]; [apply (Fr _ Bc); congruence|]. apply G2 in H. apply Fr in H. congruence. }
    intros i c c' [H|H] [H'|H'].
    + congruence.
    + inj H. exfalso. eapply Nx; eauto.
    + inj H'. exfalso. eapply Nx; eauto.
    + apply C2 in H as [(N1 & -> & ->)|[N1 H]]; apply C2 in H' as [(N2 & _ & H')|[N2 H']]; try congruence. eauto.
  - destruct (Z.ltb_spec (pcost x1) (pcost b1)) as [L|L]; subst y; cbn [fst].
    + split; [right; rewrite Ex; exact Tx|]. split; [now left|]. intros i H. apply Cand_cost, C1 in H as [->|H].
      * exists (pcost x1). rewrite <- Ex. split; [now left|lia].
      * destruct (Lo i H) as (c & Q & Q'). exists c. split; [now right|lia].
    + split; [right; rewrite Eb; exact Tb|]. split; [now right|]. intros i H. apply Cand_cost, C1 in H as [->|H].
      * exists (pcost x1). rewrite <- Ex. split; [now left|lia].
      * destruct (Lo i H) as (c & Q & Q'). exists c. split; [now right|lia].
Qed.

(** which solvers have been tried *)
Definition Tried (d : nat) (l : Z) (ns : list Z) (t : list event) : Prop := forall n, In n ns -> exists o, In (ETry d l n o) t.
Definition Known (d : nat) (ns : list Z) (t : list event) : Prop := forall l n o, In (ETry d l n o) t -> In n ns.
Lemma loop_min p f lst all : forall best nyt s r s' t v, search_loop e rec lst p f best nyt s = Ret (r, s') ->
  s_timed_out s = false -> let d := s_depth s in vw d s = t ++ v -> Good d (fl f) t (s_next s) best nyt -> Known d all t -> incl (map fst lst) all ->
  exists t' nyt', vw d s' = t' ++ v /\ Good d (fl f) t' (s_next s') r nyt' /\ Known d all t' /\ s_timed_out s' = false /\ Deep d s s' /\
    (forall ev, In ev t -> In ev t') /\ (r = None \/ ALLOW_PRUNINGP s = false -> Tried d (fl f) (map fst lst) t').
Proof.
  induction lst as [|[n dd] lst IH]; intros best nyt s r s' t v H T d V G K Al; cbn [search_loop] in H.
  - inj H. exists t, nyt. split; auto. split; auto. split; auto. split; auto. split; [apply Deep_refl|]. split; auto. intros _ m [].
  - ib H x Ex. destruct x as [x s1]. pose proof (invoke_Sc e rec HS _ _ _ _ _ _ Ex) as [(F1 & Dp1 & _) _]. apply invoke_Deep in Ex as [D1 Fr].
    cbv zeta in H. set (s2 := emit s1 _) in *.
    assert (V2 : vw d s2 = ETry d (fl f) n (option_map pid x) :: t ++ v).
    { unfold s2, vw. cbn [emit s_tr filter at_depth]. rewrite Dp1. unfold d. rewrite Nat.eqb_refl. f_equal. rewrite <- V. apply D1. unfold d. lia. }
    assert (D2 : Deep d s s2).
    { eapply Deep_trans; [eapply Deep_le; [|exact D1]; unfold d; lia|]. split; [|split; [reflexivity|auto]]. intros k Hk. unfold s2. apply vw_emit_lt. cbn. rewrite Dp1. apply Nat.eqb_neq. fold d. lia. }
    assert (Fr2 : forall y, x = Some y -> (s_next s <= pid y < s_next s2)%nat) by exact Fr.
    assert (Q2 : s_depth s2 = d /\ s_flags s2 = s_flags s) by (split; auto). destruct Q2 as [Q2 F2].
    clearbody s2. clear D1 Fr Dp1 F1 s1.
    ib H tt Et. destruct tt as [late s3].
    assert (E3 : late = false /\ Deep d s2 s3 /\ s_depth s3 = d /\ vw d s3 = vw d s2 /\ s_flags s3 = s_flags s /\ s_next s3 = s_next s2).
    { destruct (s_ntc s2); [|inj Et; split; auto; split; [apply Deep_refl|auto]].
      pose proof (timeout_Sc _ _ _ _ Et) as [(Fx & Dx & _) _]. pose proof (timeout_Deep (S d) _ _ _ Et) as D3.
      split; [eapply timeout_late; eauto; now apply D2|]. split; [eapply Deep_le; [|exact D3]; lia|]. split; [congruence|]. split; [apply D3; lia|]. split; [congruence|].
      clear -Et HT. unfold timeout_p in Et. rewrite HT in Et. destruct (negb (ESTIMATEP s2)); [destruct (s_timed_out s2)|]; ib Et u Eu; inj Et; reflexivity. }
    destruct E3 as (-> & D3 & Q3 & V3 & F3 & N3). rewrite V2 in V3. pose proof (Deep_trans _ _ _ _ D2 D3) as D13.
    assert (Fr3 : forall y, x = Some y -> (s_next s <= pid y < s_next s3)%nat) by (intros y Hy; rewrite N3; auto).
    clear Et D2 D3 V2 N3 Fr2 Q2 F2 s2.
    assert (Kt : Known d all (ETry d (fl f) n (option_map pid x) :: t)).
    { intros l' m o [Q|Q]; [inj Q; apply Al; now left|eapply K; eauto]. }
    assert (Al' : incl (map fst lst) all) by (intros m Hm; apply Al; now right).
    assert (Fin : forall best' nyt' s7 t7 q, search_loop e rec lst p f best' nyt' s7 = Ret (q, s') -> s_timed_out s7 = false -> s_depth s7 = d -> vw d s7 = t7 ++ v ->
        Good d (fl f) t7 (s_next s7) best' nyt' -> Known d all t7 -> Deep d s s7 -> s_flags s7 = s_flags s -> (forall ev, In ev (ETry d (fl f) n (option_map pid x) :: t) -> In ev t7) ->
        exists t' nyt'', vw d s' = t' ++ v /\ Good d (fl f) t' (s_next s') q nyt'' /\ Known d all t' /\ s_timed_out s' = false /\ Deep d s s' /\
         (forall ev, In ev t -> In ev t') /\ (q = None \/ ALLOW_PRUNINGP s = false -> Tried d (fl f) (map fst ((n, dd) :: lst)) t')).
    { intros best' nyt' s7 t7 q H7 T7 Dp7 V7 G7 K7 D7 F7 I7. specialize (IH best' nyt' s7 q s' t7 v H7 T7). cbv zeta in IH. rewrite Dp7 in IH.
      destruct (IH V7 G7 K7 Al') as (t' & nyt'' & A1 & A2 & A3 & A4 & A5 & A6 & A7). exists t', nyt''. split; auto. split; auto. split; auto. split; auto.
      split; [eapply Deep_trans; eauto|]. split; [intros ev Hev; apply A6, I7; now right|].
      intros Hq m [<-|Hm].
      - exists (option_map pid x). apply A6, I7. now left.
      - apply A7; auto. unfold ALLOW_PRUNINGP in *. rewrite F7. exact Hq. }
    destruct x as [x|].
    2:{ apply (Fin best nyt s3 (ETry d (fl f) n None :: t)) in H; auto.
        - now apply D13.
        - apply Good_hi with (s_next s); [apply D13|]. now apply Good_fail. }
    cbn [option_map] in *. ib H c Ec. destruct c as [[b' n'] s7].
    assert (E7 : exists t7, vw d s7 = t7 ++ v /\ Good d (fl f) t7 (s_next s7) (Some b') n' /\ Known d all t7 /\ Deep d s s7 /\ s_depth s7 = d /\ s_flags s7 = s_flags s /\
        (forall ev, In ev (ETry d (fl f) n (Some (pid x)) :: t) -> In ev t7)).
    { destruct best as [[b nb]|].
      2:{ inj Ec. exists (ETry d (fl f) n (Some (pid x)) :: t). split; [exact V3|]. split; [|split; auto].
          assert (n' = true) by (destruct G as (_ & _ & _ & _ & [Q _]); exact Q). subst n'. eapply Good_first; eauto. }
      destruct (if nyt then evaluate_plan e b s3 else (b, s3)) as [b1 s4] eqn:E4.
      assert (W4 : vw d s4 = (if nyt then [ECost d (pid b1) (pcost b1)] else []) ++ ETry d (fl f) n (Some (pid x)) :: t ++ v /\ Deep d s3 s4 /\ s_depth s4 = d /\ pid b1 = pid b /\ (nyt = false -> b1 = b) /\ s_flags s4 = s_flags s /\ s_next s4 = s_next s3).
      { destruct nyt.
        - pose proof (eval_Sc _ _ _ _ _ E4) as [(X1 & X2 & _) _]. apply eval_view in E4 as (Y1 & Y2 & Y3 & Y4 & _). rewrite Q3 in *. rewrite V3 in Y1.
          split; [exact Y1|]. split; auto. split; auto. split; auto. split; [discriminate|]. split; [congruence|auto].
        - inj E4. split; [exact V3|]. split; [apply Deep_refl|auto]. }
      destruct W4 as (V4 & D4 & Q4 & B4 & N4 & F4 & X4). destruct (evaluate_plan e x s4) as [x1 s5] eqn:E5.
      pose proof (eval_Sc _ _ _ _ _ E5) as [(X1 & X2 & _) _]. apply eval_view in E5 as (Y1 & Y2 & Y3 & Y4 & _). rewrite Q4 in *. rewrite V4 in Y1.
      assert (G5 := Good_next d (fl f) t (s_next s) (s_next s5) n nb b b1 x x1 nyt G).
      assert (Hpx : (s_next s <= pid x < s_next s5)%nat) by (rewrite Y4, X4; auto). specialize (G5 Hpx Y3 B4 N4). cbv zeta in G5.
      assert (W : exists y z, b' = y /\ n' = false /\ destroy (B := B) (Some z) s5 = Ret s7 /\ y = (if pcost x1 <? pcost b1 then (x1, n) else (b1, nb))).
      { destruct (pcost x1 <? pcost b1); ib Ec s6 E6; inj Ec; eauto 7. }
      destruct W as (y & z & -> & -> & E6 & Ey). specialize (G5 y Ey).
      pose proof (destroy_Sc _ _ _ E6) as [(Z1 & Z2 & _) _]. pose proof (destroy_Deep d _ _ _ E6) as D6. pose proof (destroy_Deep (S d) _ _ _ E6) as (V6 & _ & _).
      eexists. split; [rewrite V6 by lia; rewrite Y1; rewrite app_comm_cons, (app_comm_cons t v); rewrite app_assoc; reflexivity|].
      split; [eapply Good_hi; [|exact G5]; apply D6|]. split.
      - intros l' m o Q. apply in_app_or in Q as [Q|Q].
        + destruct nyt; cbn in Q; [destruct Q as [Q|[Q|[]]]|destruct Q as [Q|[]]]; discriminate.
        + eapply Kt; eauto.
      - split; [eapply Deep_trans; [exact D13|]; eapply Deep_trans; [exact D4|]; eapply Deep_trans; eauto|]. split; [congruence|]. split; [congruence|].
        intros ev Hev. apply in_or_app. now right. }
    destruct E7 as (t7 & V7 & G7 & K7 & D7 & Q7 & F7 & I7). assert (T7 : s_timed_out s7 = false) by now apply D7.
    destruct (ALLOW_PRUNINGP s7 && pprune x) eqn:Pr.
    + inj H. exists t7, n'. split; auto. split; auto. split; auto. split; auto. split; auto. split; [intros ev Hev; apply I7; now right|].
      intros [Q|Q]; [discriminate|]. exfalso. apply andb_true_iff in Pr as [Pr _]. unfold ALLOW_PRUNINGP in *. rewrite F7 in Pr. congruence.
    + eapply Fin; eauto.
Qed.

(** ** a whole search: [t] are its events *)
Definition kindlist (p : P) : list Z := map fst (of_kind (e_kind e p) (rg_descs (e_reg e))).
Definition noplan (d : nat) (t : list event) : Prop := (forall l n i, ~ In (ETry d l n (Some i)) t) /\ (forall i c, ~ In (ECost d i c) t).
Definition Found (d : nat) (l : Z) (pruning : bool) (p : P) (t : list event) (b : plan * Z) : Prop :=
  In (ETry d l (snd b) (Some (pid (fst b)))) t /\
  (forall l' n i, In (ETry d l' n (Some i)) t -> l' = l /\ (i = pid (fst b) \/
      exists c, In (ECost d i c) t /\ In (ECost d (pid (fst b)) (pcost (fst b))) t /\ pcost (fst b) <= c)) /\
  (forall i c c', In (ECost d i c) t -> In (ECost d i c') t -> c = c') /\
  (pruning = false -> Tried d l (kindlist p) t).
Definition Outcome (d : nat) (l : Z) (pruning : bool) (p : P) (t : list event) (b : option (plan * Z)) : Prop :=
  Known d (kindlist p) t /\
  match b with Some b => Found d l pruning p t b | None => noplan d t /\ Tried d l (kindlist p) t end.
Lemma search0_min p f s r s' : search0 e rec p f s = Ret (r, s') -> s_timed_out s = false ->
  let d := s_depth s in exists t, vw d s' = t ++ vw d s /\ Outcome d (fl f) (ALLOW_PRUNINGP s) p t r /\ s_timed_out s' = false /\ Deep d s s'.
Proof.
  intros H T d. unfold search0 in H. ib H tt Et. destruct tt as [late s1].
  pose proof (timeout_late _ _ _ Et T) as ->. pose proof (timeout_Deep (S d) _ _ _ Et) as D1. apply timeout_Sc in Et as [(F1 & Dp & _) _].
  rewrite HReg in H. cbn [bind] in H. destruct D1 as (D1 & D1n & D1t).
  eapply (loop_min p f _ (kindlist p) None true s1 r s' [] (vw d s)) in H; [|auto| | | |apply incl_refl].
  - rewrite Dp in H. destruct H as (t' & nyt' & A1 & A2 & A3 & A4 & A5 & _ & A7). exists t'. split; auto. split; [|split; auto].
    + split; auto. destruct A2 as (G0 & G1 & G2 & G3 & G4). destruct r as [[b n]|].
      * destruct G4 as [G4 G5]. split; [exact G4|]. split; [|split; [exact G3|]].
        -- intros l' m i Hi. split; [eapply G0; eauto|]. assert (C : Cand d t' i) by (exists l', m; exact Hi). cbn [fst]. destruct nyt'.
           ++ left. now apply G5.
           ++ right. destruct G5 as [G5 G6]. destruct (G6 i C) as (c & Q & Q'). exists c. auto.
        -- intros Hp. apply A7. right. unfold ALLOW_PRUNINGP in *. now rewrite F1.
      * destruct G4 as [_ G4]. split; [split|].
        -- intros l m i Hi. apply (G4 i). exists l, m. exact Hi.
        -- intros i c Hi. apply G2 in Hi. eapply G4; eauto.
        -- apply A7. now left.
    + eapply Deep_trans; [split; [intros k Hk; apply D1; lia|split; eauto]|exact A5].
  - rewrite Dp. cbn [app]. apply D1. unfold d. lia.
  - rewrite Dp. split; [intros ? ? ? []|]. split; [intros i (? & ? & [])|]. split; [intros ? ? []|]. split; [intros ? ? ? []|]. split; auto. intros i (? & ? & []).
  - intros ? ? ? [].
Qed.
Lemma Outcome_app d l pr p t t0 b : Known d (kindlist p) t0 -> noplan d t0 -> Outcome d l pr p t b -> Outcome d l pr p (t ++ t0) b.
Proof.
  intros K0 [N1 N2] [K H]. split.
  - intros l' n o Hi. apply in_app_or in Hi as [Hi|Hi]; eauto.
  - destruct b as [b|].
    + destruct H as (H1 & H2 & H3 & H4). split; [apply in_or_app; now left|]. split; [|split].
      * intros l' n i Hi. apply in_app_or in Hi as [Hi|Hi]; [|exfalso; eapply N1; eauto]. destruct (H2 l' n i Hi) as [Q [Q'|(c & Q1 & Q2 & Q3)]]; split; auto.
        right. exists c. split; [apply in_or_app; now left|]. split; [apply in_or_app; now left|auto].
      * intros i c c' Hi Hi'. apply in_app_or in Hi as [Hi|Hi]; [|exfalso; eapply N2; eauto]. apply in_app_or in Hi' as [Hi'|Hi']; [|exfalso; eapply N2; eauto]. eauto.
      * intros Q n Hn. destruct (H4 Q n Hn) as (o & Ho). exists o. apply in_or_app. now left.
    + destruct H as [[H1 H2] H3]. split; [split|].
      * intros l' n i Hi. apply in_app_or in Hi as [Hi|Hi]; [eapply H1|eapply N1]; eauto.
      * intros i c Hi. apply in_app_or in Hi as [Hi|Hi]; [eapply H2|eapply N2]; eauto.
      * intros n Hn. destruct (H3 n Hn) as (o & Ho). exists o. apply in_or_app. now left.
Qed.
(** [t0]: events of the rounds before, the last of which was under [x] *)
Lemma relax_min p l0 tab : forall x f s r v t0, relax_loop e rec tab p l0 x x f s = Ret r -> s_timed_out s = false ->
  let d := s_depth s in vw d s = t0 ++ v -> Known d (kindlist p) t0 -> noplan d t0 -> Tried d x (kindlist p) t0 ->
  let '(b, last', f', s') := r in
  exists t, vw d s' = t ++ v /\ s_timed_out s' = false /\ Deep d s s' /\ (forall ev, In ev t0 -> In ev t) /\ (subset l0 x -> subset l0 last') /\ subset last' x /\
    Outcome d last' (ALLOW_PRUNINGP s) p t b /\ (b <> None -> fl f' = last').
Proof.
  induction tab as [|m tab IH]; intros x f s r v t0 H T d V K N Tl; cbn [relax_loop] in H.
  - inj H. exists t0. split; auto. split; auto. split; [apply Deep_refl|]. split; auto. split; auto. split; [apply subset_refl|]. split; [|congruence]. split; auto.
  - cbv zeta in H. set (x' := if LEQ l0 (Z.ldiff x m) then _ else _) in *.
    assert (X : (subset l0 x -> subset l0 x') /\ subset x' x).
    { unfold x'. destruct (LEQ l0 (Z.ldiff x m)) eqn:Q; [apply LEQ_sub in Q; split; auto|split; [auto|apply subset_refl]].
      intros i Hi. rewrite Z.ldiff_spec in Hi. now apply andb_true_iff in Hi as [Hi _]. }
    clearbody x'. destruct X as [X1 X2]. destruct (Z.eqb_spec x' x) as [E|E]; cbn [negb] in H.
    + rewrite E in H. eapply IH in H; eauto.
    + ib H q Eq. destruct q as [q s1]. pose proof (search0_Sc e rec HS _ _ _ _ _ Eq) as [(F1 & Dp & _) _].
      apply search0_min in Eq; auto. cbn [with_l fl] in Eq. fold d in Eq. destruct Eq as (t & V1 & O1 & T1 & D1). rewrite V, app_assoc in V1.
      pose proof (Outcome_app _ _ _ _ _ _ _ K N O1) as O2. destruct q as [b|].
      * inj H. exists (t ++ t0). split; auto. split; auto. split; auto. split; [intros ev Hev; apply in_or_app; now right|]. split; auto.
      * specialize (IH x' (with_l f x') s1 r v (t ++ t0) H T1). cbv zeta in IH. rewrite Dp in IH. fold d in IH. destruct O2 as [K2 [N2 T2]].
        specialize (IH V1 K2 N2 T2). destruct r as [[[b last'] f'] s']. destruct IH as (t' & A1 & A2 & A3 & A4 & A5 & A6 & A7 & A8).
        exists t'. split; auto. split; auto. split; [eapply Deep_trans; eauto|]. split; [intros ev Hev; apply A4, in_or_app; now right|].
        split; auto. split; [eapply subset_trans; eauto|]. split; auto. unfold ALLOW_PRUNINGP in *. now rewrite <- F1.
Qed.
Lemma search_min p s r : search e rec p (s_flags s) s = Ret r -> s_timed_out s = false ->
  let d := s_depth s in let '(b, f', s') := r in
  exists t l', vw d s' = t ++ ESearch d :: vw d s /\ s_timed_out s' = false /\ Deep d s s' /\
    (subset (fl (s_flags s)) (fu (s_flags s)) -> subset (fl (s_flags s)) l' /\ subset l' (fu (s_flags s))) /\ Outcome d l' (ALLOW_PRUNINGP s) p t b /\ (b = None -> l' = fl (s_flags s)).
Proof.
  unfold search. cbv zeta. intros H T. set (d := s_depth s) in *. set (s0 := emit s (ESearch d)) in *.
  assert (V0 : vw d s0 = ESearch d :: vw d s). { unfold s0, vw. cbn [emit s_tr filter at_depth]. now rewrite Nat.eqb_refl. }
  assert (D0 : Deep d s s0). { split; [|split; [reflexivity|auto]]. intros k Hk. unfold s0. apply vw_emit_lt. cbn. apply Nat.eqb_neq. lia. }
  assert (Dp0 : s_depth s0 = d) by reflexivity. assert (F0 : s_flags s0 = s_flags s) by reflexivity. assert (T0 : s_timed_out s0 = false) by exact T.
  clearbody s0. set (l := fl (s_flags s)) in *. set (u := fu (s_flags s)) in *.
  ib H q Eq. unfold relax_tab in Eq.
  assert (E1 : forall f tab, relax_loop e rec (0 :: tab) p l u (2 ^ 32 - 1 - u) f s0 =
     (q <- search0 e rec p (with_l f u) s0;; match q with (Some b, s1) => Ret (Some b, u, with_l f u, s1) | (None, s1) => relax_loop e rec tab p l u u (with_l f u) s1 end)).
  { intros f tab. cbn [relax_loop]. cbv zeta. rewrite Z.ldiff_0_r. replace (if LEQ l u then u else u) with u by (destruct (LEQ l u); reflexivity).
    destruct (Z.eqb_spec u (2 ^ 32 - 1 - u)); [lia|reflexivity]. }
  rewrite E1 in Eq. clear E1. ib Eq q1 Eq1. destruct q1 as [q1 s1]. pose proof (search0_Sc e rec HS _ _ _ _ _ Eq1) as [(F1 & Dp & _) _].
  apply search0_min in Eq1; auto. cbn [with_l fl] in Eq1. cbv zeta in Eq1. rewrite Dp0 in *. destruct Eq1 as (t1 & V1 & O1 & T1 & D1). rewrite V0 in V1.
  assert (PR : forall z, s_flags z = s_flags s0 -> ALLOW_PRUNINGP z = ALLOW_PRUNINGP s) by (intros z Hz; unfold ALLOW_PRUNINGP; now rewrite Hz, F0).
  rewrite (PR s0 eq_refl) in O1.
  assert (R : exists t l', let '(b, last', f', s') := q in vw d s' = t ++ ESearch d :: vw d s /\ s_timed_out s' = false /\ Deep d s s' /\ last' = l' /\ s_flags s' = s_flags s /\ s_depth s' = d /\
     (subset l u -> subset l l') /\ subset l' u /\ Outcome d l' (ALLOW_PRUNINGP s) p t b).
  { destruct q1 as [b|].
    - inj Eq. exists t1, u. repeat (split; [solve [auto | congruence | eapply Deep_trans; eauto | apply subset_refl]|]). exact O1.
    - destruct O1 as [K1 [N1 Tr1]]. pose proof (relax_Sc e rec HS _ _ _ _ _ _ _ _ Eq) as [(F2 & Dp2 & _) _].
      eapply (relax_min p l _ u _ s1 q (ESearch d :: vw d s) t1) in Eq; auto; rewrite ?Dp; auto. rewrite Dp in Eq.
      destruct q as [[[b last'] f'] s']. cbn [snd] in *. destruct Eq as (t & A1 & A2 & A3 & A4 & A5 & A6 & A7 & A8). rewrite (PR s1 F1) in A7.
      exists t, last'. repeat (split; [solve [auto | congruence | eapply Deep_trans; eauto; eapply Deep_trans; eauto]|]). exact A7. }
  destruct R as (t & l' & R). destruct q as [[[b last'] f'] s2]. destruct R as (R1 & R2 & R3 & -> & R5 & R6 & R7 & R8 & R9).
  destruct b as [b|].
  - inj H. exists t, l'. repeat (split; [solve [auto]|]). congruence.
  - destruct (Z.eqb_spec l l') as [E|E]; cbn [negb] in H.
    + inj H. exists t, l. repeat (split; [solve [auto]|]). auto.
    + ib H q2 Eq2. destruct q2 as [q2 s3]. inj H. cbn [fst snd] in *. pose proof (search0_Sc e rec HS _ _ _ _ _ Eq2) as [(F3 & Dp3 & _) _].
      apply search0_min in Eq2; auto. cbv zeta in Eq2. rewrite R6 in Eq2. cbn [with_l fl] in Eq2. destruct Eq2 as (t3 & V3 & O3 & T3 & D3).
      rewrite R1, app_assoc in V3. destruct R9 as [K9 [N9 _]]. exists (t3 ++ t), l. rewrite (PR s2) in O3 by congruence.
      split; auto. split; auto. split; [eapply Deep_trans; eauto|]. split; [intros L; split; [apply subset_refl|exact L]|]. split; [now apply Outcome_app|auto].
Qed.

(** ** a call of the planner *)
Lemma skip_Deep k x f s r s' d : skip_search (B := B) k x f s = Ret (r, s') -> Deep d s s' /\ vw d s' = vw d s.
Proof.
  unfold skip_search. intros H. ib H s1 E1. inj H. destruct (_ || _).
  - unfold hinsert in E1. destruct (fbless f); ib E1 ht Eh; inj E1; (split; [apply Deep_same; reflexivity|reflexivity]).
  - inj E1. split; [apply Deep_refl|reflexivity].
Qed.
Lemma isbogus_Deep x s r s' d : wisdom_is_bogus (B := B) x s = Ret (r, s') -> Deep d s s'.
Proof.
  unfold wisdom_is_bogus. intros H. ib H s1 E1. apply (destroy_Deep d) in E1. inj H. exact E1.
Qed.
Definition Searched (p : P) (s s' : st) (r : option plan) : Prop :=
  let d := s_depth s in let l := fl (s_flags s) in let u := fu (s_flags s) in
  exists t l', vw d s' = t ++ ESearch d :: vw d s /\ (subset l u -> subset l l' /\ subset l' u) /\
    (exists n, Outcome d l' (ALLOW_PRUNINGP s) p t (option_map (fun x => (x, n)) r)) /\ (r = None -> l' = l).
Lemma body_min p s r s' : mkplan_body e rec p s = Ret (r, s') ->
  Deep (s_depth s) s s' /\ (s_ws s' = WISDOM_IS_BOGUS \/ vw (s_depth s) s' = vw (s_depth s) s \/ Searched p s s' r).
Proof.
  unfold mkplan_body. intros H. ib H u Eu. cbv zeta in H. set (s1 := if ESTIMATEP s then _ else s) in *.
  assert (F1 : s_depth s1 = s_depth s /\ s_tr s1 = s_tr s /\ s_ws s1 = s_ws s /\ s_next s1 = s_next s /\ s_timed_out s1 = s_timed_out s /\ fl (s_flags s1) = fl (s_flags s) /\ fu (s_flags s1) = fu (s_flags s)).
  { unfold s1. destruct (ESTIMATEP s) eqn:E; cbn; auto 9. }
  clearbody s1. destruct F1 as (F1 & F2 & F3 & F4 & F5 & F6 & F7). rewrite <- F1.
  assert (V1 : vw (s_depth s1) s1 = vw (s_depth s1) s) by (unfold vw; now rewrite F2).
  assert (D1 : Deep (s_depth s1) s s1) by (apply Deep_same; auto).
  assert (Fin : forall z q, Deep (s_depth s1) s1 z /\ (s_ws z = WISDOM_IS_BOGUS \/ vw (s_depth s1) z = vw (s_depth s1) s1 \/ Searched p s1 z q) ->
     Deep (s_depth s1) s z /\ (s_ws z = WISDOM_IS_BOGUS \/ vw (s_depth s1) z = vw (s_depth s1) s \/ Searched p s z q)).
  { intros z q [Z1 Z2]. split; [eapply Deep_trans; eauto|]. destruct Z2 as [Z2|[Z2|Z2]]; [auto|right; left; congruence|right; right].
    unfold Searched in *. cbv zeta in *. unfold ALLOW_PRUNINGP in *. rewrite F6, F7, V1 in Z2. rewrite <- F1. exact Z2. }
  apply Fin. clear Fin D1 V1 F2 F4 F5.
  destruct (bogus s1) eqn:Bg.
  { pose proof (isbogus_Sc _ _ _ _ H) as (_ & _ & Q & _). split; [eapply isbogus_Deep; eauto|auto]. }
  set (s2 := set_timeout s1 false (s_ntc s1)) in *.
  assert (G : Deep (s_depth s1) s1 s2 /\ vw (s_depth s1) s2 = vw (s_depth s1) s1 /\ s_depth s2 = s_depth s1 /\ s_flags s2 = s_flags s1 /\ s_ws s2 = s_ws s1 /\ s_timed_out s2 = false).
  { split; [split; [reflexivity|]; split; [reflexivity|intros _; reflexivity]|]. repeat split. }
  clearbody s2. destruct G as (G1 & G2 & G3 & G4 & G5 & G6). set (k := e_sig e (s_nthr s2) p) in *. clearbody k.
  assert (D : forall q z, do_search e rec p k s2 = Ret (q, z) -> Deep (s_depth s1) s1 z /\ (s_ws z = WISDOM_IS_BOGUS \/ vw (s_depth s1) z = vw (s_depth s1) s1 \/ Searched p s1 z q)).
  { intros q z Hz. unfold do_search in Hz. destruct (ws_eqb (s_ws s2) WISDOM_ONLY) eqn:W.
    { pose proof (isbogus_Sc _ _ _ _ Hz) as (_ & _ & Q & _). split; [eapply Deep_trans; [exact G1|]; eapply isbogus_Deep; eauto|auto]. }
    ib Hz y Ey. apply search_min in Ey; auto. cbv zeta in Ey. destruct y as [[x f] s3]. destruct Ey as (t & l' & A1 & A2 & A3 & A4 & A6 & A7).
    rewrite G3 in *. rewrite G4 in *. rewrite G2 in A1.
    assert (D3 : Deep (s_depth s1) s1 s3) by (eapply Deep_trans; eauto). destruct (bogus s3) eqn:Bg3.
    { pose proof (isbogus_Sc _ _ _ _ Hz) as (_ & _ & Q & _). split; [eapply Deep_trans; [exact D3|]; eapply isbogus_Deep; eauto|auto]. }
    rewrite A2 in Hz. pose proof (skip_Sc _ _ _ _ _ _ Hz) as (_ & _ & Er). pose proof (skip_Deep _ _ _ _ _ _ (s_depth s1) Hz) as [S1 S2].
    split; [eapply Deep_trans; eauto|]. right. right. exists t, l'. split; [congruence|]. split; auto. split.
    - replace (ALLOW_PRUNINGP s2) with (ALLOW_PRUNINGP s1) in A6 by (unfold ALLOW_PRUNINGP; now rewrite G4). subst q. destruct x as [[x n]|]; [exists n; exact A6|exists 0; exact A6].
    - subst q. intros Q. apply A7. destruct x; [discriminate|reflexivity]. }
  destruct (negb (ws_eqb (s_ws s2) WISDOM_IGNORE_ALL)); [|auto].
  ib H sol Es. destruct sol as [sol|]; [|auto]. destruct (sndx sol =? INFEASIBLE_SLVNDX).
  { destruct (ws_eqb (s_ws s2) WISDOM_IGNORE_INFEASIBLE); [auto|]. inj H. auto. }
  ib H d Ed. set (s3 := set_ws s2 WISDOM_ONLY) in *.
  assert (G7 : Deep (s_depth s1) s1 s3) by exact G1.
  destruct (negb _).
  { pose proof (isbogus_Sc _ _ _ _ H) as (_ & _ & Q & _). split; [eapply Deep_trans; [exact G7|]; eapply isbogus_Deep; eauto|auto]. }
  ib H q Eq. destruct q as [x s4]. apply invoke_Deep in Eq as [D4 _]. change (s_depth s3) with (s_depth s2) in D4. rewrite G3 in D4.
  assert (V4 : vw (s_depth s1) s4 = vw (s_depth s1) s1) by (rewrite <- G2; apply D4; lia).
  assert (D4' : Deep (s_depth s1) s1 s4) by (eapply Deep_trans; [exact G7|]; eapply Deep_le; [|exact D4]; lia).
  destruct (bogus s4).
  { pose proof (isbogus_Sc _ _ _ _ H) as (_ & _ & Q & _). split; [eapply Deep_trans; [exact D4'|]; eapply isbogus_Deep; eauto|auto]. }
  destruct x as [x|].
  - apply (skip_Deep _ _ _ _ _ _ (s_depth s1)) in H as [S1 S2]. split; [eapply Deep_trans; [exact D4'|exact S1]|]. right. left. rewrite S2. exact V4.
  - pose proof (isbogus_Sc _ _ _ _ H) as (_ & _ & Q & _). split; [eapply Deep_trans; [exact D4'|]; eapply isbogus_Deep; eauto|auto].
Qed.
End R.
Lemma mkplan_Deep fuel : forall p s r s', mkplan e fuel p s = Ret (r, s') -> Deep (s_depth s) s s'.
Proof.
  induction fuel as [|fuel IH]; intros p s r s' H; cbn [mkplan] in H; [discriminate|]. eapply body_min in H; [apply H| |exact IH].
  intros. eapply mkplan_Scoped; eauto.
Qed.
Lemma mkplan_min fuel p s r s' : mkplan e fuel p s = Ret (r, s') ->
  s_ws s' = WISDOM_IS_BOGUS \/ vw (s_depth s) s' = vw (s_depth s) s \/ Searched p s s' r.
Proof.
  destruct fuel as [|fuel]; cbn [mkplan]; [discriminate|]. intros H. eapply body_min in H; [apply H| |apply mkplan_Deep].
  intros. eapply mkplan_Scoped; eauto.
Qed.
(** the planner does search when it finds no wisdom *)
Definition askflags (s : st) : flags_t := mkfl (fl (s_flags s)) (fu (s_flags s)) (if ESTIMATEP s then 0 else ftl (s_flags s)) (fbless (s_flags s)).
Lemma body_searches rec p s r s' : (forall p s r s', rec p s = Ret (r, s') -> Scoped s s' r) ->
  (forall p s r s', rec p s = Ret (r, s') -> Deep (s_depth s) s s') ->
  s_ws s <> WISDOM_ONLY -> s_ws s <> WISDOM_IS_BOGUS ->
  (s_ws s = WISDOM_IGNORE_ALL \/ hlookup s (e_sig e (s_nthr s) p) (askflags s) = Ret None) ->
  mkplan_body e rec p s = Ret (r, s') -> s_ws s' = WISDOM_IS_BOGUS \/ Searched p s s' r.
Proof.
  intros HS HD W1 W2 Hl H.
  pose proof (body_min rec HS HD p s r s' H) as (_ & [Q|[Q|Q]]); auto. exfalso.
  unfold mkplan_body in H. ib H u Eu. cbv zeta in H. set (s1 := if ESTIMATEP s then _ else s) in *.
  assert (F1 : s_flags s1 = askflags s /\ s_depth s1 = s_depth s /\ s_tr s1 = s_tr s /\ s_ws s1 = s_ws s /\ s_hb s1 = s_hb s /\ s_hu s1 = s_hu s /\ s_nthr s1 = s_nthr s).
  { unfold s1, askflags. destruct (ESTIMATEP s) eqn:E; cbn; auto 9. destruct (s_flags s); auto 9. }
  clearbody s1. destruct F1 as (F1 & F2 & F3 & F4 & F5 & F6 & F7).
  destruct (bogus s1) eqn:Bg. { unfold bogus in Bg. rewrite F4 in Bg. destruct (s_ws s); try discriminate; congruence. }
  set (s2 := set_timeout s1 false (s_ntc s1)) in *.
  assert (E : do_search e rec p (e_sig e (s_nthr s2) p) s2 = Ret (r, s')).
  { destruct Hl as [Hl|Hl].
    - change (s_ws s2) with (s_ws s1) in H. rewrite F4, Hl in H. cbn [ws_eqb negb] in H. exact H.
    - assert (E : hlookup s2 (e_sig e (s_nthr s2) p) (s_flags s2) = Ret None).
      { change (s_nthr s2) with (s_nthr s1). change (s_flags s2) with (s_flags s1). rewrite F1, F7, <- Hl. unfold hlookup.
        change (s_hb s2) with (s_hb s1). change (s_hu s2) with (s_hu s1). now rewrite F5, F6. }
      rewrite E in H. cbn [bind] in H. destruct (negb _) in H; exact H. }
  clear H. unfold do_search in E. change (s_ws s2) with (s_ws s1) in E. rewrite F4 in E.
  destruct (ws_eqb (s_ws s) WISDOM_ONLY) eqn:Wo. { destruct (s_ws s); try discriminate; congruence. }
  ib E y Ey. destruct y as [[x f] s3]. apply search_min in Ey; auto. cbv zeta in Ey. destruct Ey as (t & l' & A1 & A2 & A3 & _).
  assert (V2 : vw (s_depth s) s2 = vw (s_depth s) s) by (unfold vw; change (s_tr s2) with (s_tr s1); now rewrite F3).
  change (s_depth s2) with (s_depth s1) in A1. rewrite F2, V2 in A1.
  assert (N : vw (s_depth s) s3 = vw (s_depth s) s -> False).
  { intros N. rewrite A1 in N. apply (f_equal (@length event)) in N. rewrite app_length in N. cbn [length] in N. lia. }
  assert (X : exists z, Ext s3 z /\ vw (s_depth s) z = vw (s_depth s) s).
  { exists s'. split; [|exact Q]. destruct (bogus s3); [apply isbogus_Sc in E; apply E|].
    rewrite A2 in E. apply skip_Sc in E. apply E. }
  destruct X as (z & (tz & Ez) & Vz). apply N. unfold vw in *. rewrite Ez, filter_app in Vz.
  apply (f_equal (@length event)) in Vz. rewrite app_length, A1, app_length in Vz. cbn [length] in Vz. lia.
Qed.
Lemma mkplan_searches fuel p s r s' :
  s_ws s <> WISDOM_ONLY -> s_ws s <> WISDOM_IS_BOGUS ->
  (s_ws s = WISDOM_IGNORE_ALL \/ hlookup s (e_sig e (s_nthr s) p) (askflags s) = Ret None) ->
  mkplan e fuel p s = Ret (r, s') -> s_ws s' = WISDOM_IS_BOGUS \/ Searched p s s' r.
Proof.
  destruct fuel as [|fuel]; cbn [mkplan]; [discriminate|]. intros W1 W2 Hl H. eapply body_searches in H; eauto; intros.
  - eapply mkplan_Scoped; eauto.
  - eapply mkplan_Deep; eauto.
Qed.
End S.
