(** * Proofs about annotate.ml: the passes keep every assignment and every dependency, and the declarations are well placed *)
From Coq Require Import ZArith List Bool Lia Permutation.
From Verif Require Import Cplx GenExpr GenAlg GenAlist GenSched GenSchedProofs GenAnnot.
Import ListNotations.
Open Scope nat_scope.
Local Notation dep := depends_on.

(** ** Schedules without Par, schedules without empty Par *)
Fixpoint seqonly (s : sched) : Prop := match s with Seq a b => seqonly a /\ seqonly b | Par _ => False | _ => True end.
Inductive wfs : sched -> Prop :=
| wf_done : wfs Done
| wf_instr a : wfs (Instr a)
| wf_seq a b : wfs a -> wfs b -> wfs (Seq a b)
| wf_par l : l <> [] -> Forall wfs l -> wfs (Par l).
Fixpoint ssize (s : sched) : nat :=
  match s with Done => 1 | Instr _ => 1 | Seq a b => ssize a + ssize b | Par l => list_sum (map (fun x => ssize x + 3) l) - 1 end.
Lemma ssize_pos s : wfs s -> 1 <= ssize s.
Proof.
  induction s as [| |a IHa b IHb|l]; intros W; cbn [ssize]; try lia.
  - inversion W; subst. specialize (IHa H1). lia.
  - inversion W; subst. destruct l as [|x l]; [congruence|]. cbn [map list_sum fold_right]. unfold list_sum. cbn [fold_right]. lia.
Qed.
Lemma components_nonempty : forall f l ps, connected_components f l = Some ps -> ps <> [].
Proof.
  destruct f as [|f]; intros l ps; cbn [connected_components]; [discriminate|]. destruct (cc l (S f)) as [[a [|b0 b]]|]; try discriminate; [intros [= <-]; discriminate|].
  destruct (connected_components f _); [intros [= <-]; discriminate|discriminate].
Qed.
Lemma schedule_wf Ms : forall f l s, schedule_alist Ms f l = Some s -> wfs s.
Proof.
  induction f as [|f IH]; intros l s.
  - destruct l as [|a [|b l]]; [intros [= <-]; constructor|intros [= <-]; constructor|discriminate].
  - destruct l as [|a [|b l]]; [intros [= <-]; constructor|intros [= <-]; constructor|].
    rewrite schedule_eq by (cbn [length]; lia). destruct (connected_components (S f) _) as [ps|] eqn:Ec; [|discriminate]. apply components_nonempty in Ec.
    assert (G : omap (schedule_alist Ms f) ps <> None -> forall ss, omap (schedule_alist Ms f) ps = Some ss -> wfs (Par ss)).
    { intros _ ss E. assert (F : Forall wfs ss /\ length ss = length ps).
      { revert ss E. clear Ec. induction ps as [|p ps IHp]; intros ss; cbn [omap]; [intros [= <-]; split; constructor|].
        destruct (schedule_alist Ms f p) eqn:Ep; [|discriminate]. destruct (omap _ ps) as [r|]; [|discriminate]. intros [= <-]. destruct (IHp r eq_refl) as [F L]. split; [constructor; eauto|cbn; lia]. }
      destruct F as [F L]. constructor; auto. intros ->. destruct ps; [congruence|discriminate]. }
    destruct ps as [|p [|q ps]]; [congruence| |].
    + destruct (partition p Ms (S f)) as [[r c]|]; [|discriminate]. destruct (schedule_alist Ms f r) eqn:E1; [|discriminate]. destruct (schedule_alist Ms f c) eqn:E2; [|discriminate].
      intros [= <-]. constructor; eauto.
    + destruct (omap _ _) as [ss|] eqn:Eo; [|discriminate]. intros [= <-]. apply G; auto. discriminate.
Qed.
Lemma isolate_wf Ms f l s : isolate_precomputations_and_schedule Ms f l = Some s -> wfs s.
Proof.
  unfold isolate_precomputations_and_schedule, schedule. destruct (partition_precomputations l f) as [[a b]|]; [|discriminate].
  destruct (schedule_alist Ms f a) eqn:E1; [|discriminate]. destruct (schedule_alist Ms f b) eqn:E2; [|discriminate]. intros [= <-]. constructor; eapply schedule_wf; eauto.
Qed.
Lemma lin_seqonly s l : seqonly s -> lin s l -> l = sched_to_ilist s.
Proof.
  revert l. induction s as [|a|a IHa b IHb|ls]; intros l W L; [inversion L; auto|inversion L; auto| |destruct W].
  inversion L; subst. destruct W. cbn [sched_to_ilist]. f_equal; auto.
Qed.
Lemma seqonly_lin s : seqonly s -> lin s (sched_to_ilist s).
Proof. induction s as [|a|a IHa b IHb|ls]; intros W; cbn [sched_to_ilist]; try (constructor; fail); [destruct W; constructor; auto|destruct W]. Qed.
Lemma seqonly_wf s : seqonly s -> wfs s.
Proof. induction s; cbn; intros W; try constructor; try tauto; try (apply IHs1; tauto); try (apply IHs2; tauto). Qed.

(** ** reorder permutes; linearize *)
Section Reorder.
  Variable sort : (keyed -> keyed -> Z) -> list keyed -> list keyed.
  Hypothesis sort_perm : forall c l, Permutation (sort c l) l.
  Lemma reorder_loop_perm : forall n l, length l <= n -> Permutation (reorder_loop sort n l) (map (fun b => fst (snd b)) l).
  Proof.
    induction n as [|n IH]; intros [|a b] L; cbn [length] in L; try lia; [reflexivity|reflexivity|]. cbn [reorder_loop map].
    match goal with |- context [map fst (sort ?cmp ?c)] => set (c' := sort cmp c); assert (P : Permutation c' c) by apply sort_perm; set (c0 := c) in * end.
    assert (P2 : Permutation (map fst c') b). { rewrite P. unfold c0. rewrite map_map. cbn [fst]. now rewrite map_id. }
    constructor. rewrite IH; [now rewrite P2|]. apply Permutation_length in P2. lia.
  Qed.
  Lemma minimize_in f : forall l, l <> [] -> exists m, minimize f l = Some m /\ In m l.
  Proof.
    induction l as [|n rest IH]; [congruence|]. intros _. destruct rest as [|r rest]; [exists n; split; [reflexivity|now left]|].
    destruct IH as (m & E & M); [discriminate|]. change (minimize f (n :: r :: rest)) with (match minimize f (r :: rest) with Some x => Some (if f n <=? f x then n else x) | None => None end). rewrite E.
    eexists. split; [reflexivity|]. destruct (f n <=? f m); [now left|now right].
  Qed.
  Lemma combine_facts (l : list sched) k : let l' := combine (seq k (length l)) (map (fun x => (x, uniq (find_block_vars x))) l) in
    map (fun b : block => fst (snd b)) l' = l /\ NoDup (map fst l').
  Proof.
    cbn zeta. split.
    - revert k. induction l as [|x l IH]; intros k; [reflexivity|]. cbn. f_equal. apply IH.
    - assert (E : map fst (combine (seq k (length l)) (map (fun x => (x, uniq (find_block_vars x))) l)) = seq k (length l)); [|rewrite E; apply seq_NoDup].
      revert k. induction l as [|x l IH]; intros k; [reflexivity|]. cbn. f_equal. apply IH.
  Qed.
  Lemma reorder_perm l : Permutation (reorder sort l) l.
  Proof.
    unfold reorder. set (l' := combine _ _).
    destruct (combine_facts l 0) as [Ml Nd]. fold l' in Ml, Nd.
    destruct l' as [|b0 l0] eqn:El; [cbn in Ml; subst l; reflexivity|]. destruct (minimize_in (fun b => length (vars_of b)) (b0 :: l0)) as (m & -> & Mi); [discriminate|].
    assert (P : Permutation (m :: filter (fun b => negb (fst b =? fst m)) (b0 :: l0)) (b0 :: l0)).
    { clear Ml El. revert Nd Mi. generalize (b0 :: l0). clear. intros l Nd Mi. apply in_split in Mi. destruct Mi as (l1 & l2 & ->). rewrite filter_app. cbn [filter]. rewrite Nat.eqb_refl. cbn [negb].
      rewrite map_app in Nd. cbn [map] in Nd. apply NoDup_remove in Nd. destruct Nd as [_ Nd].
      assert (F : forall k, (forall x, In x k -> fst x <> fst m) -> filter (fun b : block => negb (fst b =? fst m)) k = k).
      { clear. induction k as [|a k IH]; intros H; [reflexivity|]. cbn [filter]. destruct (fst a =? fst m) eqn:E; [apply Nat.eqb_eq in E; exfalso; eapply H; eauto; now left|]. cbn. f_equal. apply IH. intros; apply H; now right. }
      rewrite !F; [apply Permutation_middle| |]; intros x Hx E; apply Nd; rewrite <- E, in_app_iff; [right|left]; now apply in_map. }
    rewrite reorder_loop_perm; [|apply Nat.eq_le_incl, Permutation_length, P]. transitivity (map (fun b : block => fst (snd b)) (b0 :: l0)); [now apply Permutation_map|now rewrite Ml].
  Qed.

  Lemma lin_par_split (l a b : list sched) k : Permutation (a ++ b) l -> lin (Seq (Par a) (Par b)) k -> lin (Par l) k.
  Proof.
    intros P L. inversion L as [| |? ? x y La Lb|]; subst. inversion La as [| | |? l1 ls1 P1 F1]; subst. inversion Lb as [| | |? l2 ls2 P2 F2]; subst.
    rewrite <- concat_app. econstructor; [|apply Forall2_app; eauto]. rewrite <- P. now apply Permutation_app.
  Qed.
  Definition is_done (s : sched) : bool := match s with Done => true | _ => false end.
  Lemma is_done_eq s : is_done s = true -> s = Done. Proof. destruct s; cbn; congruence. Qed.
  Definition both (x y : option sched) : option sched := match x, y with Some a', Some b' => Some (Seq a' b') | _, _ => None end.
  Lemma linearize_seq f a b : linearize sort (S f) (Seq a b) =
    if is_done b then linearize sort f a else if is_done a then linearize sort f b else both (linearize sort f a) (linearize sort f b).
  Proof. destruct b; cbn [is_done]; [destruct a| | |]; try reflexivity; destruct a; reflexivity. Qed.
  Lemma linearize_par f l : linearize sort (S f) (Par l) = match l with [a] => linearize sort f a | _ => linearize sort f (Seq (Par (firstn (Nat.div2 (length l)) (reorder sort l))) (Par (skipn (Nat.div2 (length l)) (reorder sort l)))) end.
  Proof. reflexivity. Qed.
  Lemma linearize_ok f : forall s s', linearize sort f s = Some s' -> seqonly s' /\ forall k, lin s' k -> lin s k.
  Proof.
    induction f as [|f IH]; intros s s'; [discriminate|]. destruct s as [|a|a b|l].
    - intros [= <-]. cbn. auto.
    - intros [= <-]. cbn. auto.
    - rewrite linearize_seq. destruct (is_done b) eqn:Db; [apply is_done_eq in Db; subst|destruct (is_done a) eqn:Da; [apply is_done_eq in Da; subst|]].
      + intros E; apply IH in E; destruct E as [E1 E2]; split; auto; intros k K; rewrite <- (app_nil_r k); constructor; [auto|constructor].
      + intros E; apply IH in E; destruct E as [E1 E2]; split; auto; intros k K; change k with ([] ++ k); constructor; [constructor|auto].
      + unfold both. destruct (linearize sort f a) as [a'|] eqn:Ea; [|discriminate]. destruct (linearize sort f b) as [b'|] eqn:Eb; [|discriminate]. intros [= <-].
        apply IH in Ea, Eb. destruct Ea, Eb. cbn. split; auto. intros k K. inversion K; subst. constructor; auto.
    - rewrite linearize_par. revert l.
      assert (G : forall l, linearize sort f (Seq (Par (firstn (Nat.div2 (length l)) (reorder sort l))) (Par (skipn (Nat.div2 (length l)) (reorder sort l)))) = Some s' -> seqonly s' /\ forall k, lin s' k -> lin (Par l) k).
      { intros l E. apply IH in E. destruct E as [E1 E2]. split; auto. intros k K. eapply lin_par_split; [|apply E2, K]. rewrite firstn_skipn. apply reorder_perm. }
      intros l. destruct l as [|x [|y l]]; [apply G| |apply G]. intros E. apply IH in E. destruct E as [E1 E2]. split; auto. intros k K. replace k with (concat [k]) by apply app_nil_r. econstructor; [reflexivity|]. constructor; [auto|constructor].
  Qed.
  Lemma list_sum_perm l l' : Permutation l l' -> list_sum l = list_sum l'.
  Proof. induction 1; unfold list_sum in *; cbn [fold_right]; lia. Qed.
  Lemma linearize_total : forall f s, wfs s -> ssize s <= f -> exists s', linearize sort f s = Some s'.
  Proof.
    induction f as [|f IH]; intros s W L; [apply ssize_pos in W; lia|].
    destruct s as [|a|a b|l]; [cbn; eauto|cbn; eauto|rewrite linearize_seq|rewrite linearize_par].
    - inversion W; subst. assert (Pa := ssize_pos _ H1). assert (Pb := ssize_pos _ H2). cbn [ssize] in L.
      destruct (IH a H1) as (a' & Ea); [lia|]. destruct (IH b H2) as (b' & Eb); [lia|].
      destruct (is_done b); [eauto|]. destruct (is_done a); [eauto|]. rewrite Ea, Eb. cbn. eauto.
    - inversion W as [| | |? Ne F]; subst.
      assert (G : 2 <= length l -> exists s', linearize sort f (Seq (Par (firstn (Nat.div2 (length l)) (reorder sort l))) (Par (skipn (Nat.div2 (length l)) (reorder sort l)))) = Some s').
      { intros L2. assert (P := reorder_perm l). set (r := reorder sort l) in *. set (n2 := Nat.div2 (length l)).
        assert (N2 : 1 <= n2 /\ n2 < length l). { unfold n2. destruct (length l) as [|[|k]]; try lia. cbn [Nat.div2]. assert (Q := Nat.div2_div k). assert (Nat.div k 2 <= k) by (apply Nat.div_le_upper_bound; lia). lia. }
        assert (Lr := Permutation_length P).
        assert (Fr : Forall wfs (firstn n2 r ++ skipn n2 r)) by (rewrite firstn_skipn; apply Forall_forall; intros x Hx; rewrite Forall_forall in F; apply F; eapply Permutation_in; eauto).
        apply Forall_app in Fr. destruct Fr as [F1 F2].
        assert (Sz : forall k, Permutation k l -> list_sum (map (fun x => ssize x + 3) k) = list_sum (map (fun x => ssize x + 3) l)) by (intros k Pk; apply list_sum_perm, Permutation_map, Pk).
        assert (Lf := firstn_length n2 r). assert (Ls := skipn_length n2 r).
        assert (Sr := Sz r P). rewrite <- (firstn_skipn n2 r), map_app, list_sum_app in Sr.
        assert (B : forall k : list sched, k <> [] -> 1 <= list_sum (map (fun x => ssize x + 3) k)) by (intros [|x k] Hk; [congruence|cbn; lia]).
        assert (Nf : firstn n2 r <> []) by (intros E; rewrite E in Lf; cbn in Lf; lia). assert (Ns : skipn n2 r <> []) by (intros E; rewrite E in Ls; cbn in Ls; lia).
        assert (B1 := B _ Nf). assert (B2 := B _ Ns).
        apply IH; [constructor; constructor; auto|]. cbn [ssize] in *. lia. }
      destruct l as [|x [|y l]]; [congruence| |apply G; cbn; lia]. apply IH; [now inversion F|]. cbn in L. lia.
  Qed.
  Lemma linearize_mono : forall f f' s s', f <= f' -> linearize sort f s = Some s' -> linearize sort f' s = Some s'.
  Proof.
    induction f as [|f IH]; intros f' s s' L; [discriminate|]. destruct f' as [|f']; [lia|]. assert (IH' := fun x y => IH f' x y ltac:(lia)). clear IH.
    destruct s as [|a|a b|l]; auto.
    - rewrite !linearize_seq. destruct (is_done b); [apply IH'|]. destruct (is_done a); [apply IH'|].
      unfold both. destruct (linearize sort f a) as [a'|] eqn:Ea; [|discriminate]. destruct (linearize sort f b) as [b'|] eqn:Eb; [|discriminate]. now rewrite (IH' _ _ Ea), (IH' _ _ Eb).
    - rewrite !linearize_par. destruct l as [|x [|y l]]; apply IH'.
  Qed.
End Reorder.
