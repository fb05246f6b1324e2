(** * The algebraic simplifier preserves the values of the dag *)
From Coq Require Import Reals ZArith List Lia Lra Bool Permutation.
From Verif Require Import NumTheory Cplx GenExpr GenAlg.
Import ListNotations.
Open Scope Z_scope.

(** same value for all values of the variables *)
Definition eqv (a b : expr) : Prop := forall env, eval env a = eval env b.
Infix "≈" := eqv (at level 70).
Definition eqs (l l' : list expr) : Prop := forall env, lsumE env l = lsumE env l'.
Lemma eqv_refl a : a ≈ a. Proof. intros env. reflexivity. Qed.
Lemma eqv_sym a b : a ≈ b -> b ≈ a. Proof. intros H env. now rewrite H. Qed.
Lemma eqv_trans a b c : a ≈ b -> b ≈ c -> a ≈ c. Proof. intros H H' env. now rewrite H. Qed.
Lemma eqs_trans a b c : eqs a b -> eqs b c -> eqs a c. Proof. intros H H' env. now rewrite H. Qed.
Lemma lsumE_app env a b : lsumE env (a ++ b) = (lsumE env a + lsumE env b)%C.
Proof. unfold lsumE. induction a as [|x a IH]; cbn [app fold_right]; [ring|rewrite IH; ring]. Qed.
Lemma lsumE_cons env x a : lsumE env (x :: a) = (eval env x + lsumE env a)%C.
Proof. reflexivity. Qed.
Lemma lsumE_perm env a b : Permutation a b -> lsumE env a = lsumE env b.
Proof. unfold lsumE. induction 1; cbn [fold_right]; [reflexivity|now rewrite IHPermutation|ring|congruence]. Qed.

Lemma expr_eqb_eq : forall a b, expr_eqb a b = true -> a = b.
Proof.
  fix IH 1. intros a b. destruct a, b; cbn; try discriminate; intros H.
  - destruct (Req_EM_T a a0); congruence.
  - reflexivity.
  - f_equal. revert l0 H. induction l as [|x l IHl]; intros [|y m] H; try discriminate; [reflexivity|].
    apply andb_prop in H. destruct H as [H1 H2]. f_equal; [now apply IH|now apply IHl].
  - apply andb_prop in H. destruct H as [H1 H2]. f_equal; now apply IH.
  - apply andb_prop in H. destruct H as [H1 H2]. f_equal; now apply IH.
  - apply andb_prop in H. destruct H as [H1 H2]. f_equal; now apply IH.
  - f_equal; now apply IH.
  - destruct (var_eq_dec v v0); congruence.
  - apply andb_prop in H. destruct H as [H1 H2]. destruct (var_eq_dec v v0); [|discriminate]. f_equal; [auto|now apply IH].
Qed.
Lemma remove1_perm x l r : remove1 x l = Some r -> Permutation (x :: r) l.
Proof.
  revert r. induction l as [|y l IH]; cbn; intros r H; [discriminate|].
  destruct (expr_eqb x y) eqn:E.
  - injection H as <-. apply expr_eqb_eq in E. subst. auto.
  - destruct (remove1 x l) as [r'|] eqn:E'; [|discriminate]. injection H as <-. specialize (IH r' eq_refl).
    rewrite perm_swap. now apply perm_skip.
Qed.
Lemma is_perm_ok a b : is_perm a b = true -> Permutation a b.
Proof.
  revert b. induction a as [|x a IH]; cbn; intros b H.
  - destruct b; [constructor|discriminate].
  - destruct (remove1 x b) as [r|] eqn:E; [|discriminate]. apply remove1_perm in E. rewrite <- E. apply perm_skip. now apply IH.
Qed.

(** ** Invariant of the tables *)
(** a table entry: the value is equal to the key, and a store stays a store to the same variable *)
Definition rel (k v : expr) : Prop :=
  k ≈ v /\ forall u a, k = EStore u a -> exists a', v = EStore u a'.
Lemma rel_refl k : rel k k.
Proof. split; [apply eqv_refl|]. intros u a ->. now exists a. Qed.
Fixpoint tblP (t : elem expr) : Prop :=
  match t with
  | Leaf => True
  | Node _ l r this => tblP l /\ tblP r /\ Forall (fun kv => rel (fst kv) (snd kv)) this
  end.
Definition inv (s : st) : Prop := tblP (simp s) /\ tblP (cse s).
Lemma tblP_ins k h v t : rel k v -> tblP t -> tblP (ins k h v t).
Proof.
  intros H. induction t as [|hk l IHl r IHr this]; cbn.
  - repeat split; auto.
  - intros (A & B & D). destruct (hk <? h); [|destruct (hk >? h)]; cbn; repeat split; auto.
Qed.

Definition mono {A} (m : M A) : Prop := forall s a s', m s = Some (a, s') -> bad s = true -> bad s' = true.
Definition hoare {A} (m : M A) (Q : A -> Prop) : Prop :=
  forall s a s', inv s -> m s = Some (a, s') -> bad s' = false -> inv s' /\ Q a.

Lemma mono_ret {A} (a : A) : mono (ret a).
Proof. intros s x s' H. injection H as <- <-. auto. Qed.
Lemma mono_fail {A} : mono (@fail A).
Proof. intros s x s' H. discriminate. Qed.
Lemma mono_bind {A B} (m : M A) (k : A -> M B) : mono m -> (forall a, mono (k a)) -> mono (bind m k).
Proof.
  intros H1 H2 s b s'' H. unfold bind in H. destruct (m s) as [[a s']|] eqn:E; [|discriminate]. intros Hb.
  eapply H2; eauto.
Qed.
Lemma mono_tick {A} (f : nat -> A) : mono (tickM f).
Proof. intros s x s' H. injection H as <- <-. auto. Qed.
Lemma mono_ghost b : mono (ghost b).
Proof. intros s x s' H. injection H as <- <-. cbn. intros ->. reflexivity. Qed.
Lemma mono_and a b : mono a -> mono b -> mono (andM a b).
Proof. intros H1 H2. apply mono_bind; auto. intros []; auto using @mono_ret. Qed.
Lemma mono_or a b : mono a -> mono b -> mono (orM a b).
Proof. intros H1 H2. apply mono_bind; auto. intros []; auto using @mono_ret. Qed.
Lemma mono_exists {A} (f : A -> M bool) l : (forall a, mono (f a)) -> mono (existsM f l).
Proof. intros H. induction l; cbn; [apply mono_ret|now apply mono_or]. Qed.
Lemma mono_forall {A} (f : A -> M bool) l : (forall a, mono (f a)) -> mono (for_allM f l).
Proof. intros H. induction l; cbn; [apply mono_ret|now apply mono_and]. Qed.
Lemma mono_mapM {A B} (f : A -> M B) l : (forall a, mono (f a)) -> mono (mapM f l).
Proof.
  intros H. induction l; cbn; [apply mono_ret|]. apply mono_bind; auto. intros. apply mono_bind; auto. intros. apply mono_ret.
Qed.
#[global] Hint Resolve mono_ret mono_fail mono_tick mono_ghost mono_and mono_or mono_exists mono_forall mono_mapM : mono.
Ltac monot := repeat first
  [ progress intros
  | solve [auto with mono]
  | apply mono_bind
  | match goal with |- mono (match ?x with _ => _ end) => destruct x end ].

Lemma hoare_ret {A} (a : A) (Q : A -> Prop) : Q a -> hoare (ret a) Q.
Proof. intros H s x s' Hi E _. injection E as <- <-. auto. Qed.
Lemma hoare_fail {A} (Q : A -> Prop) : hoare fail Q.
Proof. intros s x s' Hi E. discriminate. Qed.
Lemma hoare_bind {A B} (m : M A) (k : A -> M B) P Q :
  hoare m P -> (forall a, mono (k a)) -> (forall a, P a -> hoare (k a) Q) -> hoare (bind m k) Q.
Proof.
  intros H1 H2 H3 s b s'' Hi H Hb. unfold bind in H. destruct (m s) as [[a s']|] eqn:E; [|discriminate].
  assert (Hb' : bad s' = false). { destruct (bad s') eqn:E'; auto. rewrite (H2 a _ _ _ H E') in Hb. discriminate. }
  destruct (H1 _ _ _ Hi E Hb') as [I1 P1]. eapply H3; eauto.
Qed.
Lemma hoare_conseq {A} (m : M A) (P Q : A -> Prop) : hoare m P -> (forall a, P a -> Q a) -> hoare m Q.
Proof. intros H HPQ s a s' Hi E Hb. destruct (H _ _ _ Hi E Hb). auto. Qed.
Lemma hoare_tick {A} (f : nat -> A) (Q : A -> Prop) : (forall t, Q (f t)) -> hoare (tickM f) Q.
Proof. intros H s x s' Hi E _. injection E as <- <-. auto. Qed.
Lemma hoare_ghost b : hoare (ghost b) (fun _ => b = true).
Proof. intros s x s' Hi E Hb. injection E as <- <-. cbn in Hb. apply orb_false_elim in Hb. destruct b; auto. now destruct Hb. Qed.
Lemma hoare_true {A} (m : M A) Q : hoare m Q -> hoare m (fun _ => True).
Proof. intros H. eapply hoare_conseq; eauto. Qed.
Lemma hoare_and a b (P Q : Prop) : mono b -> hoare a (fun x => x = true -> P) -> (P -> hoare b (fun x => x = true -> Q)) ->
  hoare (andM a b) (fun x => x = true -> P /\ Q).
Proof.
  intros Hm H1 H2. eapply hoare_bind; [exact H1|intros []; auto with mono|].
  intros [] H; [|apply hoare_ret; discriminate]. eapply hoare_conseq; [apply H2; auto|]. auto.
Qed.
Lemma hoare_or a b (Q : Prop) : mono b -> hoare a (fun x => x = true -> Q) -> hoare b (fun x => x = true -> Q) ->
  hoare (orM a b) (fun x => x = true -> Q).
Proof.
  intros Hm H1 H2. eapply hoare_bind; [exact H1|intros []; auto with mono|].
  intros [] H; [apply hoare_ret; auto|auto].
Qed.
Lemma hoare_exists {A} (f : A -> M bool) (P : A -> Prop) l : (forall a, mono (f a)) -> (forall a, hoare (f a) (fun x => x = true -> P a)) ->
  hoare (existsM f l) (fun x => x = true -> exists a, In a l /\ P a).
Proof.
  intros Hm H. induction l; cbn; [apply hoare_ret; discriminate|].
  apply hoare_or; [auto with mono| |].
  - eapply hoare_conseq; [apply H|]. intros x Hx E. exists a. auto.
  - eapply hoare_conseq; [apply IHl|]. intros x Hx E. destruct (Hx E) as (y & Hy & Hp). exists y. auto.
Qed.
Lemma hoare_mapM {A B} (f : A -> M B) (P : A -> B -> Prop) l : (forall a, mono (f a)) -> (forall a, In a l -> hoare (f a) (P a)) ->
  hoare (mapM f l) (fun l' => Forall2 P l l').
Proof.
  intros Hm H. induction l; cbn; [apply hoare_ret; constructor|].
  eapply hoare_bind; [apply H; now left|monot|]. intros b Hb.
  eapply hoare_bind; [apply IHl; intros; apply H; now right|monot|]. intros bs Hbs. apply hoare_ret. now constructor.
Qed.

Definition sound_oracles (Or : oracles) (Mg : asettings) : Prop :=
  (forall t a b, pheq Or t a b = true -> a = b) /\
  (forall t u v, vsame Or t u v = true -> u = v) /\
  (randomized_cse Mg = true -> forall t a b, random_equal Or t a b = true -> a ≈ b).

Ltac evs := let env := fresh "env" in intros env; cbv beta in *;
  repeat match goal with H : _ ≈ _ |- _ => specialize (H env) end;
  repeat match goal with H : eqs _ _ |- _ => specialize (H env) end;
  rewrite ?eval_Plus in *; cbn [eval lsumE fold_right] in *;
  repeat match goal with H : eval env _ = _ |- _ => rewrite H; clear H end.

Section Proofs.
  Variable Or : oracles.
  Variable Mg : asettings.
  Hypothesis HO : sound_oracles Or Mg.

  Lemma mono_eqM a b : mono (eqM Or a b). Proof. unfold eqM. auto with mono. Qed.
  Hint Resolve mono_eqM : mono.
  Lemma hoare_eqM a b : hoare (eqM Or a b) (fun x => x = true -> a = b).
  Proof. apply hoare_tick. intros t H. destruct HO as [H1 _]. eauto. Qed.
  Lemma mono_subset a b : mono (subset Or a b). Proof. unfold subset. auto with mono. Qed.
  Hint Resolve mono_subset : mono.
  Lemma mono_struct a b : mono (structurallyEqualCSE Or a b).
  Proof. destruct a, b; cbn; monot. Qed.
  Hint Resolve mono_struct : mono.
  Definition quiet {A} (m : M A) : Prop := forall s a s', m s = Some (a, s') -> simp s' = simp s /\ cse s' = cse s.
  Lemma hoare_any {A} (m : M A) : quiet m -> hoare m (fun _ => True).
  Proof. intros H s a s' [H1 H2] E _. destruct (H _ _ _ E) as [E1 E2]. split; auto. split; congruence. Qed.
  Lemma quiet_bind {A B} (m : M A) (k : A -> M B) : quiet m -> (forall a, quiet (k a)) -> quiet (bind m k).
  Proof.
    intros H1 H2 s b s'' H. unfold bind in H. destruct (m s) as [[a s']|] eqn:E; [|discriminate].
    destruct (H1 _ _ _ E). destruct (H2 _ _ _ _ H). split; congruence.
  Qed.
  Lemma quiet_ret {A} (a : A) : quiet (ret a). Proof. intros s x s' H. injection H as <- <-. auto. Qed.
  Lemma quiet_tick {A} (f : nat -> A) : quiet (tickM f). Proof. intros s x s' H. injection H as <- <-. auto. Qed.
  Lemma quiet_subset a b : quiet (subset Or a b).
  Proof.
    unfold subset. assert (E : forall x l, quiet (existsM (fun y => eqM Or x y) l)).
    { intros x l. induction l; cbn; [apply quiet_ret|]. apply quiet_bind; [apply quiet_tick|]. intros []; auto using @quiet_ret. }
    induction a; cbn; [apply quiet_ret|]. apply quiet_bind; auto. intros []; auto using @quiet_ret.
  Qed.
  Lemma hoare_struct a b : hoare (structurallyEqualCSE Or a b) (fun x => x = true -> a ≈ b /\ (forall u e, a <> EStore u e)).
  Proof.
    assert (Q : forall x y x' y' (R : Prop), (x = y /\ x' = y' -> R) -> hoare (andM (eqM Or x y) (eqM Or x' y')) (fun e => e = true -> R)).
    { intros x y x' y' R HR. eapply hoare_conseq; [apply hoare_and; [auto with mono|apply hoare_eqM|intros _; apply hoare_eqM]|]. cbn. intros e He Et. apply HR. auto. }
    destruct a, b; cbn; try (apply hoare_ret; discriminate).
    - apply hoare_ret. unfold num_equal. destruct (Req_EM_T a a0); [|discriminate]. intros _. subst. split; [apply eqv_refl|discriminate].
    - apply hoare_ret. intros _. split; [apply eqv_refl|discriminate].
    - eapply hoare_bind; [eapply hoare_any; apply quiet_bind; [apply quiet_subset|intros []; auto using quiet_subset, @quiet_ret]|monot|].
      intros e _. eapply hoare_bind; [apply hoare_ghost|monot|]. intros u_ Hg. cbv beta in Hg. apply hoare_ret. intros Et. subst e. cbn in Hg.
      split; [|discriminate]. apply is_perm_ok in Hg. intros env. rewrite !eval_Plus. now apply lsumE_perm.
    - apply hoare_or; [monot| |]; apply Q; intros [-> ->]; (split; [|discriminate]); intros env; cbn [eval]; ring.
    - apply hoare_or; [monot| |]; apply Q; intros [-> ->]; (split; [|discriminate]); intros env; cbn [eval]; ring.
    - apply Q; intros [-> ->]; (split; [|discriminate]); intros env; cbn [eval]; ring.
    - eapply hoare_conseq; [apply hoare_eqM|]. cbn. intros x H E. rewrite (H E). split; [apply eqv_refl|discriminate].
    - apply hoare_tick. intros t E. destruct HO as (_ & H & _). rewrite (H _ _ _ E). split; [apply eqv_refl|discriminate].
  Qed.
  Lemma mono_likely a b : mono (likely_equal Or a b).
  Proof. unfold likely_equal. monot. Qed.
  Hint Resolve mono_likely : mono.
  Lemma hoare_likely a b : randomized_cse Mg = true -> hoare (likely_equal Or a b) (fun x => x = true -> a ≈ b /\ (forall u e, a <> EStore u e)).
  Proof.
    intros Hr. destruct HO as (_ & _ & H). specialize (H Hr).
    assert (G : (forall u e, a <> EStore u e) -> hoare (tickM (fun t => random_equal Or t a b)) (fun x => x = true -> a ≈ b /\ (forall u e, a <> EStore u e))).
    { intros Ha. apply hoare_tick. intros t E. split; eauto. }
    assert (Z : hoare (ret false) (fun x => x = true -> a ≈ b /\ (forall u e, a <> EStore u e))) by (apply hoare_ret; discriminate).
    unfold likely_equal. destruct a; try exact Z; try (destruct b; try exact Z; try (apply G; discriminate); destruct b; try exact Z; apply G; discriminate).
    destruct a; try exact Z; (destruct b; try exact Z; try (apply G; discriminate); destruct b; try exact Z; apply G; discriminate).
  Qed.
  Lemma mono_equalCSE a b : mono (equalCSE Or Mg a b).
  Proof. unfold equalCSE. monot. Qed.
  Hint Resolve mono_equalCSE : mono.
  Lemma hoare_equalCSE a b : hoare (equalCSE Or Mg a b) (fun x => x = true -> a ≈ b /\ (forall u e, a <> EStore u e)).
  Proof.
    unfold equalCSE. destruct (randomized_cse Mg) eqn:Hr; [|apply hoare_struct].
    apply hoare_or; [monot|apply hoare_struct|now apply hoare_likely].
  Qed.

  (** the tables *)
  Lemma mono_lookl {A} eq k (l : list (expr * A)) : (forall a b, mono (eq a b)) -> mono (lookl eq k l).
  Proof. intros H. induction l as [|[a b] l IH]; cbn; monot. Qed.
  Lemma mono_look {A} eq k h (t : elem A) : (forall a b, mono (eq a b)) -> mono (look eq k h t).
  Proof. intros H. induction t; cbn; [monot|]. destruct (h0 <? h), (h0 >? h); auto using @mono_lookl. Qed.
  Lemma hoare_lookl eq k (l : list (expr * expr)) (P : expr -> Prop) : (forall a b, mono (eq a b)) ->
    (forall b, hoare (eq k b) (fun x => x = true -> P b)) ->
    hoare (lookl eq k l) (fun r => forall v, r = Some v -> exists k', In (k', v) l /\ P k').
  Proof.
    intros Hm H. induction l as [|[a b] l IH]; cbn; [apply hoare_ret; discriminate|].
    eapply hoare_bind; [apply H|intros []; auto using @mono_ret, @mono_lookl|].
    intros [] E.
    - apply hoare_ret. intros v Hv. injection Hv as <-. exists a. auto.
    - eapply hoare_conseq; [apply IH|]. cbn. intros r Hr v Hv. destruct (Hr v Hv) as (k' & H1 & H2). exists k'. auto.
  Qed.
  Fixpoint entries (t : elem expr) : list (expr * expr) :=
    match t with Leaf => [] | Node _ l r this => entries l ++ entries r ++ this end.
  Lemma tblP_entries t k v : tblP t -> In (k, v) (entries t) -> rel k v.
  Proof.
    induction t as [|h l IHl r IHr this]; cbn; [tauto|]. intros (A & B & D) H. rewrite !in_app_iff in H. destruct H as [H|[H|H]]; auto.
    rewrite Forall_forall in D. apply (D (k, v) H).
  Qed.
  Lemma hoare_look eq k h (t : elem expr) (P : expr -> Prop) : (forall a b, mono (eq a b)) ->
    (forall b, hoare (eq k b) (fun x => x = true -> P b)) ->
    hoare (look eq k h t) (fun r => forall v, r = Some v -> exists k', In (k', v) (entries t) /\ P k').
  Proof.
    intros Hm H. induction t as [|hk l IHl r IHr this]; cbn [look entries]; [apply hoare_ret; discriminate|].
    destruct (hk <? h); [|destruct (hk >? h)].
    - eapply hoare_conseq; [apply IHl|]. cbn. intros o Ho v Hv. destruct (Ho v Hv) as (k' & H1 & H2). exists k'. rewrite in_app_iff. auto.
    - eapply hoare_conseq; [apply IHr|]. cbn. intros o Ho v Hv. destruct (Ho v Hv) as (k' & H1 & H2). exists k'. rewrite !in_app_iff. auto.
    - eapply hoare_conseq; [apply hoare_lookl; auto|]. cbn. intros o Ho v Hv. destruct (Ho v Hv) as (k' & H1 & H2). exists k'. rewrite !in_app_iff. auto.
  Qed.
  Lemma mono_hash x : mono (hashCSE Or Mg x). Proof. unfold hashCSE. monot. Qed.
  Hint Resolve mono_hash : mono.
  Lemma hoare_hash x : hoare (hashCSE Or Mg x) (fun _ => True).
  Proof. unfold hashCSE. destruct (randomized_cse Mg); now apply hoare_tick. Qed.
  Lemma mono_lookS k : mono (lookupSimpM Or k).
  Proof. unfold lookupSimpM. apply mono_bind; [auto with mono|]. intros h s a s' E. eapply mono_look; [|exact E]. auto with mono. Qed.
  Lemma mono_lookC k : mono (lookupCSEM Or Mg k).
  Proof. unfold lookupCSEM. apply mono_bind; [auto with mono|]. intros h s a s' E. eapply mono_look; [|exact E]. auto with mono. Qed.
  Lemma mono_insS k v : mono (insertSimpM Or k v).
  Proof. unfold insertSimpM. apply mono_bind; [auto with mono|]. intros h s a s' E. injection E as <- <-. auto. Qed.
  Lemma mono_insC k v : mono (insertCSEM Or Mg k v).
  Proof. unfold insertCSEM. apply mono_bind; [auto with mono|]. intros h s a s' E. injection E as <- <-. auto. Qed.
  Hint Resolve mono_lookS mono_lookC mono_insS mono_insC : mono.
  Lemma hoare_lookS k : hoare (lookupSimpM Or k) (fun r => forall v, r = Some v -> rel k v).
  Proof.
    unfold lookupSimpM. eapply hoare_bind; [now apply (hoare_tick _ (fun _ => True))| |].
    - intros h s a s' E. eapply mono_look; [|exact E]. auto with mono.
    - intros h _ s a s' Hi E Hb. destruct (hoare_look (eqM Or) k h (simp s) (fun b => k = b)) with (s := s) (a := a) (s' := s') as [H1 H2]; auto with mono.
      { intros b. apply hoare_eqM. }
      split; auto. intros v Hv. destruct (H2 v Hv) as (k' & H3 & <-). eapply tblP_entries; eauto. apply Hi.
  Qed.
  Lemma hoare_lookC k : hoare (lookupCSEM Or Mg k) (fun r => forall v, r = Some v -> rel k v).
  Proof.
    unfold lookupCSEM. eapply hoare_bind; [apply hoare_hash| |].
    - intros h s a s' E. eapply mono_look; [|exact E]. auto with mono.
    - intros h _ s a s' Hi E Hb. destruct (hoare_look (equalCSE Or Mg) k h (cse s) (fun b => k ≈ b /\ (forall u e, k <> EStore u e))) with (s := s) (a := a) (s' := s') as [H1 H2]; auto with mono.
      { intros b. apply hoare_equalCSE. }
      split; auto. intros v Hv. destruct (H2 v Hv) as (k' & H3 & H4 & H5). split.
      + destruct (tblP_entries (cse s) k' v) as [H6 _]; [apply Hi|auto|]. eapply eqv_trans; eauto.
      + intros u e He. now destruct (H5 u e).
  Qed.
  Lemma hoare_insS k v : rel k v -> hoare (insertSimpM Or k v) (fun _ => True).
  Proof.
    intros Hr. unfold insertSimpM. eapply hoare_bind; [now apply (hoare_tick _ (fun _ => True))| |].
    - intros h s a s' E. injection E as <- <-. auto.
    - intros h _ s a s' [H1 H2] E _. injection E as <- <-. split; auto. split; cbn; auto. now apply tblP_ins.
  Qed.
  Lemma hoare_insC k v : rel k v -> hoare (insertCSEM Or Mg k v) (fun _ => True).
  Proof.
    intros Hr. unfold insertCSEM. eapply hoare_bind; [apply hoare_hash| |].
    - intros h s a s' E. injection E as <- <-. auto.
    - intros h _ s a s' [H1 H2] E _. injection E as <- <-. split; auto. split; cbn; auto. now apply tblP_ins.
  Qed.
  Lemma mono_memo x : mono (memo Or Mg x). Proof. unfold memo. monot. Qed.
  Hint Resolve mono_memo : mono.
  Lemma hoare_memo x : hoare (memo Or Mg x) (rel x).
  Proof.
    unfold memo. eapply hoare_bind; [apply hoare_lookC|monot|]. intros [v|] H; [apply hoare_ret; auto|].
    eapply hoare_bind; [apply hoare_insC, rel_refl|monot|]. intros _ _. apply hoare_ret, rel_refl.
  Qed.
  Lemma mono_node x : mono (makeNode Or Mg x). Proof. unfold makeNode. monot. Qed.
  Hint Resolve mono_node : mono.
  Lemma hoare_node_rel x : hoare (makeNode Or Mg x) (rel x).
  Proof.
    unfold makeNode. assert (H := hoare_memo x).
    assert (G : hoare (x' <- memo Or Mg x ;; _ <- memo Or Mg (Uminus x') ;; ret x') (rel x)).
    { eapply hoare_bind; [exact H|monot|]. intros y Hy. eapply hoare_bind; [apply hoare_memo|monot|]. intros _ _. now apply hoare_ret. }
    destruct x; auto.
  Qed.
  Lemma hoare_node x : hoare (makeNode Or Mg x) (fun y => y ≈ x).
  Proof. eapply hoare_conseq; [apply hoare_node_rel|]. intros y [H _]. now apply eqv_sym. Qed.

  (** ** The simplifiers *)
  Record opsM (o : ops) : Prop := {
    m_snum : forall n, mono (snumM o n);
    m_suminus : forall x, mono (suminusM o x);
    m_stimes : forall a b, mono (stimesM o a b);
    m_sctimes : forall a b, mono (sctimesM o a b);
    m_sctimesj : forall a b, mono (sctimesjM o a b);
    m_reduce : forall l, mono (reduce_sumM o l);
    m_collect : forall w l, mono (collectM o w l);
    m_mangle : forall l, mono (mangleSumM o l);
    m_splus : forall l, mono (splusM o l) }.
  Record opsH (o : ops) : Prop := {
    h_snum : forall n, hoare (snumM o n) (fun y => y ≈ Num n);
    h_suminus : forall x, hoare (suminusM o x) (fun y => y ≈ Uminus x);
    h_stimes : forall a b, hoare (stimesM o a b) (fun y => y ≈ Times a b);
    h_sctimes : forall a b, hoare (sctimesM o a b) (fun y => y ≈ CTimes a b);
    h_sctimesj : forall a b, hoare (sctimesjM o a b) (fun y => y ≈ CTimesJ a b);
    h_reduce : forall l, hoare (reduce_sumM o l) (fun l' => eqs l' l);
    h_collect : forall w l, hoare (collectM o w l) (fun l' => eqs l' l);
    h_mangle : forall l, hoare (mangleSumM o l) (fun l' => eqs l' l);
    h_splus : forall l, hoare (splusM o l) (fun y => y ≈ Plus l) }.
  Hint Resolve m_snum m_suminus m_stimes m_sctimes m_sctimesj m_reduce m_collect m_mangle m_splus : mono.

  Section Step.
    Variable o : ops.
    Hypothesis HM : opsM o.
    Hypothesis HH : opsH o.

    Lemma mono_snum1 n : mono (snumM1 Or Mg o n). Proof. unfold snumM1. monot. Qed.
    Lemma mono_suminus1 x : mono (suminusM1 Or Mg o x). Proof. unfold suminusM1. monot. Qed.
    Lemma mono_last a b : mono (times_last Or Mg o a b). Proof. unfold times_last. monot. Qed.
    Hint Resolve mono_last : mono.
    Lemma mono_stimes1 a b : mono (stimesM1 Or Mg o a b). Proof. unfold stimesM1. monot. Qed.
    Lemma mono_sctimes1 a b : mono (sctimesM1 Or Mg o a b). Proof. unfold sctimesM1. monot. Qed.
    Lemma mono_sctimesj1 a b : mono (sctimesjM1 Or Mg o a b). Proof. unfold sctimesjM1. monot. Qed.
    Lemma mono_reduce1 l : mono (reduce_sumM1 o l). Proof. unfold reduce_sumM1. monot. Qed.
    Lemma mono_findC w x : mono (findCoeffM o w x).
    Proof. induction x; cbn [findCoeffM]; monot. Qed.
    Hint Resolve mono_findC : mono.
    Lemma mono_separate xpr l : mono (separateM Or o xpr l).
    Proof. induction l; cbn [separateM]; monot. Qed.
    Hint Resolve mono_separate : mono.
    Lemma mono_collect1 w l : mono (collectM1 Or o w l). Proof. unfold collectM1. monot. Qed.
    Lemma mono_fma l : mono (generateFusedMultAddM Or Mg o l). Proof. unfold generateFusedMultAddM. monot. Qed.
    Hint Resolve mono_fma : mono.
    Lemma mono_canon l : mono (canonicalizeM Or Mg o l). Proof. unfold canonicalizeM. monot. Qed.
    Lemma mono_memq a l : mono (memq Or a l). Proof. unfold memq. auto with mono. Qed.
    Hint Resolve mono_canon mono_memq : mono.
    Lemma mono_dup l : mono (duplicates Or l). Proof. induction l; cbn; monot. Qed.
    Lemma mono_split : forall x depth d, mono (splitDuplicates Or o depth d x).
    Proof.
      fix IH 1. intros x depth d.
      assert (Z : mono (zero <- snumM o 0%R ;; ret (x, zero))) by monot.
      destruct x; cbn [splitDuplicates]; (apply mono_bind; [auto with mono|]; intros []; [monot|]); try exact Z.
      - destruct (depth >? 0); [|exact Z]. apply mono_bind; [|monot].
        clear Z. induction l as [|a l IHl]; [monot|]. apply mono_bind; [apply IH|]. intros. apply mono_bind; [exact IHl|monot].
      - apply mono_bind; [apply IH|]. intros. apply mono_bind; [apply IH|]. monot.
      - apply mono_bind; [apply IH|]. monot.
    Qed.
    Lemma mono_flat x : mono (flattenPlusM o x). Proof. induction x; cbn; monot. Qed.
    Hint Resolve mono_dup mono_split mono_flat : mono.
    Lemma mono_deep k l : mono (deepCollectM Or o k l). Proof. unfold deepCollectM. monot. Qed.
    Hint Resolve mono_deep : mono.
    Lemma mono_mangle1 l : mono (mangleSumM1 Or Mg o l). Proof. unfold mangleSumM1. monot. Qed.
    Lemma mono_splus1 l : mono (splusM1 Or Mg o l). Proof. unfold splusM1. cbn zeta. monot. Qed.

    Ltac hb lem := eapply hoare_bind; [apply lem; assumption|monot|].
    Ltac hc lem := eapply hoare_conseq; [apply lem; assumption|].

    Lemma hoare_snum1 n : hoare (snumM1 Or Mg o n) (fun y => y ≈ Num n).
    Proof.
      unfold snumM1. destruct (is_zero n) eqn:Z.
      - apply is_zero_t in Z. subst. apply hoare_node.
      - destruct (negative_num n); [|apply hoare_node].
        hb hoare_node. intros x Hx. hc h_suminus. intros y Hy. evs. rewrite RtoC_opp. ring.
    Qed.
    Lemma hoare_suminus1 x : hoare (suminusM1 Or Mg o x) (fun y => y ≈ Uminus x).
    Proof.
      unfold suminusM1. destruct x; try apply hoare_node.
      - destruct (is_zero a) eqn:Z; [|apply hoare_node]. apply is_zero_t in Z. subst. hc h_snum. intros y Hy. evs. change (RtoC 0) with C0. ring.
      - hc hoare_node. intros y Hy. evs. ring.
    Qed.
    Lemma hoare_last a b : hoare (times_last Or Mg o a b) (fun y => y ≈ Times a b).
    Proof.
      unfold times_last. destruct (is_known_constant b && negb (is_known_constant a)); [|apply hoare_node].
      hc h_stimes. intros y Hy. evs. ring.
    Qed.
    Lemma stimes_um a b (P : expr -> Prop) : (forall y, y ≈ Uminus (Times a b) -> P y) ->
      hoare (x <- stimesM o a b ;; suminusM o x) P.
    Proof. intros HP. hb h_stimes. intros x Hx. hc h_suminus. intros y Hy. apply HP. evs. ring. Qed.
    Lemma stimes_num a b : hoare (if is_zero a then snumM o 0%R else if is_one a then makeNode Or Mg b
        else if is_mone a then suminusM o b else times_last Or Mg o (Num a) b) (fun y => y ≈ Times (Num a) b).
    Proof.
      destruct (is_zero a) eqn:Z; [apply is_zero_t in Z; subst; hc h_snum; intros y Hy; evs; change (RtoC 0) with C0; ring|].
      destruct (is_one a) eqn:Z1; [apply is_one_t in Z1; subst; hc hoare_node; intros y Hy; evs; change (RtoC 1) with C1; ring|].
      destruct (is_mone a) eqn:Z2; [apply is_mone_t in Z2; subst; hc h_suminus; intros y Hy; evs; replace (RtoC (-1)) with (- C1)%C by (apply C_eq; cbn; ring); ring|].
      apply hoare_last.
    Qed.
    Lemma hoare_stimes1 a b : hoare (stimesM1 Or Mg o a b) (fun y => y ≈ Times a b).
    Proof.
      assert (U1 : forall a b, hoare (x <- stimesM o a b ;; suminusM o x) (fun y => y ≈ Times (Uminus a) b)).
      { intros. apply stimes_um. intros y Hy. evs. ring. }
      assert (U2 : forall a b, hoare (x <- stimesM o a b ;; suminusM o x) (fun y => y ≈ Times a (Uminus b))).
      { intros. apply stimes_um. intros y Hy. evs. ring. }
      unfold stimesM1. destruct a; try apply U1; try (destruct b; try apply U2; apply hoare_last).
      - destruct b; try apply U2; try apply stimes_num.
        + hc h_snum. intros y Hy. evs. apply RtoC_mul.
        + destruct b1; try apply stimes_num. hb h_snum. intros x Hx. hc h_stimes. intros y Hy. evs. rewrite RtoC_mul. ring.
      - destruct b; try apply U2; try apply hoare_last.
        + hb h_stimes. intros x Hx. hc h_sctimes. intros y Hy. evs. ring.
        + hb h_stimes. intros x Hx. hc h_sctimesj. intros y Hy. evs. ring.
    Qed.
    Lemma conj_opp (x : C) : Cplx.conj (- x)%C = (- Cplx.conj x)%C.
    Proof. apply C_eq; unfold Cplx.conj, copp; cbn; ring. Qed.
    Lemma hoare_sctimes1 a b : hoare (sctimesM1 Or Mg o a b) (fun y => y ≈ CTimes a b).
    Proof.
      assert (U1 : forall a b, hoare (x <- sctimesM o a b ;; suminusM o x) (fun y => y ≈ CTimes (Uminus a) b)).
      { intros. hb h_sctimes. intros x Hx. hc h_suminus. intros y Hy. evs. ring. }
      assert (U2 : forall a b, hoare (x <- sctimesM o a b ;; suminusM o x) (fun y => y ≈ CTimes a (Uminus b))).
      { intros. hb h_sctimes. intros x Hx. hc h_suminus. intros y Hy. evs. ring. }
      unfold sctimesM1. destruct a; try apply U1; destruct b; try apply U2; apply hoare_node.
    Qed.
    Lemma hoare_sctimesj1 a b : hoare (sctimesjM1 Or Mg o a b) (fun y => y ≈ CTimesJ a b).
    Proof.
      assert (U1 : forall a b, hoare (x <- sctimesjM o a b ;; suminusM o x) (fun y => y ≈ CTimesJ (Uminus a) b)).
      { intros. hb h_sctimesj. intros x Hx. hc h_suminus. intros y Hy. evs. rewrite conj_opp. ring. }
      assert (U2 : forall a b, hoare (x <- sctimesjM o a b ;; suminusM o x) (fun y => y ≈ CTimesJ a (Uminus b))).
      { intros. hb h_sctimesj. intros x Hx. hc h_suminus. intros y Hy. evs. ring. }
      unfold sctimesjM1. destruct a; try apply U1; destruct b; try apply U2; apply hoare_node.
    Qed.
    Lemma RtoC_sub a b : RtoC (a - b) = (RtoC a - RtoC b)%C.
    Proof. apply C_eq; cbn; ring. Qed.
    Lemma hoare_reduce1 l : hoare (reduce_sumM1 o l) (fun l' => eqs l' l).
    Proof.
      assert (N : forall a s, hoare (s' <- reduce_sumM o s ;; ret (a :: s')) (fun l' => eqs l' (a :: s))).
      { intros a s. hb h_reduce. intros s' Hs. apply hoare_ret. intros env. rewrite !lsumE_cons. now rewrite (Hs env). }
      assert (S : forall a b s, hoare (reduce_sumM o (b :: a :: s)) (fun l' => eqs l' (a :: b :: s))).
      { intros a b s. hc h_reduce. intros l' H env. rewrite (H env). rewrite !lsumE_cons. ring. }
      assert (P : forall y c a b s, y ≈ c -> (forall env, eval env c = eval env a + eval env b)%C ->
                 hoare (reduce_sumM o (y :: s)) (fun l' => eqs l' (a :: b :: s))).
      { intros y c a b s Hy E. hc h_reduce. intros l' H env. rewrite (H env). rewrite !lsumE_cons, (Hy env), E. ring. }
      assert (R0 : hoare (ret (@nil expr)) (fun l' => eqs l' [])) by (apply hoare_ret; intros env; reflexivity).
      unfold reduce_sumM1. destruct l as [|x s]; [exact R0|].
      destruct x; try apply N.
      - destruct s as [|b s].
        { destruct (is_zero a) eqn:Z; apply hoare_ret; intros env; [|reflexivity]. apply is_zero_t in Z. subst. cbn. change (RtoC 0) with C0. ring. }
        destruct b; try apply S.
        + hb h_snum. intros y Hy. eapply P; [exact Hy|]. intros env. apply RtoC_add.
        + destruct b; try apply S. hb h_snum. intros y Hy. eapply P; [exact Hy|]. intros env. cbn [eval]. rewrite RtoC_sub. ring.
      - destruct x; try apply N. destruct s as [|b s].
        { destruct (is_zero a) eqn:Z; apply hoare_ret; intros env; [|reflexivity]. apply is_zero_t in Z. subst. cbn. change (RtoC 0) with C0. ring. }
        destruct b; try apply S.
        + hb h_snum. intros y Hy. eapply P; [exact Hy|]. intros env. cbn [eval]. rewrite RtoC_sub. ring.
        + destruct b; try apply S. hb h_snum. intros y Hy. hb h_suminus. intros z Hz.
          eapply P; [exact Hz|]. intros env. cbn [eval]. rewrite (Hy env). cbn [eval]. rewrite RtoC_add. ring.
    Qed.
    Lemma hoare_findC w x : hoare (findCoeffM o w x) (fun cb => x ≈ Times (fst cb) (snd cb)).
    Proof.
      assert (One : forall x, hoare (one <- snumM o 1%R ;; ret (one, x)) (fun cb => x ≈ Times (fst cb) (snd cb))).
      { intros y. hb h_snum. intros z Hz. apply hoare_ret. cbn [fst snd]. evs. change (RtoC 1) with C1. ring. }
      induction x; cbn [findCoeffM]; try apply One.
      - destruct (collectible1 _); [|apply One]. apply hoare_ret. destruct w; cbn [which fst snd]; evs; ring.
      - hb IHx. intros cb Hcb. hb h_suminus. intros m Hm. apply hoare_ret. cbn [fst snd].
        intros env. specialize (Hcb env). specialize (Hm env). cbn [eval] in *. rewrite Hcb, Hm. ring.
    Qed.
    Lemma hoare_separate xpr l : hoare (separateM Or o xpr l)
      (fun p => forall env, lsumE env l = (lsumE env (fst p) * eval env xpr + lsumE env (snd p))%C).
    Proof.
      induction l as [|a l IH]; cbn [separateM].
      - apply hoare_ret. intros env. cbn. ring.
      - assert (E : forall (cx : expr * expr) (k1 k2 : M (list expr * list expr)) Q, mono k1 -> mono k2 ->
           (xpr = snd cx -> hoare k1 Q) -> hoare k2 Q ->
           hoare (e <- andM (eqM Or xpr (snd cx)) (ret (collectible1 (fst cx))) ;; if e : bool then k1 else k2) Q).
        { intros cx k1 k2 Q M1 M2 H1 H2. eapply hoare_bind.
          - apply (hoare_and _ _ (xpr = snd cx) True); [auto with mono|apply hoare_eqM|intros _; apply hoare_ret; auto].
          - intros []; auto.
          - intros [] He; [|exact H2]. apply H1. now apply He. }
        hb IH. intros wwo Hw. hb hoare_findC. intros cx Hcx. apply E; [monot|monot| |].
        + intros ->. apply hoare_ret. intros env. cbn [fst snd]. rewrite !lsumE_cons, (Hw env), (Hcx env). cbn [eval]. ring.
        + hb hoare_findC. intros cx' Hcx'. apply E; [monot|monot| |].
          * intros ->. apply hoare_ret. intros env. cbn [fst snd]. rewrite !lsumE_cons, (Hw env), (Hcx' env). cbn [eval]. ring.
          * apply hoare_ret. intros env. cbn [fst snd]. rewrite !lsumE_cons, (Hw env). ring.
    Qed.
    Lemma hoare_collect1 w l : hoare (collectM1 Or o w l) (fun l' => eqs l' l).
    Proof.
      assert (R : forall l, hoare (ret l) (fun l' => eqs l' l)) by (intros; apply hoare_ret; intros env; reflexivity).
      unfold collectM1. destruct l as [|a [|b l]]; try apply R.
      hb hoare_findC. intros cx _. cbn zeta. hb hoare_separate. intros p Hp. hb h_collect. intros wo' Hwo.
      hb h_splus. intros w' Hw'. hb h_stimes. intros t Ht. apply hoare_ret. intros env. rewrite (Hp env), lsumE_cons, (Hwo env), (Ht env).
      cbn [eval]. rewrite (Hw' env), eval_Plus. ring.
    Qed.
    Lemma fma_sep_sum env l : let '(x, y, max) := fma_separate l in lsumE env l = (lsumE env x + lsumE env y)%C.
    Proof.
      induction l as [|a l IH]; cbn [fma_separate]; [cbn; ring|].
      destruct (fma_separate l) as [[x y] max].
      assert (A1 : lsumE env (a :: l) = (lsumE env (a :: x) + lsumE env y)%C) by (rewrite !lsumE_cons, IH; ring).
      assert (A2 : lsumE env (a :: l) = (lsumE env x + lsumE env (a :: y))%C) by (rewrite !lsumE_cons, IH; ring).
      destruct a; try exact A2; [destruct a1|destruct a]; try exact A2; try exact A1. destruct a1; try exact A2; exact A1.
    Qed.
    Lemma hoare_fma l : hoare (generateFusedMultAddM Or Mg o l) (fun y => y ≈ Plus l).
    Proof.
      unfold generateFusedMultAddM. destruct (enable_fma Mg && _); [|apply hoare_node].
      destruct (fma_separate l) as [[w wo] max] eqn:E. destruct (num_equal max 0) eqn:Z; [apply hoare_fail|].
      assert (Hm : max <> 0%R). { unfold num_equal in Z. destruct (Req_EM_T max 0); congruence. }
      hb h_snum. intros im Him. hb h_snum. intros mx Hmx.
      eapply hoare_bind; [apply hoare_mapM; [auto with mono|intros a _; apply (h_stimes _ HH)]|monot|]. intros ws Hws.
      hb h_splus. intros pw Hpw. hb h_stimes. intros mw Hmw. hc h_splus. intros y Hy env.
      rewrite (Hy env), !eval_Plus, lsumE_app, lsumE_cons, (Hmw env). cbn [eval]. rewrite (Hpw env), eval_Plus, (Hmx env). cbn [eval].
      assert (S := fma_sep_sum env l). rewrite E in S. rewrite S.
      assert (W : lsumE env ws = (RtoC (1 / max) * lsumE env w)%C).
      { clear - Hws Him. induction Hws as [|a b la lb H F IH]; [cbn; ring|]. rewrite !lsumE_cons, IH, (H env). cbn [eval]. rewrite (Him env). cbn [eval]. ring. }
      rewrite W. cbn [lsumE fold_right].
      replace (RtoC max * (RtoC (1 / max) * lsumE env w))%C with (RtoC (max * (1 / max)) * lsumE env w)%C by (rewrite RtoC_mul; ring).
      replace (max * (1 / max))%R with 1%R by (field; auto). change (RtoC 1) with C1. ring.
    Qed.
    Lemma reorder_sum env l : lsumE env (reorder_uminus l) = lsumE env l.
    Proof.
      induction l as [|a l IH]; [reflexivity|].
      assert (A1 : lsumE env (a :: reorder_uminus l) = lsumE env (a :: l)) by (rewrite !lsumE_cons, IH; reflexivity).
      destruct a; cbn [reorder_uminus]; try exact A1. rewrite lsumE_app, !lsumE_cons, IH. cbn [lsumE fold_right]. ring.
    Qed.
    Lemma hoare_canon l : hoare (canonicalizeM Or Mg o l) (fun y => y ≈ Plus l).
    Proof.
      unfold canonicalizeM. destruct l as [|a [|b l]].
      - hc h_snum. intros y Hy. evs. reflexivity.
      - hc hoare_node. intros y Hy. evs. ring.
      - hc hoare_fma. intros y Hy env. rewrite (Hy env), !eval_Plus. apply reorder_sum.
    Qed.
    Lemma hoare_memq a l : hoare (memq Or a l) (fun _ => True).
    Proof.
      apply hoare_any. unfold memq. induction l; cbn; [apply quiet_ret|]. apply quiet_bind; [apply quiet_tick|]. intros []; auto using @quiet_ret.
    Qed.
    Lemma hoare_dup l : hoare (duplicates Or l) (fun _ => True).
    Proof.
      induction l; cbn; [now apply hoare_ret|]. hb hoare_memq. intros [] _; auto. hb IHl. intros d _. now apply hoare_ret.
    Qed.
    Definition splits (x : expr) (p : expr * expr) : Prop := forall env, eval env x = (eval env (fst p) + eval env (snd p))%C.
    Lemma hoare_split : forall x depth d, hoare (splitDuplicates Or o depth d x) (splits x).
    Proof.
      fix IH 1. intros x depth d.
      assert (Z : hoare (zero <- snumM o 0%R ;; ret (x, zero)) (splits x)).
      { hb h_snum. intros z Hz. apply hoare_ret. intros env. cbn [fst snd]. rewrite (Hz env). cbn [eval]. change (RtoC 0) with C0. ring. }
      assert (Z' : hoare (zero <- snumM o 0%R ;; ret (zero, x)) (splits x)).
      { hb h_snum. intros z Hz. apply hoare_ret. intros env. cbn [fst snd]. rewrite (Hz env). cbn [eval]. change (RtoC 0) with C0. ring. }
      assert (Mo := mono_split).
      destruct x; cbn [splitDuplicates];
        (eapply hoare_bind; [apply hoare_memq|intros []; [monot|]|intros [] _; [exact Z'|]]); try exact Z; try solve [monot].
      - destruct (depth >? 0); [|monot]. apply mono_bind; [|monot].
        clear - HM Mo. induction l as [|a l IHl]; [monot|]. apply mono_bind; [apply Mo|]. intros. apply mono_bind; [exact IHl|monot].
      - destruct (depth >? 0); [|exact Z].
        eapply hoare_bind with (P := fun ld => Forall2 splits l ld).
        + clear Z Z'. induction l as [|a l IHl]; [apply hoare_ret; constructor|].
          eapply hoare_bind; [apply IH| |].
          { intros. apply mono_bind; [|monot]. clear - HM Mo. induction l as [|a' l IHl]; [monot|]. apply mono_bind; [apply Mo|]. intros. apply mono_bind; [exact IHl|monot]. }
          intros a' Ha. eapply hoare_bind; [apply IHl|monot|]. intros b' Hb. apply hoare_ret. now constructor.
        + monot.
        + intros ld Hld. hb h_splus. intros p Hp. hb h_splus. intros q Hq. apply hoare_ret. intros env. cbn [fst snd].
          rewrite (Hp env), (Hq env), !eval_Plus. clear - Hld. induction Hld as [|a b la lb H F IHF]; [cbn; ring|].
          cbn [map]. rewrite !lsumE_cons, IHF, (H env). ring.
      - eapply hoare_bind; [apply IH|monot|]. intros pa Ha. eapply hoare_bind; [apply IH|monot|]. intros pb Hb.
        hb h_stimes. intros ab Hab. hb h_stimes. intros xb Hxb. hb h_stimes. intros xa Hxa. hb h_stimes. intros xab Hxab.
        eapply hoare_bind; [apply hoare_ghost|monot|]. intros u_ Hg. cbv beta in Hg. hb h_splus. intros y Hy. apply hoare_ret. intros env. cbn [fst snd].
        rewrite (Hy env), eval_Plus, (Hab env). cbn [lsumE fold_right eval]. rewrite (Hxa env), (Hxb env). cbn [eval].
        assert (X0 : eval env xab = C0). { unfold is_Num0 in Hg. destruct xab; try discriminate. apply is_zero_t in Hg. subst. reflexivity. }
        assert (X1 := Hxab env). cbn [eval] in X1. rewrite X0 in *. rewrite (Ha env), (Hb env).
        transitivity (eval env (fst pa) * eval env (fst pb) + (eval env (snd pa) * (eval env (fst pb) + eval env (snd pb)) + ((eval env (fst pa) + eval env (snd pa)) * eval env (snd pb) + C0)) - eval env (snd pa) * eval env (snd pb))%C; [ring|].
        rewrite <- X1. ring.
      - eapply hoare_bind; [apply IH|monot|]. intros p Hp. hb h_suminus. intros ux Hux. hb h_suminus. intros uy Huy. apply hoare_ret.
        intros env. cbn [fst snd eval]. rewrite (Hux env), (Huy env), (Hp env). cbn [eval]. ring.
    Qed.
    Lemma lsumE_neg env l l' : Forall2 (fun a y => y ≈ Uminus a) l l' -> lsumE env l' = (- lsumE env l)%C.
    Proof. induction 1 as [|a b la lb H F IH]; [cbn; ring|]. rewrite !lsumE_cons, IH, (H env). cbn [eval]. ring. Qed.
    Lemma hoare_flat x : hoare (flattenPlusM o x) (fun l => forall env, lsumE env l = eval env x).
    Proof.
      assert (R : forall x, hoare (ret [x]) (fun l => forall env, lsumE env l = eval env x)).
      { intros y. apply hoare_ret. intros env. cbn. ring. }
      induction x; cbn [flattenPlusM]; try apply R.
      - apply hoare_ret. intros env. now rewrite eval_Plus.
      - hb IHx. intros l Hl. eapply hoare_conseq; [apply hoare_mapM; [auto with mono|intros a _; apply (h_suminus _ HH)]|].
        intros l' F env. cbn [eval]. rewrite (lsumE_neg env _ _ F), (Hl env). reflexivity.
    Qed.
    Lemma hoare_deep k l : hoare (deepCollectM Or o k l) (fun l' => eqs l' l).
    Proof.
      unfold deepCollectM. hb hoare_dup. intros d _. destruct d as [|d0 d]; [apply hoare_ret; intros env; reflexivity|].
      eapply hoare_bind; [apply hoare_mapM; [auto with mono|intros a _; apply hoare_split]|monot|]. intros ld Hld.
      hb h_splus. intros l'' Hl. eapply hoare_bind; [apply hoare_mapM; [auto with mono|intros a _; apply hoare_flat]|monot|]. intros d'' Hd.
      hb h_splus. intros d3 Hd3. hc h_mangle. intros y Hy env. rewrite (Hy env), !lsumE_cons, (Hl env), (Hd3 env), !eval_Plus.
      assert (E : lsumE env (concat d'') = lsumE env (map snd ld)).
      { clear - Hd. induction Hd as [|a b la lb H F IH]; [reflexivity|]. cbn [concat]. now rewrite lsumE_app, lsumE_cons, IH, (H env). }
      rewrite E. change (lsumE env []) with C0. clear - Hld. induction Hld as [|a b la lb H F IH]; [cbn; ring|]. cbn [map]. rewrite !lsumE_cons, (H env), <- IH. ring.
    Qed.
    Lemma hoare_mangle1 l : hoare (mangleSumM1 Or Mg o l) (fun l' => eqs l' l).
    Proof.
      unfold mangleSumM1. hb h_reduce. intros l1 H1. hb h_collect. intros l2 H2. hb h_collect. intros l3 H3. hb h_reduce. intros l4 H4.
      hb hoare_deep. intros l5 H5. hc h_reduce. intros l6 H6 env. rewrite (H6 env), (H5 env), (H4 env), (H3 env), (H2 env), (H1 env). reflexivity.
    Qed.
    Lemma hoare_splus1 l : hoare (splusM1 Or Mg o l) (fun y => y ≈ Plus l).
    Proof.
      unfold splusM1. cbn zeta. hb h_mangle. intros l' H'.
      assert (A : hoare (canonicalizeM Or Mg o l') (fun y => y ≈ Plus l)).
      { hc hoare_canon. intros y Hy env. now rewrite (Hy env), !eval_Plus, (H' env). }
      assert (B : hoare (m <- mapM (suminusM o) l' ;; p <- splusM o m ;; suminusM o p) (fun y => y ≈ Plus l)).
      { eapply hoare_bind; [apply hoare_mapM; [auto with mono|intros a _; apply (h_suminus _ HH)]|monot|]. intros m Hm. hb h_splus. intros p Hp.
        hc h_suminus. intros y Hy env. rewrite (Hy env). change (eval env (Uminus p)) with (- eval env p)%C. rewrite (Hp env), !eval_Plus, (lsumE_neg env _ _ Hm), (H' env). ring. }
      destruct (negb _); auto. destruct (forallb _ _); auto. destruct (fma_heuristics _ _) as [[]|]; auto.
      eapply hoare_bind with (P := fun _ => True); [|monot|].
      - destruct (randomized_cse Mg); [now apply hoare_ret|now apply hoare_tick].
      - intros [] _; auto.
    Qed.
  End Step.

  Lemma opsM_n f : opsM (opsn Or Mg f).
  Proof.
    induction f as [|f IH]; cbn [opsn]; [constructor; intros; apply mono_fail|].
    constructor; intros; cbn [step snumM suminusM stimesM sctimesM sctimesjM reduce_sumM collectM mangleSumM splusM].
    - now apply mono_snum1. - now apply mono_suminus1. - now apply mono_stimes1. - now apply mono_sctimes1. - now apply mono_sctimesj1.
    - now apply mono_reduce1. - now apply mono_collect1. - now apply mono_mangle1. - now apply mono_splus1.
  Qed.
  Lemma opsH_n f : opsH (opsn Or Mg f).
  Proof.
    induction f as [|f IH]; cbn [opsn]; [constructor; intros; apply hoare_fail|]. assert (HM := opsM_n f).
    constructor; intros; cbn [step snumM suminusM stimesM sctimesM sctimesjM reduce_sumM collectM mangleSumM splusM].
    - now apply hoare_snum1. - now apply hoare_suminus1. - now apply hoare_stimes1. - now apply hoare_sctimes1. - now apply hoare_sctimesj1.
    - now apply hoare_reduce1. - now apply hoare_collect1. - now apply hoare_mangle1. - now apply hoare_splus1.
  Qed.

  Section Top.
    Variable o : ops.
    Hypothesis HM : opsM o.
    Hypothesis HH : opsH o.
    Lemma mono_alg : forall x, mono (algsimpM Or Mg o x).
    Proof.
      fix IH 1. intros x. destruct x; cbn [algsimpM]; (apply mono_bind; [auto with mono|]; intros [v'|]; [monot|]); (apply mono_bind; [|monot]).
      - auto with mono.
      - auto with mono.
      - apply mono_bind; [|monot]. induction l as [|a l IHl]; [monot|]. apply mono_bind; [apply IH|]. intros. apply mono_bind; [exact IHl|monot].
      - apply mono_bind; [apply IH|]. intros. apply mono_bind; [apply IH|]. monot.
      - apply mono_bind; [apply IH|]. intros. apply mono_bind; [apply IH|]. monot.
      - apply mono_bind; [apply IH|]. intros. apply mono_bind; [apply IH|]. monot.
      - apply mono_bind; [apply IH|]. monot.
      - auto with mono.
      - apply mono_bind; [apply IH|]. monot.
    Qed.
    Hint Resolve mono_alg : mono.
    Lemma hoare_alg : forall x, hoare (algsimpM Or Mg o x) (rel x).
    Proof.
      fix IH 1. intros x.
      assert (Fin : forall m, mono m -> hoare m (rel x) -> hoare (v <- lookupSimpM Or x ;;
          match v with Some value => ret value | None => value <- m ;; _ <- insertSimpM Or x value ;; ret value end) (rel x)).
      { intros m Hm H. eapply hoare_bind; [apply hoare_lookS|monot|]. intros [v|] Hv; [apply hoare_ret; auto|].
        eapply hoare_bind; [exact H|monot|]. intros y Hy. eapply hoare_bind; [apply hoare_insS; exact Hy|monot|]. intros _ _. now apply hoare_ret. }
      assert (Nst : forall m, (forall u a, x <> EStore u a) -> hoare m (fun y => y ≈ x) -> hoare m (rel x)).
      { intros m Hx H. eapply hoare_conseq; [exact H|]. intros y Hy. split; [now apply eqv_sym|]. intros u a E. now destruct (Hx u a). }
      destruct x; cbn [algsimpM]; apply Fin.
      - auto with mono.
      - apply Nst; [discriminate|]. apply (h_snum _ HH).
      - auto with mono.
      - apply hoare_node_rel.
      - apply mono_bind; [|monot]. clear - HM. induction l as [|a l IHl]; [monot|]. apply mono_bind; [auto with mono|]. intros. apply mono_bind; [exact IHl|monot].
      - apply Nst; [discriminate|]. eapply hoare_bind with (P := fun l' => Forall2 rel l l').
        + clear Fin Nst. induction l as [|a l IHl]; [apply hoare_ret; constructor|].
          eapply hoare_bind; [apply IH| |].
          { intros. apply mono_bind; [|monot]. clear - HM. induction l as [|a' l IHl]; [monot|]. apply mono_bind; [auto with mono|]. intros. apply mono_bind; [exact IHl|monot]. }
          intros a' Ha. eapply hoare_bind; [apply IHl|monot|]. intros b' Hb. apply hoare_ret. now constructor.
        + monot.
        + intros l' F. eapply hoare_conseq; [apply (h_splus _ HH)|]. intros y Hy env. rewrite (Hy env), !eval_Plus.
          clear - F. induction F as [|a b la lb [H _] F IHF]; [reflexivity|]. now rewrite !lsumE_cons, IHF, (H env).
      - monot.
      - apply Nst; [discriminate|]. eapply hoare_bind; [apply IH|monot|]. intros a [Ha _]. eapply hoare_bind; [apply IH|monot|]. intros b [Hb _].
        eapply hoare_conseq; [apply (h_stimes _ HH)|]. intros y Hy env. rewrite (Hy env). cbn [eval]. now rewrite (Ha env), (Hb env).
      - monot.
      - apply Nst; [discriminate|]. eapply hoare_bind; [apply IH|monot|]. intros a [Ha _]. eapply hoare_bind; [apply IH|monot|]. intros b [Hb _].
        eapply hoare_conseq; [apply (h_sctimes _ HH)|]. intros y Hy env. rewrite (Hy env). cbn [eval]. now rewrite (Ha env), (Hb env).
      - monot.
      - apply Nst; [discriminate|]. eapply hoare_bind; [apply IH|monot|]. intros a [Ha _]. eapply hoare_bind; [apply IH|monot|]. intros b [Hb _].
        eapply hoare_conseq; [apply (h_sctimesj _ HH)|]. intros y Hy env. rewrite (Hy env). cbn [eval]. now rewrite (Ha env), (Hb env).
      - monot.
      - apply Nst; [discriminate|]. eapply hoare_bind; [apply IH|monot|]. intros a [Ha _].
        eapply hoare_conseq; [apply (h_suminus _ HH)|]. intros y Hy env. rewrite (Hy env). cbn [eval]. now rewrite (Ha env).
      - auto with mono.
      - apply hoare_node_rel.
      - monot.
      - eapply hoare_bind; [apply IH|monot|]. intros a [Ha _]. eapply hoare_conseq; [apply hoare_node_rel|].
        intros y [Hy Hs]. split.
        + intros env. rewrite <- (Hy env). cbn [eval]. apply (Ha env).
        + intros u b E. injection E as <- <-. apply (Hs _ _ eq_refl).
    Qed.
  End Top.
  Theorem algsimp_ok f roots roots' s' : algsimp Or Mg f roots = Some (roots', s') -> bad s' = false ->
    Forall2 rel roots roots'.
  Proof.
    intros H Hb. unfold algsimp in H.
    destruct (hoare_mapM (algsimpM Or Mg (opsn Or Mg f)) rel roots) with (s := mkst 0 false Leaf Leaf) (a := roots') (s' := s') as [_ F]; auto.
    - intros a. apply mono_alg, opsM_n.
    - intros a _. apply hoare_alg; [apply opsM_n|apply opsH_n].
    - split; exact I.
  Qed.
End Proofs.
