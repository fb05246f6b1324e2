(** * The algebraic simplifier keeps constants: a store of an expression that loads nothing but constants remains one *)
From Coq Require Import Reals ZArith List Bool Lia.
From Verif Require Import Cplx GenExpr GenAlg GenAlgProofs GenAlgVars GenTransProofs GenReal.
Import ListNotations.
Open Scope Z_scope.

Definition is_st (e : expr) : bool := match e with EStore _ _ => true | _ => false end.
(** [v] is what [k] may be simplified to *)
Definition rel (k v : expr) : Prop :=
  match k with EStore p e => exists e', v = EStore p e' /\ (nl e -> nl e') | _ => nl k -> nl v end.
Lemma rel_nl k v : rel k v -> nl k -> nl v.
Proof. destruct k; cbn [rel]; auto. intros _ E. discriminate E. Qed.

(** what a boolean command that answers yes has found out *)
Definition tru (m : M bool) (P : Prop) : Prop := forall s s', m s = Some (true, s') -> P.
Lemma tru_ret b (P : Prop) : (b = true -> P) -> tru (ret b) P. Proof. intros H s s' E. injection E as E _. auto. Qed.
Lemma tru_tick f (P : Prop) : (forall t, f t = true -> P) -> tru (tickM f) P. Proof. intros H s s' E. injection E as E _. eauto. Qed.
Lemma tru_and a b P Q : tru a P -> tru b Q -> tru (andM a b) (P /\ Q).
Proof. intros A B s s' E. unfold andM, bind in E. destruct (a s) as [[[] s1]|] eqn:Ea; try discriminate. split; [exact (A _ _ Ea)|exact (B _ _ E)]. Qed.
Lemma tru_or a b (P : Prop) : tru a P -> tru b P -> tru (orM a b) P.
Proof. intros A B s s' E. unfold orM, bind in E. destruct (a s) as [[[] s1]|] eqn:Ea; try discriminate; [exact (A _ _ Ea)|exact (B _ _ E)]. Qed.
Lemma tru_imp m (P Q : Prop) : tru m P -> (P -> Q) -> tru m Q. Proof. intros A B s s' E. apply B. exact (A _ _ E). Qed.
Lemma tru_ex {A} (f : A -> M bool) (P : A -> Prop) l : (forall a, tru (f a) (P a)) -> tru (existsM f l) (exists a, In a l /\ P a).
Proof.
  intros H. induction l as [|a l IH]; cbn [existsM]; [apply tru_ret; discriminate|]. apply tru_or.
  - eapply tru_imp; [apply H|]. intros p. exists a. split; [now left|exact p].
  - eapply tru_imp; [exact IH|]. intros (x & Hx & p). exists x. split; [now right|exact p].
Qed.
Lemma tru_all {A} (f : A -> M bool) (P : A -> Prop) l : (forall a, tru (f a) (P a)) -> tru (for_allM f l) (Forall P l).
Proof.
  intros H. induction l as [|a l IH]; cbn [for_allM]; [apply tru_ret; constructor|]. eapply tru_imp; [apply tru_and; [apply H|exact IH]|]. intros [p q]. now constructor.
Qed.

Section Const.
  Variable Or : oracles.
  Variable Mg : asettings.
  Hypothesis HO : sound_oracles Or Mg.
  (** the randomised test never takes an expression that loads an input for one that loads none *)
  Hypothesis RE : randomized_cse Mg = true -> forall t a b, random_equal Or t a b = true -> nonconst a = nonconst b.

  Lemma tru_eqM a b : tru (eqM Or a b) (a = b).
  Proof. apply tru_tick. intros t. apply (proj1 HO). Qed.
  Lemma tru_subset a b : tru (subset Or a b) (incl a b).
  Proof.
    unfold subset. eapply tru_imp; [apply tru_all; intros x; apply tru_ex; intros y; apply tru_eqM|]. cbv beta. intros F x Hx.
    rewrite Forall_forall in F. destruct (F x Hx) as (y & Hy & ->). exact Hy.
  Qed.
  Lemma ex_incl a b : incl a b -> existsb nonconst a = true -> existsb nonconst b = true.
  Proof. intros I E. apply existsb_exists in E. destruct E as (x & Hx & E). apply existsb_exists. exists x. auto. Qed.
  Definition sames (a b : expr) : Prop := nonconst a = nonconst b /\ is_st a = false /\ is_st b = false.
  Lemma tru_struct a b : tru (structurallyEqualCSE Or a b) (sames a b).
  Proof.
    destruct a, b; cbn [structurallyEqualCSE]; try (apply tru_ret; intros E; first [discriminate E|split; [reflexivity|split; reflexivity]]).
    - intros s s' E. unfold bind in E. destruct (andM _ _ s) as [[e s1]|] eqn:E1; [|discriminate]. cbn in E. injection E as -> _.
      destruct (tru_and _ _ _ _ (tru_subset _ _) (tru_subset _ _) _ _ E1) as [A B]. split; [|split; reflexivity]. cbn [nonconst].
      apply eq_true_iff_eq. split; apply ex_incl; assumption.
    - apply tru_or; (eapply tru_imp; [apply tru_and; apply tru_eqM|]); intros [-> ->]; (split; [|split; reflexivity]); cbn [nonconst]; auto using orb_comm.
    - apply tru_or; (eapply tru_imp; [apply tru_and; apply tru_eqM|]); intros [-> ->]; (split; [|split; reflexivity]); cbn [nonconst]; auto using orb_comm.
    - eapply tru_imp; [apply tru_and; apply tru_eqM|]. intros [-> ->]. split; [|split]; reflexivity.
    - eapply tru_imp; [apply tru_eqM|]. intros ->. split; [|split]; reflexivity.
    - apply tru_tick. intros t E. apply (proj1 (proj2 HO)) in E. subst. split; [|split]; reflexivity.
  Qed.
  Lemma tru_likely a b : randomized_cse Mg = true -> tru (likely_equal Or a b) (sames a b).
  Proof.
    intros Rd. assert (K : is_st a = false -> is_st b = false -> tru (tickM (fun t => random_equal Or t a b)) (sames a b)).
    { intros A B. apply tru_tick. intros t E. split; [eapply RE; eauto|auto]. }
    unfold likely_equal. destruct a as [| | | | | |a| |]; try (apply tru_ret; discriminate); try (destruct a; try (apply tru_ret; discriminate));
     destruct b as [| | | | | |b| |]; try (apply tru_ret; discriminate); try (apply K; reflexivity); destruct b; try (apply tru_ret; discriminate); apply K; reflexivity.
  Qed.
  Lemma tru_equalCSE a b : tru (equalCSE Or Mg a b) (sames a b).
  Proof. assert (L := tru_likely a b). unfold equalCSE. destruct (randomized_cse _) in L |- *; auto using tru_or, tru_struct. Qed.

  Fixpoint tblG (t : elem expr) : Prop :=
    match t with Leaf => True | Node _ l r this => tblG l /\ tblG r /\ forall k v, In (k, v) this -> rel k v end.
  Definition ginv (s : st) : Prop := tblG (simp s) /\ tblG (cse s).
  Definition gho {A} (m : M A) (Q : A -> Prop) : Prop := forall s a s', m s = Some (a, s') -> ginv s -> ginv s' /\ Q a.
  Lemma gho_ret {A} (a : A) (Q : A -> Prop) : Q a -> gho (ret a) Q.
  Proof. intros q s x s' E I. injection E as <- <-. auto. Qed.
  Lemma gho_fail {A} (Q : A -> Prop) : gho fail Q. Proof. intros s x s' E. discriminate E. Qed.
  Lemma gho_bind {A B} (m : M A) (k : A -> M B) (P : A -> Prop) Q : gho m P -> (forall a, P a -> gho (k a) Q) -> gho (bind m k) Q.
  Proof.
    intros H1 H2 s b s'' E I. unfold bind in E. destruct (m s) as [[a s']|] eqn:E1; [|discriminate]. destruct (H1 _ _ _ E1 I) as [I' p]. exact (H2 a p _ _ _ E I').
  Qed.
  Lemma gho_conseq {A} (m : M A) (P Q : A -> Prop) : gho m P -> (forall a, P a -> Q a) -> gho m Q.
  Proof. intros H1 H2 s a s' E I. destruct (H1 _ _ _ E I). auto. Qed.
  Lemma gho_quiet {A} (m : M A) : quiet m -> gho m (fun _ => True).
  Proof. intros Q s a s' E [I1 I2]. destruct (Q _ _ _ E) as [E1 E2]. split; auto. split; congruence. Qed.
  Lemma gho_mapM {A B} (f : A -> M B) (P : A -> Prop) (Q : B -> Prop) l : (forall a, P a -> gho (f a) Q) -> Forall P l -> gho (mapM f l) (Forall Q).
  Proof.
    intros Hf F. induction F as [|a l Pa F IH]; cbn [mapM]; [apply gho_ret; constructor|].
    eapply gho_bind; [apply Hf, Pa|]. intros b Qb. eapply gho_bind; [exact IH|]. intros r Qr. apply gho_ret. now constructor.
  Qed.
  Lemma gho_mapM2 {A B} (f : A -> M B) (Q : A -> B -> Prop) l : (forall a, gho (f a) (Q a)) -> gho (mapM f l) (Forall2 Q l).
  Proof.
    intros Hf. induction l as [|a l IH]; cbn [mapM]; [apply gho_ret; constructor|].
    eapply gho_bind; [apply Hf|]. intros b Qb. eapply gho_bind; [exact IH|]. intros r Qr. apply gho_ret. now constructor.
  Qed.
  Lemma tblG_ins k h v t : rel k v -> tblG t -> tblG (ins k h v t).
  Proof.
    intros G. induction t as [|hk l IHl r IHr this]; cbn [ins tblG].
    - intros _. repeat split; auto. intros k' v' [E|[]]. injection E as <- <-. exact G.
    - intros (A & B & C). destruct (hk <? h); [cbn; auto|]. destruct (hk >? h); [cbn; auto|]. cbn. repeat split; auto.
      intros k' v' [E|Hin]; [injection E as <- <-; exact G|eauto].
  Qed.
  Lemma gho_tru m P : quiet m -> tru m P -> gho m (fun b => b = true -> P).
  Proof. intros Q T s a s' E I. destruct (gho_quiet m Q s a s' E I) as [I' _]. split; [exact I'|]. intros ->. exact (T _ _ E). Qed.
  Lemma gho_lookl eq (T : expr -> expr -> Prop) k (l : list (expr * expr)) : (forall a b, quiet (eq a b)) -> (forall a b, tru (eq a b) (T a b)) -> (forall x y, In (x, y) l -> rel x y) ->
    gho (lookl eq k l) (fun r => forall v, r = Some v -> exists k', T k k' /\ rel k' v).
  Proof.
    intros Q HT. induction l as [|[a b] l IH]; intros F; cbn [lookl]; [apply gho_ret; discriminate|].
    eapply gho_bind; [apply gho_tru; [apply Q|apply HT]|]. intros [] HP.
    - apply gho_ret. intros v E. injection E as <-. exists a. split; [now apply HP|]. apply F. now left.
    - apply IH. intros x y Hx. apply F. now right.
  Qed.
  Lemma gho_look eq (T : expr -> expr -> Prop) k h t : (forall a b, quiet (eq a b)) -> (forall a b, tru (eq a b) (T a b)) -> tblG t ->
    gho (look eq k h t) (fun r => forall v, r = Some v -> exists k', T k k' /\ rel k' v).
  Proof.
    intros Q HT. induction t as [|hk l IHl r IHr this]; cbn [look tblG]; intros G; [apply gho_ret; discriminate|]. destruct G as (A & B & C).
    destruct (hk <? h); [auto|]. destruct (hk >? h); [auto|]. apply gho_lookl; auto.
  Qed.
  Lemma gho_lookS k : gho (lookupSimpM Or k) (fun r => forall v, r = Some v -> rel k v).
  Proof.
    unfold lookupSimpM. eapply gho_bind; [apply gho_quiet, quiet_tick|]. intros h _ s a s' E I.
    destruct (gho_look (eqM Or) (fun x y => x = y) k h (simp s) (quiet_eqM Or) tru_eqM (proj1 I) s a s' E I) as [I' H]. split; [exact I'|].
    intros v Hv. destruct (H v Hv) as (k' & <- & R'). exact R'.
  Qed.
  Lemma gho_lookC k : gho (lookupCSEM Or Mg k) (fun r => forall v, r = Some v -> is_st k = false /\ (nl k -> nl v)).
  Proof.
    unfold lookupCSEM. eapply gho_bind; [apply gho_quiet, quiet_hash|]. intros h _ s a s' E I.
    destruct (gho_look (equalCSE Or Mg) sames k h (cse s) (quiet_equalCSE Or Mg) tru_equalCSE (proj2 I) s a s' E I) as [I' H]. split; [exact I'|].
    intros v Hv. destruct (H v Hv) as (k' & (A & B & _) & R'). split; [exact B|]. intros N. apply (rel_nl _ _ R'). unfold nl in *. congruence.
  Qed.
  Lemma gho_insS k v : rel k v -> gho (insertSimpM Or k v) (fun _ => True).
  Proof.
    intros G. unfold insertSimpM. eapply gho_bind; [apply gho_quiet, quiet_tick|]. intros h _ s a s' E [I1 I2]. injection E as <- <-. split; auto. split; cbn; auto. now apply tblG_ins.
  Qed.
  Lemma gho_insC k v : rel k v -> gho (insertCSEM Or Mg k v) (fun _ => True).
  Proof.
    intros G. unfold insertCSEM. eapply gho_bind; [apply gho_quiet, quiet_hash|]. intros h _ s a s' E [I1 I2]. injection E as <- <-. split; auto. split; cbn; auto. now apply tblG_ins.
  Qed.
  Lemma rel_refl x : rel x x. Proof. destruct x; cbn [rel]; eauto. Qed.
  Lemma gho_memo x : gho (memo Or Mg x) (rel x).
  Proof.
    unfold memo. eapply gho_bind; [apply gho_lookC|]. intros [v|] Hv.
    - apply gho_ret. destruct (Hv v eq_refl) as [A B]. destruct x; try discriminate; exact B.
    - eapply gho_bind; [apply gho_insC, rel_refl|]. intros _ _. apply gho_ret, rel_refl.
  Qed.
  Lemma gho_node_rel x : gho (makeNode Or Mg x) (rel x).
  Proof.
    assert (K : gho (x' <- memo Or Mg x ;; _ <- memo Or Mg (Uminus x') ;; ret x') (rel x)).
    { eapply gho_bind; [apply gho_memo|]. intros y Hy. eapply gho_bind; [apply gho_memo|]. intros _ _. now apply gho_ret. }
    destruct x; try exact K. apply gho_memo.
  Qed.

  Section Fixed.
  Variable G0 : Prop.
  Definition gd (e : expr) : Prop := G0 -> nl e.
  Notation gds := (Forall gd).
  Lemma gd_Num a : gd (Num a). Proof. intros _. apply nl_Num. Qed.
  Lemma gd_NaN : gd NaNI. Proof. intros _. reflexivity. Qed.
  Lemma gd_Plus l : gd (Plus l) <-> gds l.
  Proof.
    unfold gd. rewrite nl_Plus. rewrite !Forall_forall. firstorder.
  Qed.
  Lemma gd_Times a b : gd (Times a b) <-> gd a /\ gd b. Proof. unfold gd. rewrite nl_Times. tauto. Qed.
  Lemma gd_CTimes a b : gd (CTimes a b) <-> gd a /\ gd b. Proof. unfold gd. rewrite nl_CTimes. tauto. Qed.
  Lemma gd_CTimesJ a b : gd (CTimesJ a b) <-> gd a /\ gd b. Proof. unfold gd. rewrite nl_CTimesJ. tauto. Qed.
  Lemma gd_Uminus a : gd (Uminus a) <-> gd a. Proof. reflexivity. Qed.
  Lemma gds_cons a l : gds (a :: l) <-> gd a /\ gds l. Proof. split; [intros F; inversion F; auto|intros [A B]; now constructor]. Qed.
  Lemma gds_nil : gds [] <-> True. Proof. split; auto. Qed.
  Lemma gds_app a b : gds (a ++ b) <-> gds a /\ gds b. Proof. apply Forall_app. Qed.
  Hint Rewrite gd_Plus gd_Times gd_CTimes gd_CTimesJ gd_Uminus gds_cons gds_nil gds_app : gd.
  Ltac gd := cbv beta in *; cbn [fst snd] in *; autorewrite with gd in *; auto using gd_Num, gd_NaN; try tauto.
  Lemma gho_node x : gd x -> gho (makeNode Or Mg x) gd.
  Proof. intros G. eapply gho_conseq; [apply gho_node_rel|]. intros y Hy g. exact (rel_nl _ _ Hy (G g)). Qed.
  Record opsG (o : ops) : Prop := {
    g_snum : forall n, gho (snumM o n) gd;
    g_suminus : forall x, gd x -> gho (suminusM o x) gd;
    g_stimes : forall a b, gd a -> gd b -> gho (stimesM o a b) gd;
    g_sctimes : forall a b, gd a -> gd b -> gho (sctimesM o a b) gd;
    g_sctimesj : forall a b, gd a -> gd b -> gho (sctimesjM o a b) gd;
    g_reduce : forall l, gds l -> gho (reduce_sumM o l) gds;
    g_collect : forall w l, gds l -> gho (collectM o w l) gds;
    g_mangle : forall l, gds l -> gho (mangleSumM o l) gds;
    g_splus : forall l, gds l -> gho (splusM o l) gd }.
  Section Step.
    Variable o : ops.
    Hypothesis HG : opsG o.
    (** [gb]: the first command of a sequence, or the last one, by its lemma *)
    Ltac op := first [apply (g_snum _ HG)|apply (g_suminus _ HG)|apply (g_stimes _ HG)|apply (g_sctimes _ HG)|apply (g_sctimesj _ HG)|apply (g_reduce _ HG)|apply (g_collect _ HG)
      |apply (g_mangle _ HG)|apply (g_splus _ HG)|apply gho_node]; gd.
    Ltac gs := repeat first [solve [op] | (eapply gho_bind; [solve [op]|]; intros ? ?) ].
    Lemma g_snum1 n : gho (snumM1 Or Mg o n) gd.
    Proof. unfold snumM1. destruct (is_zero n); [gs|]. destruct (negative_num n); gs. Qed.
    Lemma g_suminus1 x : gd x -> gho (suminusM1 Or Mg o x) gd.
    Proof. intros G. unfold suminusM1. destruct x; gs. destruct (is_zero a); gs. Qed.
    Lemma g_last a b : gd a -> gd b -> gho (times_last Or Mg o a b) gd.
    Proof. intros A B. unfold times_last. destruct (_ && _); gs. Qed.
    Lemma g_stimes1 a b : gd a -> gd b -> gho (stimesM1 Or Mg o a b) gd.
    Proof.
      intros A B. assert (L := g_last a b A B). unfold stimesM1.
      destruct a as [x| |l|a1 a2|a1 a2|a1 a2|a|v|v a]; destruct b as [y| |l'|b1 b2|b1 b2|b1 b2|b|v'|v' b]; try exact L; try (gs; fail);
       try (destruct (is_zero x); [gs|]; destruct (is_one x); [gs|]; destruct (is_mone x); [gs|exact L]; fail).
      destruct b1; try (destruct (is_zero x); [gs|]; destruct (is_one x); [gs|]; destruct (is_mone x); [gs|exact L]; fail). gs.
    Qed.
    Lemma g_sctimes1 a b : gd a -> gd b -> gho (sctimesM1 Or Mg o a b) gd.
    Proof. intros A B. unfold sctimesM1. destruct a, b; gs. Qed.
    Lemma g_sctimesj1 a b : gd a -> gd b -> gho (sctimesjM1 Or Mg o a b) gd.
    Proof. intros A B. unfold sctimesjM1. destruct a, b; gs. Qed.
    Lemma g_tail a s : gds (a :: s) -> gho (s' <- reduce_sumM o s ;; ret (a :: s')) gds.
    Proof. intros G. gs. apply gho_ret. gd. Qed.
    Lemma g_reduce1 l : gds l -> gho (reduce_sumM1 o l) gds.
    Proof.
      intros G. unfold reduce_sumM1. destruct l as [|a s]; [apply gho_ret; gd|].
      destruct a as [x| |l|a1 a2|a1 a2|a1 a2|a|v|v a]; try (apply g_tail; exact G).
      - destruct s as [|b s]; [destruct (is_zero x); apply gho_ret; gd|].
        destruct b as [y| |l|b1 b2|b1 b2|b1 b2|b|v|v b]; try (gs; fail). destruct b; gs.
      - destruct a as [x| |l|a1 a2|a1 a2|a1 a2|a|v|v a]; try (apply g_tail; exact G).
        destruct s as [|b s]; [destruct (is_zero x); apply gho_ret; gd|].
        destruct b as [y| |l|b1 b2|b1 b2|b1 b2|b|v|v b]; try (gs; fail). destruct b; gs.
    Qed.
    Definition gdp (p : expr * expr) : Prop := gd (fst p) /\ gd (snd p).
    Lemma g_findC w x : gd x -> gho (findCoeffM o w x) gdp.
    Proof.
      induction x as [a| |l|a IHa b IHb|a IHa b IHb|a IHa b IHb|a IHa|v|v a IHa]; intros G; cbn [findCoeffM];
       try (eapply gho_bind; [op|]; intros one Ho; apply gho_ret; split; gd; fail).
      - destruct (collectible1 (fst (which w (a, b)))).
        + apply gho_ret. unfold which, gdp. destruct w; gd.
        + eapply gho_bind; [op|]. intros one Ho. apply gho_ret. split; gd.
      - eapply gho_bind; [apply IHa; gd|]. intros [c b] [Hc Hb]. eapply gho_bind; [op|]. intros m Hm. apply gho_ret. split; gd.
    Qed.
    Lemma g_separate xpr l : gds l -> gho (separateM Or o xpr l) (fun p => gds (fst p) /\ gds (snd p)).
    Proof.
      intros G. induction l as [|a l IH]; cbn [separateM]; [apply gho_ret; gd|]. apply gds_cons in G. destruct G as [Ga Gl].
      eapply gho_bind; [apply IH; exact Gl|]. intros [w wo] [Hw Hwo]. eapply gho_bind; [apply g_findC; exact Ga|]. intros [c x] [Hc Hx].
      eapply gho_bind; [apply gho_quiet, quiet_and; [apply quiet_eqM|apply quiet_ret]|]. intros [] _; [apply gho_ret; gd|].
      eapply gho_bind; [apply g_findC; exact Ga|]. intros [c' x'] [Hc' Hx'].
      eapply gho_bind; [apply gho_quiet, quiet_and; [apply quiet_eqM|apply quiet_ret]|]. intros [] _; apply gho_ret; gd.
    Qed.
    Lemma g_collect1 w l : gds l -> gho (collectM1 Or o w l) gds.
    Proof.
      intros G. unfold collectM1. destruct l as [|a [|b l]]; try (apply gho_ret; exact G).
      eapply gho_bind; [apply g_findC; gd|]. intros [c x] [Hc Hx]. cbn zeta. eapply gho_bind; [apply g_separate; exact G|]. intros [w' wo] [Hw Hwo].
      gs. apply gho_ret. gd.
    Qed.
    Lemma g_fmasep l : gds l -> let '(x, y, _) := fma_separate l in gds x /\ gds y.
    Proof.
      induction l as [|a l IH]; intros G; cbn [fma_separate]; [auto|]. apply gds_cons in G. destruct G as [Ga Gl]. specialize (IH Gl).
      destruct (fma_separate l) as [[x y] m]. destruct IH. destruct a as [n| |l'|a1 a2|a1 a2|a1 a2|a|v|v a]; try (gd; fail).
      - destruct a1; gd.
      - destruct a as [n| |l'|a1 a2|a1 a2|a1 a2|a|v|v a]; try (gd; fail). destruct a1; gd.
    Qed.
    Lemma g_fma l : gds l -> gho (generateFusedMultAddM Or Mg o l) gd.
    Proof.
      intros G. unfold generateFusedMultAddM. destruct (_ && _); [|gs]. assert (K := g_fmasep l G). destruct (fma_separate l) as [[x y] m]. destruct K as [Kx Ky].
      destruct (num_equal m 0); [apply gho_fail|]. gs. eapply gho_bind; [eapply gho_mapM; [|exact Kx]|].
      - intros z Hz. cbv beta in *. op.
      - intros ws Hws. gs.
    Qed.
    Lemma g_reorder l : gds l -> gds (reorder_uminus l).
    Proof. induction l as [|a l IH]; intros G; [exact G|]. apply gds_cons in G. destruct G as [Ga Gl]. specialize (IH Gl). destruct a; cbn [reorder_uminus]; gd. Qed.
    Lemma g_canon l : gds l -> gho (canonicalizeM Or Mg o l) gd.
    Proof. intros G. unfold canonicalizeM. destruct l as [|a [|b l]]; [gs|gs|]. apply g_fma, g_reorder, G. Qed.
    Lemma q_memq a l : quiet (memq Or a l).
    Proof. unfold memq. induction l; cbn; [apply quiet_ret|]. apply quiet_or; [apply quiet_eqM|exact IHl]. Qed.
    Lemma q_dup l : quiet (duplicates Or l).
    Proof. induction l; cbn [duplicates]; [apply quiet_ret|]. apply quiet_bind; [apply q_memq|]. intros []; auto. apply quiet_bind; auto. intros. apply quiet_ret. Qed.
    Lemma g_split : forall x depth d, gd x -> gho (splitDuplicates Or o depth d x) gdp.
    Proof.
      fix IH 1. intros x depth d G. assert (Z : gho (zero <- snumM o 0%R ;; ret (x, zero)) gdp) by (gs; apply gho_ret; split; gd).
      assert (Z' : gho (zero <- snumM o 0%R ;; ret (zero, x)) gdp) by (gs; apply gho_ret; split; gd).
      destruct x as [n| |l|a b|a b|a b|a|v|v a]; cbn [splitDuplicates]; (eapply gho_bind; [apply gho_quiet, q_memq|]; intros [] _; [exact Z'|]); try exact Z; clear Z Z'.
      - destruct (depth >? 0) eqn:Dp; [|gs; apply gho_ret; split; gd]. eapply gho_bind with (P := Forall gdp).
        + apply gd_Plus in G. clear Dp. induction l as [|a l IHl]; [apply gho_ret; constructor|]. apply gds_cons in G. destruct G as [Ga Gl].
          eapply gho_bind; [apply IH; exact Ga|]. intros p Hp. eapply gho_bind; [apply IHl; exact Gl|]. intros r Hr. apply gho_ret. now constructor.
        + intros ld F. assert (F1 : gds (map fst ld)) by (clear -F; induction F as [|p l [A B] F IHF]; cbn; constructor; auto).
          assert (F2 : gds (map snd ld)) by (clear -F; induction F as [|p l [A B] F IHF]; cbn; constructor; auto). gs. apply gho_ret. split; gd.
      - apply gd_Times in G. destruct G as [Ga Gb]. eapply gho_bind; [apply IH; exact Ga|]. intros [a' xa] [A1 A2]. eapply gho_bind; [apply IH; exact Gb|]. intros [b' xb] [B1 B2].
        gs. eapply gho_bind; [apply gho_quiet, quiet_ghost|]. intros _ _. gs. apply gho_ret. split; gd.
      - apply gd_Uminus in G. eapply gho_bind; [apply IH; exact G|]. intros [p q] [A1 A2]. gs. apply gho_ret. split; gd.
    Qed.
    Lemma g_flat x : gd x -> gho (flattenPlusM o x) gds.
    Proof.
      induction x as [a| |l|a IHa b IHb|a IHa b IHb|a IHa b IHb|a IHa|v|v a IHa]; intros G; cbn [flattenPlusM]; try (apply gho_ret; gd; fail).
      eapply gho_bind; [apply IHa; exact G|]. intros l Hl. eapply gho_mapM; [|exact Hl]. intros y Hy. op.
    Qed.
    Lemma g_deep k l : gds l -> gho (deepCollectM Or o k l) gds.
    Proof.
      intros G. unfold deepCollectM. eapply gho_bind; [apply gho_quiet, q_dup|]. intros d _. destruct d as [|d0 d]; [apply gho_ret, G|].
      eapply gho_bind; [eapply gho_mapM; [|exact G]; intros x Hx; apply g_split; exact Hx|]. intros ld F.
      assert (F1 : gds (map fst ld)) by (clear -F; induction F as [|p l' [A B] F IHF]; cbn; constructor; auto).
      assert (F2 : gds (map snd ld)) by (clear -F; induction F as [|p l' [A B] F IHF]; cbn; constructor; auto). gs.
      eapply gho_bind; [eapply gho_mapM; [|exact F2]; intros x Hx; apply g_flat; exact Hx|]. intros d'' Hd.
      assert (F3 : gds (concat d'')) by (clear -Hd; induction Hd as [|p l' A F IHF]; cbn; [constructor|apply gds_app; auto]). gs.
    Qed.
    Lemma g_mangle1 l : gds l -> gho (mangleSumM1 Or Mg o l) gds.
    Proof. intros G. unfold mangleSumM1. gs. eapply gho_bind; [apply g_deep; assumption|]. intros y Hy. gs. Qed.
    Lemma g_splus1 l : gds l -> gho (splusM1 Or Mg o l) gd.
    Proof.
      intros G. unfold splusM1. gs. cbn zeta.
      assert (K : gho (m <- mapM (suminusM o) a ;; p <- splusM o m ;; suminusM o p) gd).
      { eapply gho_bind; [eapply gho_mapM; [|eassumption]; intros x Hx; op|]. intros m Hm. gs. }
      assert (C : gho (canonicalizeM Or Mg o a) gd) by now apply g_canon.
      destruct (negb (existsb negative a)); auto. destruct (forallb negative a); auto. destruct (fma_heuristics (enable_fma Mg) a) as [[]|]; auto.
      eapply gho_bind; [apply gho_quiet; destruct (randomized_cse Mg); [apply quiet_ret|apply quiet_tick]|]. intros [] _; auto.
    Qed.
  End Step.
  Lemma opsG_n f : opsG (opsn Or Mg f).
  Proof.
    induction f as [|f IH]; cbn [opsn]; [constructor; intros; apply gho_fail|].
    constructor; intros; cbn [step snumM suminusM stimesM sctimesM sctimesjM reduce_sumM collectM mangleSumM splusM].
    - now apply g_snum1. - now apply g_suminus1. - now apply g_stimes1. - now apply g_sctimes1. - now apply g_sctimesj1.
    - now apply g_reduce1. - now apply g_collect1. - now apply g_mangle1. - now apply g_splus1.
  Qed.
  End Fixed.
  Lemma mapM_gd (G : Prop) f l : (forall x, In x l -> gho (f x) (fun y => nl x -> nl y)) -> (G -> Forall nl l) -> gho (mapM f l) (Forall (gd G)).
  Proof.
    intros H F. induction l as [|a l IHl]; cbn [mapM]; [apply gho_ret; constructor|].
    eapply gho_bind; [apply H; now left|]. intros p Hp. eapply gho_bind; [apply IHl; [intros; apply H; now right|intros g; specialize (F g); inversion F; auto]|]. intros r Hr. apply gho_ret.
    constructor; [intros g; specialize (F g); inversion F; auto|exact Hr].
  Qed.
  Lemma g_alg o : (forall G, opsG G o) -> forall x, gho (algsimpM Or Mg o x) (rel x).
  Proof.
    intros HG. fix IH 1. intros x.
    assert (Fin : forall m, gho m (rel x) -> gho (v <- lookupSimpM Or x ;;
        match v with Some value => ret value | None => value <- m ;; _ <- insertSimpM Or x value ;; ret value end) (rel x)).
    { intros m H. eapply gho_bind; [apply gho_lookS|]. intros [v|] Hv; [apply gho_ret; auto|].
      eapply gho_bind; [exact H|]. intros y Hy. eapply gho_bind; [apply gho_insS; exact Hy|]. intros _ _. now apply gho_ret. }
    destruct x as [n| |l|a b|a b|a b|a|v|v a]; cbn [algsimpM]; apply Fin; clear Fin; cbn [rel].
    - apply (g_snum _ _ (HG (nl (Num n)))).
    - apply (gho_node (nl NaNI)). intros _. reflexivity.
    - eapply gho_bind with (P := Forall (gd (nl (Plus l)))); [|intros l' Hl; exact (g_splus _ _ (HG (nl (Plus l))) l' Hl)].
      assert (F : nl (Plus l) -> Forall nl l) by apply nl_Plus. revert F. generalize (nl (Plus l)). intros G F.
      induction l as [|a l IHl]; [apply gho_ret; constructor|].
      eapply gho_bind; [apply IH|]. intros p Hp. eapply gho_bind; [apply IHl; intros g; specialize (F g); inversion F; auto|]. intros r Hr. apply gho_ret.
      constructor; [|exact Hr]. intros g. specialize (F g). inversion F. eapply rel_nl; eauto.
    - eapply gho_bind; [apply IH|]. intros a' A. eapply gho_bind; [apply IH|]. intros b' B. apply (g_stimes _ _ (HG (nl (Times a b)))); intros g; apply nl_Times in g; eapply rel_nl; (eassumption || apply g).
    - eapply gho_bind; [apply IH|]. intros a' A. eapply gho_bind; [apply IH|]. intros b' B. apply (g_sctimes _ _ (HG (nl (CTimes a b)))); intros g; apply nl_CTimes in g; eapply rel_nl; (eassumption || apply g).
    - eapply gho_bind; [apply IH|]. intros a' A. eapply gho_bind; [apply IH|]. intros b' B. apply (g_sctimesj _ _ (HG (nl (CTimesJ a b)))); intros g; apply nl_CTimesJ in g; eapply rel_nl; (eassumption || apply g).
    - eapply gho_bind; [apply IH|]. intros a' A. apply (g_suminus _ _ (HG (nl (Uminus a)))). intros g. apply nl_Uminus in g. eapply rel_nl; eauto.
    - apply (gho_node (nl (ELoad v))). intros g. exact g.
    - eapply gho_bind; [apply IH|]. intros a' A. eapply gho_conseq; [apply gho_node_rel|]. intros y (e' & -> & B). exists e'. split; [reflexivity|]. intros N. apply B. eapply rel_nl; eauto.
  Qed.
  Lemma algsimp_const f roots roots' s' : algsimp Or Mg f roots = Some (roots', s') -> Forall2 rel roots roots'.
  Proof.
    intros E. refine (proj2 (gho_mapM2 (algsimpM Or Mg (opsn Or Mg f)) rel roots _ _ _ _ E _)).
    - intros a. apply g_alg. intros G. apply opsG_n.
    - split; exact I.
  Qed.
End Const.
