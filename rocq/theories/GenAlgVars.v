(** * The algebraic simplifier introduces no loads *)
From Coq Require Import Reals ZArith List Bool Lia.
From Verif Require Import Cplx GenExpr GenAlg GenAlgProofs.
Import ListNotations.
Open Scope Z_scope.

(** [v] is loaded in [e] *)
Fixpoint occurs (v : variable) (e : expr) : Prop :=
  match e with
  | Num _ | NaNI => False
  | Plus l => (fix go (l : list expr) : Prop := match l with [] => False | x :: r => occurs v x \/ go r end) l
  | Times a b | CTimes a b | CTimesJ a b => occurs v a \/ occurs v b
  | Uminus a => occurs v a
  | ELoad u => u = v
  | EStore _ a => occurs v a
  end.
Lemma occurs_Plus v l : occurs v (Plus l) <-> exists x, In x l /\ occurs v x.
Proof.
  cbn [occurs]. induction l as [|a l IH]; [split; [intros []|intros (x & [] & _)]|]. rewrite IH. split.
  - intros [A|(x & Hx & A)]; [exists a; split; [now left|auto]|exists x; split; [now right|auto]].
  - intros (x & [<-|Hx] & A); [now left|right; eauto].
Qed.

Section Vars.
  Variable W : variable -> Prop.
  Definition gd (e : expr) : Prop := forall v, occurs v e -> W v.
  Notation gds := (Forall gd).
  Lemma gd_Num a : gd (Num a). Proof. intros v []. Qed.
  Lemma gd_NaN : gd NaNI. Proof. intros v []. Qed.
  Lemma gd_Plus l : gd (Plus l) <-> gds l.
  Proof.
    unfold gd. split.
    - intros A. apply Forall_forall. intros x Hx v Hv. apply A. apply occurs_Plus. eauto.
    - intros A v Hv. apply occurs_Plus in Hv. destruct Hv as (x & Hx & Hv). rewrite Forall_forall in A. eapply A; eauto.
  Qed.
  Lemma gd_Times a b : gd (Times a b) <-> gd a /\ gd b. Proof. unfold gd. cbn. firstorder. Qed.
  Lemma gd_CTimes a b : gd (CTimes a b) <-> gd a /\ gd b. Proof. unfold gd. cbn. firstorder. Qed.
  Lemma gd_CTimesJ a b : gd (CTimesJ a b) <-> gd a /\ gd b. Proof. unfold gd. cbn. firstorder. Qed.
  Lemma gd_Uminus a : gd (Uminus a) <-> gd a. Proof. reflexivity. Qed.
  Lemma gd_Store v a : gd (EStore v a) <-> gd a. Proof. reflexivity. Qed.
  Lemma gds_cons a l : gds (a :: l) <-> gd a /\ gds l. Proof. split; [intros F; inversion F; auto|intros [A B]; now constructor]. Qed.
  Lemma gds_nil : gds [] <-> True. Proof. split; auto. Qed.
  Lemma gds_app a b : gds (a ++ b) <-> gds a /\ gds b. Proof. apply Forall_app. Qed.
  Hint Rewrite gd_Plus gd_Times gd_CTimes gd_CTimesJ gd_Uminus gd_Store gds_cons gds_nil gds_app : gd.
  Ltac gd := cbv beta in *; cbn [fst snd] in *; autorewrite with gd in *; auto using gd_Num, gd_NaN; try tauto.

  Fixpoint tblG (t : elem expr) : Prop :=
    match t with Leaf => True | Node _ l r this => tblG l /\ tblG r /\ forall k v, In (k, v) this -> gd v end.
  Definition ginv (s : st) : Prop := tblG (simp s) /\ tblG (cse s).
  Definition gho {A} (m : M A) (Q : A -> Prop) : Prop := forall s a s', m s = Some (a, s') -> ginv s -> ginv s' /\ Q a.
  Lemma gho_ret {A} (a : A) (Q : A -> Prop) : Q a -> gho (ret a) Q.
  Proof. intros q s x s' E I. injection E as <- <-. auto. Qed.
  Lemma gho_fail {A} (Q : A -> Prop) : gho fail Q. Proof. intros s x s' E. discriminate E. Qed.
  Lemma gho_bind {A B} (m : M A) (k : A -> M B) (P : A -> Prop) Q : gho m P -> (forall a, P a -> gho (k a) Q) -> gho (bind m k) Q.
  Proof.
    intros H1 H2 s b s'' E I. unfold bind in E. destruct (m s) as [[a s']|] eqn:E1; [|discriminate]. destruct (H1 _ _ _ E1 I) as [I' p]. exact (H2 a p _ _ _ E I').
  Qed.
  Lemma gho_conseq {A} (m : M A) (P Q : A -> Prop) : gho m P -> (forall a, P a -> Q a) -> gho m Q.
  Proof. intros H1 H2 s a s' E I. destruct (H1 _ _ _ E I). auto. Qed.
  Lemma gho_quiet {A} (m : M A) : quiet m -> gho m (fun _ => True).
  Proof. intros Q s a s' E [I1 I2]. destruct (Q _ _ _ E) as [E1 E2]. split; auto. split; congruence. Qed.
  Lemma gho_mapM {A B} (f : A -> M B) (P : A -> Prop) (Q : B -> Prop) l : (forall a, P a -> gho (f a) Q) -> Forall P l -> gho (mapM f l) (Forall Q).
  Proof.
    intros Hf F. induction F as [|a l Pa F IH]; cbn [mapM]; [apply gho_ret; constructor|].
    eapply gho_bind; [apply Hf, Pa|]. intros b Qb. eapply gho_bind; [exact IH|]. intros r Qr. apply gho_ret. now constructor.
  Qed.
  Lemma tblG_ins k h v t : gd v -> tblG t -> tblG (ins k h v t).
  Proof.
    intros G. induction t as [|hk l IHl r IHr this]; cbn [ins tblG].
    - intros _. repeat split; auto. intros k' v' [E|[]]. injection E as <- <-. exact G.
    - intros (A & B & C). destruct (hk <? h); [cbn; auto|]. destruct (hk >? h); [cbn; auto|]. cbn. repeat split; auto.
      intros k' v' [E|Hin]; [injection E as <- <-; exact G|eauto].
  Qed.
  Lemma quiet_ghost b : quiet (ghost b). Proof. intros s a s' E. injection E as <- <-. auto. Qed.
  Lemma quiet_and a b : quiet a -> quiet b -> quiet (andM a b).
  Proof. intros A B. apply quiet_bind; auto. intros []; auto using @quiet_ret. Qed.
  Lemma quiet_or a b : quiet a -> quiet b -> quiet (orM a b).
  Proof. intros A B. apply quiet_bind; auto. intros []; auto using @quiet_ret. Qed.

  Variable Or : oracles.
  Variable Mg : asettings.
  Lemma quiet_eqM a b : quiet (eqM Or a b). Proof. apply quiet_tick. Qed.
  Lemma quiet_struct a b : quiet (structurallyEqualCSE Or a b).
  Proof.
    destruct a, b; cbn [structurallyEqualCSE]; auto using @quiet_ret, quiet_eqM, quiet_and, quiet_or, @quiet_tick.
    apply quiet_bind; [apply quiet_and; apply quiet_subset|]. intros e. apply quiet_bind; [apply quiet_ghost|]. intros _. apply quiet_ret.
  Qed.
  Lemma quiet_likely a b : quiet (likely_equal Or a b).
  Proof.
    unfold likely_equal. destruct a as [| | | | | |a| |]; try apply quiet_ret; try (destruct a; try apply quiet_ret);
     destruct b as [| | | | | |b| |]; try apply quiet_ret; try apply quiet_tick; destruct b; try apply quiet_ret; apply quiet_tick.
  Qed.
  Lemma quiet_equalCSE a b : quiet (equalCSE Or Mg a b).
  Proof. unfold equalCSE. destruct (randomized_cse Mg); auto using quiet_or, quiet_struct, quiet_likely. Qed.
  Lemma quiet_hash x : quiet (hashCSE Or Mg x).
  Proof. unfold hashCSE. destruct (randomized_cse Mg); apply quiet_tick. Qed.
  Lemma gho_lookl eq k (l : list (expr * expr)) : (forall a b, quiet (eq a b)) -> (forall x y, In (x, y) l -> gd y) -> gho (lookl eq k l) (fun r => forall v, r = Some v -> gd v).
  Proof.
    intros Q. induction l as [|[a b] l IH]; intros F; cbn [lookl]; [apply gho_ret; discriminate|].
    eapply gho_bind; [apply gho_quiet, Q|]. intros [] _.
    - apply gho_ret. intros v E. injection E as <-. apply (F a). now left.
    - apply IH. intros x y Hx. apply (F x). now right.
  Qed.
  Lemma gho_look eq k h t : (forall a b, quiet (eq a b)) -> tblG t -> gho (look eq k h t) (fun r => forall v, r = Some v -> gd v).
  Proof.
    intros Q. induction t as [|hk l IHl r IHr this]; cbn [look tblG]; intros G; [apply gho_ret; discriminate|]. destruct G as (A & B & C).
    destruct (hk <? h); [auto|]. destruct (hk >? h); [auto|]. apply gho_lookl; auto.
  Qed.
  Lemma gho_lookS k : gho (lookupSimpM Or k) (fun r => forall v, r = Some v -> gd v).
  Proof.
    unfold lookupSimpM. eapply gho_bind; [apply gho_quiet, quiet_tick|]. intros h _ s a s' E I. exact (gho_look (eqM Or) k h (simp s) quiet_eqM (proj1 I) s a s' E I).
  Qed.
  Lemma gho_lookC k : gho (lookupCSEM Or Mg k) (fun r => forall v, r = Some v -> gd v).
  Proof.
    unfold lookupCSEM. eapply gho_bind; [apply gho_quiet, quiet_hash|]. intros h _ s a s' E I. exact (gho_look (equalCSE Or Mg) k h (cse s) quiet_equalCSE (proj2 I) s a s' E I).
  Qed.
  Lemma gho_insS k v : gd v -> gho (insertSimpM Or k v) (fun _ => True).
  Proof.
    intros G. unfold insertSimpM. eapply gho_bind; [apply gho_quiet, quiet_tick|]. intros h _ s a s' E [I1 I2]. injection E as <- <-. split; auto. split; cbn; auto. now apply tblG_ins.
  Qed.
  Lemma gho_insC k v : gd v -> gho (insertCSEM Or Mg k v) (fun _ => True).
  Proof.
    intros G. unfold insertCSEM. eapply gho_bind; [apply gho_quiet, quiet_hash|]. intros h _ s a s' E [I1 I2]. injection E as <- <-. split; auto. split; cbn; auto. now apply tblG_ins.
  Qed.
  Lemma gho_memo x : gd x -> gho (memo Or Mg x) gd.
  Proof.
    intros G. unfold memo. eapply gho_bind; [apply gho_lookC|]. intros [v|] Hv; [apply gho_ret; auto|].
    eapply gho_bind; [apply gho_insC; exact G|]. intros _ _. now apply gho_ret.
  Qed.
  Lemma gho_node x : gd x -> gho (makeNode Or Mg x) gd.
  Proof.
    intros G. assert (K : gho (x' <- memo Or Mg x ;; _ <- memo Or Mg (Uminus x') ;; ret x') gd).
    { eapply gho_bind; [apply gho_memo, G|]. intros y Hy. eapply gho_bind; [apply gho_memo; gd|]. intros _ _. now apply gho_ret. }
    destruct x; try exact K. apply gho_memo, G.
  Qed.
  Record opsG (o : ops) : Prop := {
    g_snum : forall n, gho (snumM o n) gd;
    g_suminus : forall x, gd x -> gho (suminusM o x) gd;
    g_stimes : forall a b, gd a -> gd b -> gho (stimesM o a b) gd;
    g_sctimes : forall a b, gd a -> gd b -> gho (sctimesM o a b) gd;
    g_sctimesj : forall a b, gd a -> gd b -> gho (sctimesjM o a b) gd;
    g_reduce : forall l, gds l -> gho (reduce_sumM o l) gds;
    g_collect : forall w l, gds l -> gho (collectM o w l) gds;
    g_mangle : forall l, gds l -> gho (mangleSumM o l) gds;
    g_splus : forall l, gds l -> gho (splusM o l) gd }.
  Section Step.
    Variable o : ops.
    Hypothesis HG : opsG o.
    (** [gb]: the first command of a sequence, or the last one, by its lemma *)
    Ltac op := first [apply (g_snum _ HG)|apply (g_suminus _ HG)|apply (g_stimes _ HG)|apply (g_sctimes _ HG)|apply (g_sctimesj _ HG)|apply (g_reduce _ HG)|apply (g_collect _ HG)
      |apply (g_mangle _ HG)|apply (g_splus _ HG)|apply gho_node]; gd.
    Ltac gs := repeat first [solve [op] | (eapply gho_bind; [solve [op]|]; intros ? ?) ].
    Lemma g_snum1 n : gho (snumM1 Or Mg o n) gd.
    Proof. unfold snumM1. destruct (is_zero n); [gs|]. destruct (negative_num n); gs. Qed.
    Lemma g_suminus1 x : gd x -> gho (suminusM1 Or Mg o x) gd.
    Proof. intros G. unfold suminusM1. destruct x; gs. destruct (is_zero a); gs. Qed.
    Lemma g_last a b : gd a -> gd b -> gho (times_last Or Mg o a b) gd.
    Proof. intros A B. unfold times_last. destruct (_ && _); gs. Qed.
    Lemma g_stimes1 a b : gd a -> gd b -> gho (stimesM1 Or Mg o a b) gd.
    Proof.
      intros A B. assert (L := g_last a b A B). unfold stimesM1.
      destruct a as [x| |l|a1 a2|a1 a2|a1 a2|a|v|v a]; destruct b as [y| |l'|b1 b2|b1 b2|b1 b2|b|v'|v' b]; try exact L; try (gs; fail);
       try (destruct (is_zero x); [gs|]; destruct (is_one x); [gs|]; destruct (is_mone x); [gs|exact L]; fail).
      destruct b1; try (destruct (is_zero x); [gs|]; destruct (is_one x); [gs|]; destruct (is_mone x); [gs|exact L]; fail). gs.
    Qed.
    Lemma g_sctimes1 a b : gd a -> gd b -> gho (sctimesM1 Or Mg o a b) gd.
    Proof. intros A B. unfold sctimesM1. destruct a, b; gs. Qed.
    Lemma g_sctimesj1 a b : gd a -> gd b -> gho (sctimesjM1 Or Mg o a b) gd.
    Proof. intros A B. unfold sctimesjM1. destruct a, b; gs. Qed.
    Lemma g_tail a s : gds (a :: s) -> gho (s' <- reduce_sumM o s ;; ret (a :: s')) gds.
    Proof. intros G. gs. apply gho_ret. gd. Qed.
    Lemma g_reduce1 l : gds l -> gho (reduce_sumM1 o l) gds.
    Proof.
      intros G. unfold reduce_sumM1. destruct l as [|a s]; [apply gho_ret; gd|].
      destruct a as [x| |l|a1 a2|a1 a2|a1 a2|a|v|v a]; try (apply g_tail; exact G).
      - destruct s as [|b s]; [destruct (is_zero x); apply gho_ret; gd|].
        destruct b as [y| |l|b1 b2|b1 b2|b1 b2|b|v|v b]; try (gs; fail). destruct b; gs.
      - destruct a as [x| |l|a1 a2|a1 a2|a1 a2|a|v|v a]; try (apply g_tail; exact G).
        destruct s as [|b s]; [destruct (is_zero x); apply gho_ret; gd|].
        destruct b as [y| |l|b1 b2|b1 b2|b1 b2|b|v|v b]; try (gs; fail). destruct b; gs.
    Qed.
    Definition gdp (p : expr * expr) : Prop := gd (fst p) /\ gd (snd p).
    Lemma g_findC w x : gd x -> gho (findCoeffM o w x) gdp.
    Proof.
      induction x as [a| |l|a IHa b IHb|a IHa b IHb|a IHa b IHb|a IHa|v|v a IHa]; intros G; cbn [findCoeffM];
       try (eapply gho_bind; [op|]; intros one Ho; apply gho_ret; split; gd; fail).
      - destruct (collectible1 (fst (which w (a, b)))).
        + apply gho_ret. unfold which, gdp. destruct w; gd.
        + eapply gho_bind; [op|]. intros one Ho. apply gho_ret. split; gd.
      - eapply gho_bind; [apply IHa; gd|]. intros [c b] [Hc Hb]. eapply gho_bind; [op|]. intros m Hm. apply gho_ret. split; gd.
    Qed.
    Lemma g_separate xpr l : gds l -> gho (separateM Or o xpr l) (fun p => gds (fst p) /\ gds (snd p)).
    Proof.
      intros G. induction l as [|a l IH]; cbn [separateM]; [apply gho_ret; gd|]. apply gds_cons in G. destruct G as [Ga Gl].
      eapply gho_bind; [apply IH; exact Gl|]. intros [w wo] [Hw Hwo]. eapply gho_bind; [apply g_findC; exact Ga|]. intros [c x] [Hc Hx].
      eapply gho_bind; [apply gho_quiet, quiet_and; [apply quiet_eqM|apply quiet_ret]|]. intros [] _; [apply gho_ret; gd|].
      eapply gho_bind; [apply g_findC; exact Ga|]. intros [c' x'] [Hc' Hx'].
      eapply gho_bind; [apply gho_quiet, quiet_and; [apply quiet_eqM|apply quiet_ret]|]. intros [] _; apply gho_ret; gd.
    Qed.
    Lemma g_collect1 w l : gds l -> gho (collectM1 Or o w l) gds.
    Proof.
      intros G. unfold collectM1. destruct l as [|a [|b l]]; try (apply gho_ret; exact G).
      eapply gho_bind; [apply g_findC; gd|]. intros [c x] [Hc Hx]. cbn zeta. eapply gho_bind; [apply g_separate; exact G|]. intros [w' wo] [Hw Hwo].
      gs. apply gho_ret. gd.
    Qed.
    Lemma g_fmasep l : gds l -> let '(x, y, _) := fma_separate l in gds x /\ gds y.
    Proof.
      induction l as [|a l IH]; intros G; cbn [fma_separate]; [auto|]. apply gds_cons in G. destruct G as [Ga Gl]. specialize (IH Gl).
      destruct (fma_separate l) as [[x y] m]. destruct IH. destruct a as [n| |l'|a1 a2|a1 a2|a1 a2|a|v|v a]; try (gd; fail).
      - destruct a1; gd.
      - destruct a as [n| |l'|a1 a2|a1 a2|a1 a2|a|v|v a]; try (gd; fail). destruct a1; gd.
    Qed.
    Lemma g_fma l : gds l -> gho (generateFusedMultAddM Or Mg o l) gd.
    Proof.
      intros G. unfold generateFusedMultAddM. destruct (_ && _); [|gs]. assert (K := g_fmasep l G). destruct (fma_separate l) as [[x y] m]. destruct K as [Kx Ky].
      destruct (num_equal m 0); [apply gho_fail|]. gs. eapply gho_bind; [eapply gho_mapM; [|exact Kx]|].
      - intros z Hz. cbv beta in *. op.
      - intros ws Hws. gs.
    Qed.
    Lemma g_reorder l : gds l -> gds (reorder_uminus l).
    Proof. induction l as [|a l IH]; intros G; [exact G|]. apply gds_cons in G. destruct G as [Ga Gl]. specialize (IH Gl). destruct a; cbn [reorder_uminus]; gd. Qed.
    Lemma g_canon l : gds l -> gho (canonicalizeM Or Mg o l) gd.
    Proof. intros G. unfold canonicalizeM. destruct l as [|a [|b l]]; [gs|gs|]. apply g_fma, g_reorder, G. Qed.
    Lemma q_memq a l : quiet (memq Or a l).
    Proof. unfold memq. induction l; cbn; [apply quiet_ret|]. apply quiet_or; [apply quiet_eqM|exact IHl]. Qed.
    Lemma q_dup l : quiet (duplicates Or l).
    Proof. induction l; cbn [duplicates]; [apply quiet_ret|]. apply quiet_bind; [apply q_memq|]. intros []; auto. apply quiet_bind; auto. intros. apply quiet_ret. Qed.
    Lemma g_split : forall x depth d, gd x -> gho (splitDuplicates Or o depth d x) gdp.
    Proof.
      fix IH 1. intros x depth d G. assert (Z : gho (zero <- snumM o 0%R ;; ret (x, zero)) gdp) by (gs; apply gho_ret; split; gd).
      assert (Z' : gho (zero <- snumM o 0%R ;; ret (zero, x)) gdp) by (gs; apply gho_ret; split; gd).
      destruct x as [n| |l|a b|a b|a b|a|v|v a]; cbn [splitDuplicates]; (eapply gho_bind; [apply gho_quiet, q_memq|]; intros [] _; [exact Z'|]); try exact Z; clear Z Z'.
      - destruct (depth >? 0) eqn:Dp; [|gs; apply gho_ret; split; gd]. eapply gho_bind with (P := Forall gdp).
        + apply gd_Plus in G. clear Dp. induction l as [|a l IHl]; [apply gho_ret; constructor|]. apply gds_cons in G. destruct G as [Ga Gl].
          eapply gho_bind; [apply IH; exact Ga|]. intros p Hp. eapply gho_bind; [apply IHl; exact Gl|]. intros r Hr. apply gho_ret. now constructor.
        + intros ld F. assert (F1 : gds (map fst ld)) by (clear -F; induction F as [|p l [A B] F IHF]; cbn; constructor; auto).
          assert (F2 : gds (map snd ld)) by (clear -F; induction F as [|p l [A B] F IHF]; cbn; constructor; auto). gs. apply gho_ret. split; gd.
      - apply gd_Times in G. destruct G as [Ga Gb]. eapply gho_bind; [apply IH; exact Ga|]. intros [a' xa] [A1 A2]. eapply gho_bind; [apply IH; exact Gb|]. intros [b' xb] [B1 B2].
        gs. eapply gho_bind; [apply gho_quiet, quiet_ghost|]. intros _ _. gs. apply gho_ret. split; gd.
      - apply gd_Uminus in G. eapply gho_bind; [apply IH; exact G|]. intros [p q] [A1 A2]. gs. apply gho_ret. split; gd.
    Qed.
    Lemma g_flat x : gd x -> gho (flattenPlusM o x) gds.
    Proof.
      induction x as [a| |l|a IHa b IHb|a IHa b IHb|a IHa b IHb|a IHa|v|v a IHa]; intros G; cbn [flattenPlusM]; try (apply gho_ret; gd; fail).
      eapply gho_bind; [apply IHa; exact G|]. intros l Hl. eapply gho_mapM; [|exact Hl]. intros y Hy. op.
    Qed.
    Lemma g_deep k l : gds l -> gho (deepCollectM Or o k l) gds.
    Proof.
      intros G. unfold deepCollectM. eapply gho_bind; [apply gho_quiet, q_dup|]. intros d _. destruct d as [|d0 d]; [apply gho_ret, G|].
      eapply gho_bind; [eapply gho_mapM; [|exact G]; intros x Hx; apply g_split; exact Hx|]. intros ld F.
      assert (F1 : gds (map fst ld)) by (clear -F; induction F as [|p l' [A B] F IHF]; cbn; constructor; auto).
      assert (F2 : gds (map snd ld)) by (clear -F; induction F as [|p l' [A B] F IHF]; cbn; constructor; auto). gs.
      eapply gho_bind; [eapply gho_mapM; [|exact F2]; intros x Hx; apply g_flat; exact Hx|]. intros d'' Hd.
      assert (F3 : gds (concat d'')) by (clear -Hd; induction Hd as [|p l' A F IHF]; cbn; [constructor|apply gds_app; auto]). gs.
    Qed.
    Lemma g_mangle1 l : gds l -> gho (mangleSumM1 Or Mg o l) gds.
    Proof. intros G. unfold mangleSumM1. gs. eapply gho_bind; [apply g_deep; assumption|]. intros y Hy. gs. Qed.
    Lemma g_splus1 l : gds l -> gho (splusM1 Or Mg o l) gd.
    Proof.
      intros G. unfold splusM1. gs. cbn zeta.
      assert (K : gho (m <- mapM (suminusM o) a ;; p <- splusM o m ;; suminusM o p) gd).
      { eapply gho_bind; [eapply gho_mapM; [|eassumption]; intros x Hx; op|]. intros m Hm. gs. }
      assert (C : gho (canonicalizeM Or Mg o a) gd) by now apply g_canon.
      destruct (negb (existsb negative a)); auto. destruct (forallb negative a); auto. destruct (fma_heuristics (enable_fma Mg) a) as [[]|]; auto.
      eapply gho_bind; [apply gho_quiet; destruct (randomized_cse Mg); [apply quiet_ret|apply quiet_tick]|]. intros [] _; auto.
    Qed.
  End Step.
  Lemma opsG_n f : opsG (opsn Or Mg f).
  Proof.
    induction f as [|f IH]; cbn [opsn]; [constructor; intros; apply gho_fail|].
    constructor; intros; cbn [step snumM suminusM stimesM sctimesM sctimesjM reduce_sumM collectM mangleSumM splusM].
    - now apply g_snum1. - now apply g_suminus1. - now apply g_stimes1. - now apply g_sctimes1. - now apply g_sctimesj1.
    - now apply g_reduce1. - now apply g_collect1. - now apply g_mangle1. - now apply g_splus1.
  Qed.
  Lemma g_alg o : opsG o -> forall x, gd x -> gho (algsimpM Or Mg o x) gd.
  Proof.
    intros HG. fix IH 1. intros x G.
    assert (Fin : forall m, gho m gd -> gho (v <- lookupSimpM Or x ;;
        match v with Some value => ret value | None => value <- m ;; _ <- insertSimpM Or x value ;; ret value end) gd).
    { intros m H. eapply gho_bind; [apply gho_lookS|]. intros [v|] Hv; [apply gho_ret; auto|].
      eapply gho_bind; [exact H|]. intros y Hy. eapply gho_bind; [apply gho_insS; exact Hy|]. intros _ _. now apply gho_ret. }
    destruct x as [n| |l|a b|a b|a b|a|v|v a]; cbn [algsimpM]; apply Fin; clear Fin.
    - apply (g_snum _ HG).
    - apply gho_node, G.
    - eapply gho_bind with (P := gds); [|intros l' Hl; now apply (g_splus _ HG)].
      apply gd_Plus in G. induction l as [|a l IHl]; [apply gho_ret; constructor|]. apply gds_cons in G. destruct G as [Ga Gl].
      eapply gho_bind; [apply IH; exact Ga|]. intros p Hp. eapply gho_bind; [apply IHl; exact Gl|]. intros r Hr. apply gho_ret. now constructor.
    - apply gd_Times in G. destruct G as [Ga Gb]. eapply gho_bind; [apply IH; exact Ga|]. intros a' A. eapply gho_bind; [apply IH; exact Gb|]. intros b' B. now apply (g_stimes _ HG).
    - apply gd_CTimes in G. destruct G as [Ga Gb]. eapply gho_bind; [apply IH; exact Ga|]. intros a' A. eapply gho_bind; [apply IH; exact Gb|]. intros b' B. now apply (g_sctimes _ HG).
    - apply gd_CTimesJ in G. destruct G as [Ga Gb]. eapply gho_bind; [apply IH; exact Ga|]. intros a' A. eapply gho_bind; [apply IH; exact Gb|]. intros b' B. now apply (g_sctimesj _ HG).
    - eapply gho_bind; [apply IH; exact G|]. intros a' A. now apply (g_suminus _ HG).
    - apply gho_node, G.
    - eapply gho_bind; [apply IH; exact G|]. intros a' A. apply gho_node. exact A.
  Qed.
  Lemma algsimp_gd f roots roots' s' : algsimp Or Mg f roots = Some (roots', s') -> gds roots -> gds roots'.
  Proof.
    intros E G. refine (proj2 (gho_mapM (algsimpM Or Mg (opsn Or Mg f)) gd gd roots _ G _ _ _ E _)).
    - intros a Ha. apply g_alg; [apply opsG_n|exact Ha].
    - split; exact I.
  Qed.
End Vars.
(** every variable loaded in the simplified dag is loaded in the dag *)
Theorem algsimp_occurs Or Mg f roots roots' s' v : algsimp Or Mg f roots = Some (roots', s') ->
  (exists r, In r roots' /\ occurs v r) -> exists r, In r roots /\ occurs v r.
Proof.
  intros E (r & Hr & Hv). assert (G := algsimp_gd (fun v => exists r, In r roots /\ occurs v r) Or Mg f roots roots' s' E).
  assert (G' := G (proj2 (Forall_forall _ _) (fun x Hx u Hu => ex_intro _ x (Logic.conj Hx Hu)))). rewrite Forall_forall in G'. exact (G' r Hr v Hv).
Qed.
