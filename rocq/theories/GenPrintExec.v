(** * Running the printed blocks *)
From Coq Require Import Reals ZArith List Bool Lia.
From Verif Require Import Cplx GenExpr GenCplx GenAlg GenAlgVars GenTransProofs GenAlist GenExec GenSched GenAnnot GenPrint GenPrintProofs.
Import ListNotations.
Open Scope nat_scope.

(** ** More fuel prints the same *)
Definition le {A B} (u u' : A -> option B) : Prop := forall e t, u e = Some t -> u' e = Some t.
Lemma ocat_some x y t : ocat x y = Some t -> exists a b, x = Some a /\ y = Some b /\ t = a ++ b.
Proof. destruct x, y; cbn; try discriminate. intros [= <-]. eauto 6. Qed.
Section Mono.
  Variables u u' : expr -> option (list token).
  Hypothesis L : le u u'.
  Lemma ocat_mono x x' y y' t : (forall a, x = Some a -> x' = Some a) -> (forall a, y = Some a -> y' = Some a) -> ocat x y = Some t -> ocat x' y' = Some t.
  Proof. intros Hx Hy K. apply ocat_some in K. destruct K as (a & b & Ea & Eb & ->). now rewrite (Hx _ Ea), (Hy _ Eb). Qed.
  Lemma paren_mono : le (parenthesize u) (parenthesize u').
  Proof. intros e t. unfold parenthesize. destruct e; try apply L; (apply ocat_mono; [auto|]; intros t'; apply ocat_mono; [apply L|auto]). Qed.
  Lemma op_mono m a b c t : op u m a b c = Some t -> op u' m a b c = Some t.
  Proof. unfold op. revert t. do 7 (let q := fresh "q" in intros q; apply ocat_mono; [first [apply L|now auto]|]). auto. Qed.
  Lemma piece_mono yes : le (unparse_piece u yes) (unparse_piece u' yes).
  Proof.
    intros [m a b c|a|a] t; unfold unparse_piece; intros K; apply ocat_some in K; destruct K as (x & y & Ex & Ey & ->); rewrite Ex.
    - now rewrite (op_mono _ _ _ _ _ Ey).
    - now rewrite (paren_mono _ _ Ey).
    - now rewrite (paren_mono _ _ Ey).
  Qed.
  Lemma plus_mono n : forall yes, le (unparse_plus u n yes) (unparse_plus u' n yes).
  Proof.
    induction n as [|n IH]; intros yes l t; cbn [unparse_plus].
    - destruct (pick l) as [[]|]; auto.
    - destruct (pick l) as [[p d]|]; auto. intros K. apply ocat_some in K. destruct K as (x & y & Ex & Ey & ->). rewrite (piece_mono _ _ _ Ex), (IH _ _ _ Ey). reflexivity.
  Qed.
End Mono.
Lemma unparse_mono f : le (unparse_expr f) (unparse_expr (S f)).
Proof.
  induction f as [|f IH]; intros e t; [discriminate|]. assert (P := paren_mono _ _ IH). assert (Q := plus_mono _ _ IH).
  remember (S f) as g eqn:Eg. rewrite Eg at 1. cbn [unparse_expr].
  destruct e as [a| |l|a b| | |a|v| ]; auto.
  - destruct l as [|a [|b l]]; auto. apply Q.
  - intros K. apply ocat_some in K. destruct K as (x & y & Ex & Ey & ->). apply ocat_some in Ey. destruct Ey as (y1 & z & Ey & Ez & ->). rewrite (P _ _ Ex), Ey, (P _ _ Ez). reflexivity.
  - assert (G : (tok TMinus +++ parenthesize (unparse_expr f) a) = Some t -> (tok TMinus +++ parenthesize (unparse_expr g) a) = Some t).
    { intros K. apply ocat_some in K. destruct K as (x & y & Ex & Ey & ->). rewrite Ex, (P _ _ Ey). reflexivity. }
    destruct a as [| |l| | | | | |]; try exact G. destruct l as [|a [|b [|? ?]]]; try exact G; destruct b; try exact G. apply Q.
Qed.
Lemma unparse_le f g e t : f <= g -> unparse_expr f e = Some t -> unparse_expr g e = Some t.
Proof. induction 1; auto. intros K. apply unparse_mono; auto. Qed.
Lemma annotated_le f g x : f <= g -> forall t, unparse_annotated f x = Some t -> unparse_annotated g x = Some t.
Proof.
  intros L. revert x. fix IH 1. intros [lv df d dp [|[v e]|a b]] t; cbn [unparse_annotated]; auto.
  - destruct (unparse_expr f e) as [te|] eqn:E; [|discriminate]. rewrite (unparse_le _ _ _ _ L E). auto.
  - destruct (unparse_annotated f a) as [ta|] eqn:Ea; [|discriminate]. destruct (unparse_annotated f b) as [tb|] eqn:Eb; [|discriminate]. rewrite (IH a _ Ea), (IH b _ Eb). auto.
Qed.

Lemma NoDup_app_remove_r {X} (l l' : list X) : NoDup (l ++ l') -> NoDup l.
Proof. induction l as [|x l IH]; cbn; intros N; [constructor|]. inversion N as [|? ? Nx N']; subst. constructor; auto. intros K. apply Nx, in_app_iff. auto. Qed.
Lemma NoDup_app_remove_l {X} (l l' : list X) : NoDup (l ++ l') -> NoDup l'.
Proof. induction l as [|x l IH]; cbn; intros N; auto. inversion N; auto. Qed.

Section Run.
  Variable A : Type.
  Variable A_dec : forall p q : A, {p = q} + {p <> q}.
  Variable addr : variable -> A.
  (** the memory of the flat list: the arrays, and a cell for each temporary *)
  Definition place (v : variable) : A + variable := if is_temporary v then inr v else inl (addr v).
  Definition place_dec : forall p q : A + variable, {p = q} + {p <> q}.
  Proof. decide equality. apply var_eq_dec. Defined.
  Notation ex := (exec (A + variable) place_dec place).
  Definition agree (sc : list variable) (D : variable -> Prop) (s : cstate A) (M : A + variable -> C) : Prop :=
    (forall w, In w sc -> exists z, fst s w = Some z) /\ (forall w, In w sc -> D w -> fst s w = Some (M (inr w))) /\ (forall p, snd s p = M (inl p)).
  Lemma agree_weaken sc (D D' : variable -> Prop) s M : (forall w, In w sc -> D' w -> D w) -> agree sc D s M -> agree sc D' s M.
  Proof. intros K (A1 & A2 & A3). split; [|split]; auto. Qed.
  Lemma instr_runs fuel sc D v e t s M : (forall w, In w sc -> is_temporary w = true) -> agree sc D s M -> unparse_expr fuel e = Some t -> scalar e = true -> esize e < fuel ->
    (is_temporary v = true -> In v sc) -> (forall w, In w (find_vars e) -> is_temporary w = true -> In w sc /\ D w) ->
    (exists s', bruns A A_dec addr (CAssign v t) s s') /\
    forall s', bruns A A_dec addr (CAssign v t) s s' -> agree sc (fun w => w = v \/ D w) s' (exec1 _ place_dec place (v, e) M).
  Proof.
    intros St (A1 & A2 & A3) Et Sc Sz Iv Iu.
    assert (K : knows (look A addr s) (fun w => M (place w)) e).
    { intros w Hw. unfold look, place. destruct (is_temporary w) eqn:T; [|now rewrite A3]. destruct (Iu w Hw T). auto. }
    destruct (unparse_expr_ok _ _ fuel e Sz Sc K) as (t' & Et' & (x & Rx & Vx) & _). rewrite Et in Et'. injection Et' as <-.
    set (z := eval (fun w => M (place w)) e) in *.
    assert (As : exists s1, assign A A_dec addr v z s = Some s1 /\ agree sc (fun w => w = v \/ D w) s1 (exec1 _ place_dec place (v, e) M)).
    { unfold assign. destruct (is_temporary v) eqn:T.
      - destruct (A1 v (Iv eq_refl)) as [z0 E0]. rewrite E0. eexists. split; [reflexivity|]. unfold exec1. cbn [fst snd]. fold z.
        assert (Pv : place v = inr v) by (unfold place; now rewrite T). rewrite Pv. split; [|split]; cbn [fst snd].
        + intros w Hw. destruct (var_eq_dec w v); [eauto|]. auto.
        + intros w Hw [->|Dw].
          * destruct (var_eq_dec v v); [|congruence]. destruct (place_dec (inr v) (inr v)); congruence.
          * destruct (var_eq_dec w v) as [->|N]; [destruct (place_dec (inr v) (inr v)); congruence|]. destruct (place_dec (inr w) (inr v)); [congruence|]. auto.
        + intros p. destruct (place_dec (inl p) (inr v)); [discriminate|]. auto.
      - eexists. split; [reflexivity|]. unfold exec1. cbn [fst snd]. fold z.
        assert (Pv : place v = inl (addr v)) by (unfold place; now rewrite T). rewrite Pv. split; [|split]; cbn [fst snd]; auto.
        + intros w Hw [->|Dw]; [rewrite (St v Hw) in T; discriminate|]. destruct (place_dec (inr w) (inl (addr v))); [discriminate|]. auto.
        + intros p. destruct (A_dec p (addr v)) as [->|N]; destruct (place_dec _ _); try congruence. auto. }
    destruct As as (s1 & Es & Ag). split.
    - exists s1. econstructor; eauto.
    - intros s' B. inversion B as [|? ? x' z' ? ? R' V' E'|]; subst. assert (x' = x) by (eapply reads_unique; eauto). subst x'.
      rewrite Vx in V'. injection V' as <-. rewrite Es in E'. injection E' as <-. exact Ag.
  Qed.
  Lemma scoped_sub x : forall sc sc' i, In (sc', i) (scoped sc x) -> forall w, In w sc' -> In w sc \/ In w (decls x).
  Proof.
    revert x. fix IH 1. intros [lv df d dp [|j|a b]] sc sc' i; cbn [scoped decls]; [intros []|..].
    - intros [[= <- <-]|[]] w Hw. apply in_app_iff in Hw. rewrite in_app_iff. tauto.
    - intros Hi w Hw. apply in_app_iff in Hi. rewrite !in_app_iff. destruct Hi as [Hi|Hi]; apply (IH _ _ _ _ Hi) in Hw; rewrite in_app_iff in Hw; tauto.
  Qed.
  Lemma text_runs fuel x : forall t, unparse_annotated fuel x = Some t -> forall sc (D : variable -> Prop) s M,
    (forall w, In w sc -> is_temporary w = true) -> NoDup (decls x) -> (forall w, In w (decls x) -> ~ In w sc /\ ~ D w) -> agree sc D s M ->
    (forall sc' v e, In (sc', (v, e)) (scoped sc x) -> scalar e = true /\ esize e < fuel /\ forall w, w = v \/ In w (find_vars e) -> is_temporary w = true -> In w sc') ->
    (forall l1 v e l2, map snd (scoped sc x) = l1 ++ (v, e) :: l2 -> forall w, In w (find_vars e) -> is_temporary w = true -> D w \/ In w (map fst l1)) ->
    (exists s', cruns A A_dec addr t s s') /\
    forall s', cruns A A_dec addr t s s' -> agree sc (fun w => D w \/ In w (map fst (map snd (scoped sc x)))) s' (ex (map snd (scoped sc x)) M).
  Proof.
    revert x. fix IH 1. intros [lv df d dp code] t Et sc D s M St ND Dj Ag Ok Use. cbn [unparse_annotated] in Et.
    set (ds := filter is_temporary d) in *. cbn [scoped] in *. fold ds in Ok, Use |- *. cbn [decls] in ND, Dj. fold ds in ND, Dj.
    assert (St' : forall w, In w (ds ++ sc) -> is_temporary w = true). { intros w Hw. apply in_app_iff in Hw. destruct Hw as [Hw|Hw]; auto. unfold ds in Hw. apply filter_In in Hw. tauto. }
    assert (Nds : NoDup ds) by (apply NoDup_app_remove_r in ND; exact ND).
    set (s1 := fun junk : variable -> C => (fun w => if in_dec var_eq_dec w ds then Some (junk w) else fst s w, snd s) : cstate A).
    assert (Ag1 : forall junk, agree (ds ++ sc) D (s1 junk) M).
    { intros junk. destruct Ag as (A1 & A2 & A3). split; [|split]; cbn [s1 fst snd]; auto.
      - intros w Hw. destruct (in_dec var_eq_dec w ds); [eauto|]. apply in_app_iff in Hw. destruct Hw; [contradiction|auto].
      - intros w Hw Dw. destruct (in_dec var_eq_dec w ds) as [i|n]; [exfalso; destruct (Dj w) as [_ N]; [apply in_app_iff; auto|auto]|]. apply in_app_iff in Hw. destruct Hw; [contradiction|auto]. }
    (** it is enough to run the body *)
    match goal with |- context [map snd ?q] => set (L := map snd q) in * end.
    assert (Red : forall body, t = CBlock ds body ->
      ((exists s', bruns A A_dec addr body (s1 (fun _ => C0)) s') /\ forall junk s', bruns A A_dec addr body (s1 junk) s' -> agree (ds ++ sc) (fun w => D w \/ In w (map fst L)) s' (ex L M)) ->
      (exists s', cruns A A_dec addr t s s') /\ forall s', cruns A A_dec addr t s s' -> agree sc (fun w => D w \/ In w (map fst L)) s' (ex L M)).
    { intros body -> [[s' B] F]. split; [eexists; econstructor; eauto|]. intros s2 R. inversion R as [? ? junk ? s3 _ B3]; subst. destruct (F _ _ B3) as (A1 & A2 & A3).
      assert (Nd : forall w, In w sc -> ~ In w ds) by (intros w Hw Hd; destruct (Dj w); [apply in_app_iff; auto|auto]).
      split; [|split]; cbn [fst snd]; auto; intros w Hw.
      - destruct (in_dec var_eq_dec w ds) as [i|n]; [exfalso; eapply Nd; eauto|]. apply A1, in_app_iff. auto.
      - intros Dw. destruct (in_dec var_eq_dec w ds) as [i|n]; [exfalso; eapply Nd; eauto|]. apply A2; auto. apply in_app_iff. auto. }
    destruct code as [|[v e]|a b].
    - injection Et as <-. apply (Red CEmpty eq_refl). subst L. split; [eexists; constructor|]. intros junk s' B. inversion B; subst. cbn [map exec fold_left]. apply (agree_weaken _ D); [|apply Ag1]. intros w _ [K|[]]; exact K.
    - destruct (unparse_expr fuel e) as [te|] eqn:Ee; [|discriminate]. injection Et as <-. apply (Red _ eq_refl). subst L.
      destruct (Ok (ds ++ sc) v e (or_introl eq_refl)) as (Sc & Sz & In').
      assert (Iu : forall w, In w (find_vars e) -> is_temporary w = true -> In w (ds ++ sc) /\ D w). { intros w Hw T. split; auto. destruct (Use [] v e [] eq_refl w Hw T) as [K|[]]; exact K. }
      assert (R := fun junk => instr_runs fuel (ds ++ sc) D v e te (s1 junk) M St' (Ag1 junk) Ee Sc Sz (fun T => In' v (or_introl eq_refl) T) Iu).
      split; [apply R|]. intros junk s' B. apply R in B. cbn [map exec fold_left]. eapply agree_weaken; [|exact B]. cbn. intros w _ [K|[K|[]]]; auto.
    - destruct (unparse_annotated fuel a) as [ta|] eqn:Ea; [|discriminate]. destruct (unparse_annotated fuel b) as [tb|] eqn:Eb; [|discriminate]. injection Et as <-. apply (Red _ eq_refl). clear Red.
      assert (EL : L = map snd (scoped (ds ++ sc) a) ++ map snd (scoped (ds ++ sc) b)) by (subst L; now rewrite map_app).
      assert (Na := ND). apply NoDup_app_remove_l in Na. assert (Nb := Na). apply NoDup_app_remove_l in Nb. assert (Nc := Na). apply NoDup_app_remove_r in Nc.
      assert (Da : forall w, In w (decls a) -> ~ In w (ds ++ sc) /\ ~ D w).
      { intros w Hw. destruct (Dj w) as [N1 N2]; [rewrite !in_app_iff; auto|]. split; auto. rewrite in_app_iff. intros [K|K]; auto. revert ND. clear -K Hw. intros ND. induction ds as [|y l IH]; [destruct K|]. cbn in ND. inversion ND as [|? ? N N']; subst. destruct K as [->|K]; auto. apply N. rewrite !in_app_iff. auto. }
      assert (Db : forall w, In w (decls b) -> ~ In w (ds ++ sc) /\ ~ D w /\ ~ In w (decls a)).
      { intros w Hw. destruct (Dj w) as [N1 N2]; [rewrite !in_app_iff; auto|]. split; [|split]; auto.
        - rewrite in_app_iff. intros [K|K]; auto. revert ND. clear -K Hw. intros ND. induction ds as [|y l IH]; [destruct K|]. cbn in ND. inversion ND as [|? ? N N']; subst. destruct K as [->|K]; auto. apply N. rewrite !in_app_iff. auto.
        - intros K. revert Na. clear -K Hw. intros ND. induction (decls a) as [|y l IH]; [destruct K|]. cbn in ND. inversion ND as [|? ? N N']; subst. destruct K as [->|K]; auto. apply N. rewrite in_app_iff. auto. }
      set (Ma := ex (map snd (scoped (ds ++ sc) a)) M). set (D' := fun w => D w \/ In w (map fst (map snd (scoped (ds ++ sc) a)))).
      assert (Ra := fun junk => IH a ta Ea (ds ++ sc) D (s1 junk) M St' Nc Da (Ag1 junk) (fun sc' v e Hi => Ok sc' v e (proj2 (in_app_iff _ _ _) (or_introl Hi)))).
      assert (Ua : forall l1 v e l2, map snd (scoped (ds ++ sc) a) = l1 ++ (v, e) :: l2 -> forall w, In w (find_vars e) -> is_temporary w = true -> D w \/ In w (map fst l1)).
      { intros l1 v e l2 El. apply (Use l1 v e (l2 ++ map snd (scoped (ds ++ sc) b))). rewrite EL, El, <- app_assoc. reflexivity. }
      assert (Db' : forall w, In w (decls b) -> ~ In w (ds ++ sc) /\ ~ D' w).
      { intros w Hw. destruct (Db w Hw) as (N1 & N2 & N3). split; auto. intros [K|K]; auto. apply in_map_iff in K. destruct K as ((v & e) & <- & K). apply in_map_iff in K. destruct K as ((sc', i) & Ei & K). cbn [snd fst] in *. subst i.
        assert (T : is_temporary v = true). { clear -Hw. revert Hw. revert b. fix IH 1. intros [lv df d dp [|j|a b]]; cbn [decls]; rewrite in_app_iff, filter_In; intros [K|K]; try tauto. apply in_app_iff in K. destruct K as [K|K]; eapply IH; exact K. }
        assert (Iv : In v sc') by (apply (Ok sc' v e); [apply in_app_iff; now left|now left|exact T]).
        destruct (scoped_sub a _ _ _ K v Iv); auto. }
      assert (Rb := fun s' Ag' => IH b tb Eb (ds ++ sc) D' s' Ma St' Nb Db' Ag' (fun sc' v e Hi => Ok sc' v e (proj2 (in_app_iff _ _ _) (or_intror Hi)))).
      assert (Ub : forall l1 v e l2, map snd (scoped (ds ++ sc) b) = l1 ++ (v, e) :: l2 -> forall w, In w (find_vars e) -> is_temporary w = true -> D' w \/ In w (map fst l1)).
      { intros l1 v e l2 El w Hw T. destruct (Use (map snd (scoped (ds ++ sc) a) ++ l1) v e l2) with (w := w) as [K|K]; auto.
        - rewrite EL, El, <- app_assoc. reflexivity.
        - left. now left.
        - rewrite map_app, in_app_iff in K. unfold D'. tauto. }
      split.
      + destruct (Ra (fun _ => C0) Ua) as [(s2 & R2) F2]. destruct (Rb s2 (F2 _ R2) Ub) as [(s3 & R3) _]. exists s3. econstructor; eauto.
      + intros junk s' B. inversion B as [| |? ? ? s2 ? R2 R3]; subst. destruct (Ra junk Ua) as [_ F2]. destruct (Rb s2 (F2 _ R2) Ub) as [_ F3]. apply F3 in R3.
        rewrite EL. unfold exec in *. rewrite fold_left_app. eapply agree_weaken; [|exact R3]. intros w _. unfold D'. rewrite map_app, in_app_iff. tauto.
  Qed.
End Run.
