(** * The C text of an expression is read as the expression *)
From Coq Require Import Reals ZArith List Bool Lia.
From Verif Require Import Cplx GenExpr GenCplx GenAlg GenAlgVars GenTransProofs GenAlist GenExec GenSched GenAnnot GenPrint.
Import ListNotations.
Open Scope nat_scope.

(** ** A parser, to prove that a text has one reading *)
Fixpoint parse (fuel : nat) (l : level) (ts : list token) : option (cexp * list token) :=
  match fuel with
  | O => None
  | S f =>
      match l with
      | Prim =>
          match ts with
          | TVar v :: r => Some (CVar v, r)
          | TNum a :: r => Some (CNum a, r)
          | TLpar :: r => match parse f Add r with Some (x, TRpar :: r') => Some (x, r') | _ => None end
          | TMac m :: TLpar :: r =>
              match parse f Add r with
              | Some (x, TComma :: r1) =>
                  match parse f Add r1 with
                  | Some (y, TComma :: r2) => match parse f Add r2 with Some (z, TRpar :: r3) => Some (CMac m x y z, r3) | _ => None end
                  | _ => None
                  end
              | _ => None
              end
          | _ => None
          end
      | Unary =>
          match ts with
          | TMinus :: r => match parse f Unary r with Some (x, r') => Some (CNeg x, r') | None => None end
          | _ => parse f Prim ts
          end
      | Mul => match parse f Unary ts with Some (x, r) => loop f Mul x r | None => None end
      | Add => match parse f Mul ts with Some (x, r) => loop f Add x r | None => None end
      end
  end
with loop (fuel : nat) (l : level) (x : cexp) (ts : list token) : option (cexp * list token) :=
  match fuel with
  | O => None
  | S f =>
      match l, ts with
      | Mul, TStar :: r => match parse f Unary r with Some (y, r') => loop f Mul (CMul x y) r' | None => None end
      | Add, TPlus :: r => match parse f Mul r with Some (y, r') => loop f Add (CAdd x y) r' | None => None end
      | Add, TMinus :: r => match parse f Mul r with Some (y, r') => loop f Add (CSub x y) r' | None => None end
      | _, _ => Some (x, ts)
      end
  end.
Definition evs {A} (g : nat -> option A) (r : A) : Prop := exists f0, forall f, f0 <= f -> g f = Some r.
Lemma evs_fun {A} (g : nat -> option A) r r' : evs g r -> evs g r' -> r = r'.
Proof. intros [f0 H0] [f1 H1]. assert (E := H0 (Nat.max f0 f1) ltac:(lia)). rewrite H1 in E by lia. congruence. Qed.
Lemma evs_S {A} (g : nat -> option A) r : evs (fun f => g f) r -> evs (fun f => match f with O => None | S f' => g f' end) r.
Proof. intros [f0 H0]. exists (S f0). intros [|f] Lf; [lia|]. apply H0. lia. Qed.
Lemma evs_bind {A B} (g : nat -> option A) (h : nat -> A -> option B) a r :
  evs g a -> evs (fun f => h f a) r -> evs (fun f => match g f with Some x => h f x | None => None end) r.
Proof. intros [f0 H0] [f1 H1]. exists (Nat.max f0 f1). intros f Lf. rewrite H0 by lia. apply H1. lia. Qed.
Lemma evs_ext {A} (g h : nat -> option A) r : (forall f, g f = h f) -> evs g r -> evs h r.
Proof. intros E [f0 H0]. exists f0. intros f Lf. rewrite <- E. auto. Qed.
Lemma evs_ret {A} (r : A) : evs (fun _ => Some r) r.
Proof. exists 0. auto. Qed.

Definition no_star (ts : list token) : Prop := match ts with TStar :: _ => False | _ => True end.
Definition good (l : level) (ts : list token) (x : cexp) : Prop :=
  match l with
  | Prim | Unary => forall rest, evs (fun f => parse f l (ts ++ rest)) (x, rest)
  | Mul => forall rest res, evs (fun f => loop f Mul x rest) res -> evs (fun f => parse f Mul (ts ++ rest)) res
  | Add => forall rest res, no_star rest -> evs (fun f => loop f Add x rest) res -> evs (fun f => parse f Add (ts ++ rest)) res
  end.
Lemma prim_head t x : reads Prim t x -> exists k r, t = k :: r /\ k <> TMinus.
Proof. intros H. inversion H; subst; eexists; eexists; (split; [reflexivity|discriminate]). Qed.
Lemma loop_stop l x r : l = Mul \/ l = Add -> (match r with TStar :: _ => False | TPlus :: _ => l <> Add | TMinus :: _ => l <> Add | _ => True end) -> evs (fun f => loop f l x r) (x, r).
Proof. intros L K. exists 1. intros [|f] Lf; [lia|]. destruct L as [->| ->], r as [|[]]; cbn in *; try reflexivity; try (exfalso; now apply K); contradiction. Qed.
Definition closed (r : list token) : Prop := match r with TStar :: _ | TPlus :: _ | TMinus :: _ => False | _ => True end.
Lemma loop_end x r : closed r -> evs (fun f => loop f Add x r) (x, r).
Proof. intros K. apply loop_stop; [now right|]. destruct r as [|[]]; cbn in *; tauto. Qed.
Lemma good_all l t x : reads l t x -> good l t x.
Proof.
  induction 1 as [v|a|t x H IH|m t u w x y z Ht IHt Hu IHu Hw IHw|t x H IH|t x H IH|t x H IH|t u x y Ht IHt Hu IHu|t x H IH|t u x y Ht IHt Hu IHu|t u x y Ht IHt Hu IHu]; cbn [good] in *; intros rest.
  - exists 1. intros [|f] Lf; [lia|reflexivity].
  - exists 1. intros [|f] Lf; [lia|reflexivity].
  - cbn [app]. rewrite <- app_assoc. cbn [app].
    assert (K := IH (TRpar :: rest) (x, TRpar :: rest) I (loop_end x (TRpar :: rest) I)).
    destruct K as [f0 K]. exists (S f0). intros [|f] Lf; [lia|]. cbn [parse]. rewrite K by lia. reflexivity.
  - cbn [app]. rewrite <- !app_assoc. cbn [app]. rewrite <- !app_assoc. cbn [app]. rewrite <- !app_assoc. cbn [app].
    destruct (IHt (TComma :: u ++ TComma :: w ++ TRpar :: rest) _ I (loop_end x (TComma :: u ++ TComma :: w ++ TRpar :: rest) I)) as [f0 K0].
    destruct (IHu (TComma :: w ++ TRpar :: rest) _ I (loop_end y (TComma :: w ++ TRpar :: rest) I)) as [f1 K1].
    destruct (IHw (TRpar :: rest) _ I (loop_end z (TRpar :: rest) I)) as [f2 K2].
    exists (S (f0 + f1 + f2)). intros [|f] Lf; [lia|]. cbn [parse]. rewrite K0 by lia. rewrite K1 by lia. rewrite K2 by lia. reflexivity.
  - destruct (prim_head _ _ H) as (k & r & -> & N). destruct (IH rest) as [f0 K]. exists (S f0). intros [|f] Lf; [lia|]. cbn [parse app].
    assert (E := K f ltac:(lia)). cbn [app] in E. destruct k; try exact E. congruence.
  - destruct (IH rest) as [f0 K]. exists (S f0). intros [|f] Lf; [lia|]. cbn [parse app]. rewrite K by lia. reflexivity.
  - intros res [f1 K1]. destruct (IH rest) as [f0 K0]. exists (S (f0 + f1)). intros [|f] Lf; [lia|]. cbn [parse]. rewrite K0 by lia. apply K1. lia.
  - intros res [f1 K1]. destruct (IHu rest) as [f0 K0]. rewrite <- app_assoc. cbn [app]. apply IHt.
    exists (S (f0 + f1)). intros [|f] Lf; [lia|]. cbn [loop]. rewrite K0 by lia. apply K1. lia.
  - intros res Ns [f1 K1]. destruct (IH rest (x, rest)) as [f0 K0].
    { apply loop_stop; [now left|]. destruct rest as [|[]]; cbn in *; auto; discriminate. }
    exists (S (f0 + f1)). intros [|f] Lf; [lia|]. cbn [parse]. rewrite K0 by lia. apply K1. lia.
  - intros res Ns [f1 K1]. rewrite <- app_assoc. cbn [app]. apply IHt; [exact I|].
    destruct (IHu rest (y, rest)) as [f0 K0].
    { apply loop_stop; [now left|]. destruct rest as [|[]]; cbn in *; auto; discriminate. }
    exists (S (f0 + f1)). intros [|f] Lf; [lia|]. cbn [loop]. rewrite K0 by lia. apply K1. lia.
  - intros res Ns [f1 K1]. rewrite <- app_assoc. cbn [app]. apply IHt; [exact I|].
    destruct (IHu rest (y, rest)) as [f0 K0].
    { apply loop_stop; [now left|]. destruct rest as [|[]]; cbn in *; auto; discriminate. }
    exists (S (f0 + f1)). intros [|f] Lf; [lia|]. cbn [loop]. rewrite K0 by lia. apply K1. lia.
Qed.
(** a text has at most one reading as an expression *)
Theorem reads_unique t x y : reads Add t x -> reads Add t y -> x = y.
Proof.
  intros Hx Hy. assert (Kx := good_all _ _ _ Hx [] (x, []) I (loop_end x [] I)).
  assert (Ky := good_all _ _ _ Hy [] (y, []) I (loop_end y [] I)).
  assert (E := evs_fun _ _ _ Kx Ky). congruence.
Qed.

(** ** The printer *)
(** the expressions of scalar codelets: no NaN, no complex product *)
Fixpoint scalar (e : expr) : bool :=
  match e with
  | Num _ | ELoad _ => true
  | Plus l => forallb scalar l
  | Times a b => scalar a && scalar b
  | Uminus a => scalar a
  | _ => false
  end.
Fixpoint esize (e : expr) : nat :=
  match e with
  | Plus l => S (fold_right (fun x s => esize x + s) 0 l)
  | Times a b | CTimes a b | CTimesJ a b => S (esize a + esize b)
  | Uminus a | EStore _ a => S (esize a)
  | _ => 1
  end.
Definition lsize (l : list expr) : nat := fold_right (fun x s => esize x + s) 0 l.
Lemma esize_pos e : 0 < esize e.
Proof. destruct e; cbn; lia. Qed.

Section Read.
  Variables (env : variable -> option C) (env0 : variable -> C).
  (** the text [t] is read as an expression of value [v] *)
  Definition rd (l : level) (t : list token) (v : C) : Prop := exists x, reads l t x /\ cval env x = Some v.
  Definition knows (e : expr) : Prop := forall w, In w (find_vars e) -> env w = Some (env0 w).
  Definition knowsl (l : list expr) : Prop := forall e, In e l -> knows e.
  Lemma knows_Plus l : knows (Plus l) <-> knowsl l.
  Proof.
    unfold knowsl, knows. split.
    - intros K e He w Hw. apply K. apply find_vars_Plus. eauto.
    - intros K w Hw. apply find_vars_Plus in Hw. destruct Hw as (x & Hx & Hw). eapply K; eauto.
  Qed.
  Lemma knows_Times a b : knows (Times a b) <-> knows a /\ knows b.
  Proof. unfold knows. cbn [find_vars]. split; [intros K; split; intros; apply K, in_app_iff; auto|]. intros [Ka Kb] w Hw. apply in_app_iff in Hw. destruct Hw; auto. Qed.
  Lemma rd_down t v : rd Prim t v -> rd Unary t v.
  Proof. intros (x & R & E). exists x. split; auto. now constructor. Qed.
  Lemma rd_mul t v : rd Unary t v -> rd Mul t v.
  Proof. intros (x & R & E). exists x. split; auto. now constructor. Qed.
  Lemma rd_add t v : rd Mul t v -> rd Add t v.
  Proof. intros (x & R & E). exists x. split; auto. now constructor. Qed.
  Lemma rd_times t u a b : rd Mul t a -> rd Unary u b -> rd Mul (t ++ TStar :: u) (a * b)%C.
  Proof. intros (x & R & E) (y & R' & E'). exists (CMul x y). split; [now constructor|]. cbn. now rewrite E, E'. Qed.
  Lemma rd_plus t u a b : rd Add t a -> rd Mul u b -> rd Add (t ++ TPlus :: u) (a + b)%C.
  Proof. intros (x & R & E) (y & R' & E'). exists (CAdd x y). split; [now constructor|]. cbn. now rewrite E, E'. Qed.
  Lemma rd_sub t u a b : rd Add t a -> rd Mul u b -> rd Add (t ++ TMinus :: u) (a - b)%C.
  Proof. intros (x & R & E) (y & R' & E'). exists (CSub x y). split; [now constructor|]. cbn. now rewrite E, E'. Qed.
  Lemma rd_neg t a : rd Unary t a -> rd Unary (TMinus :: t) (- a)%C.
  Proof. intros (x & R & E). exists (CNeg x). split; [now constructor|]. cbn. now rewrite E. Qed.
  Lemma rd_paren t a : rd Add t a -> rd Prim (TLpar :: t ++ [TRpar]) a.
  Proof. intros (x & R & E). exists x. split; [now constructor|auto]. Qed.
  Lemma rd_macro m t u w a b c : rd Add t a -> rd Add u b -> rd Add w c -> rd Prim (TMac m :: TLpar :: t ++ TComma :: u ++ TComma :: w ++ [TRpar]) (macro_value m a b c).
  Proof. intros (x & R & E) (y & R' & E') (z & R'' & E''). exists (CMac m x y z). split; [now constructor|]. cbn. now rewrite E, E', E''. Qed.

  Definition pval (p : piece) : C :=
    match p with
    | POp m a b c => macro_value m (eval env0 a) (eval env0 b) (eval env0 c)
    | PMinus a => (- eval env0 a)%C
    | PExpr a => eval env0 a
    end.
  Definition parts (p : piece) : list expr := match p with POp _ a b c => [a; b; c] | PMinus a | PExpr a => [a] end.
  Lemma pick_none l : pick l = None -> l = [].
  Proof.
    destruct l as [|x l]; [reflexivity|]. unfold pick. destruct x as [| | | | | |[]| |]; destruct l as [|[| | | | | |[]| |] ?]; discriminate.
  Qed.
  (** each part of the list is in the piece or in the rest *)
  Lemma pick_ok l p d : pick l = Some (p, d) ->
    lsumE env0 l = (pval p + lsumE env0 d)%C /\ length d < length l /\
    lsize (parts p) + lsize d <= lsize l /\ (knowsl l -> knowsl (parts p) /\ knowsl d) /\
    (forallb scalar l = true -> forallb scalar (parts p) = true /\ forallb scalar d = true).
  Proof.
    assert (Ku : forall a, knows (Uminus a) <-> knows a) by (intros; reflexivity).
    destruct l as [|x l]; [discriminate|]. intros E.
    assert (Cases : 
      (exists a b c r, ((x = Uminus (Times a b) /\ l = Uminus c :: r) \/ (x = Uminus c /\ l = Uminus (Times a b) :: r)) /\ p = POp M_FNMA a b c /\ d = r) \/
      (exists a b c r, ((x = Uminus (Times a b) /\ l = c :: r) \/ (x = c /\ l = Uminus (Times a b) :: r)) /\ p = POp M_FNMS a b c /\ d = r) \/
      (exists a b c r, ((x = Times a b /\ l = Uminus c :: r) \/ (x = Uminus c /\ l = Times a b :: r)) /\ p = POp M_FMS a b c /\ d = r) \/
      (exists a b c r, ((x = Times a b /\ l = c :: r) \/ (x = c /\ l = Times a b :: r)) /\ p = POp M_FMA a b c /\ d = r) \/
      (exists a, x = Uminus a /\ p = PMinus a /\ d = l) \/ (p = PExpr x /\ d = l)).
    { revert E. unfold pick. destruct x as [| | | | | |[]| |]; destruct l as [|[| | | | | |[]| |] ?]; intros [= <- <-]; eauto 15;
      try (left; do 4 eexists; split; [first [left; split; reflexivity|right; split; reflexivity]|split; reflexivity]);
      try (right; left; do 4 eexists; split; [first [left; split; reflexivity|right; split; reflexivity]|split; reflexivity]);
      try (right; right; left; do 4 eexists; split; [first [left; split; reflexivity|right; split; reflexivity]|split; reflexivity]);
      try (right; right; right; left; do 4 eexists; split; [first [left; split; reflexivity|right; split; reflexivity]|split; reflexivity]). }
    clear E. destruct Cases as [(a & b & c & r & [[-> ->]|[-> ->]] & -> & ->)|[(a & b & c & r & [[-> ->]|[-> ->]] & -> & ->)|[(a & b & c & r & [[-> ->]|[-> ->]] & -> & ->)|[(a & b & c & r & [[-> ->]|[-> ->]] & -> & ->)|[(a & -> & -> & ->)|(-> & ->)]]]]];
      (split; [unfold lsumE; cbn [fold_right pval eval macro_value]; try ring; unfold csub; try ring|]);
      (split; [cbn [length]; lia|]);
      (split; [unfold lsize; cbn [fold_right parts esize]; lia|]);
      (split; [|cbn [forallb parts scalar]; rewrite ?andb_true_iff; tauto]);
      intros K; unfold knowsl in *; cbn [parts]; cbn [In] in *;
      (split; [|intros e He; apply K; tauto]); intros e He.
    all: repeat match goal with H : _ \/ _ |- _ => destruct H as [H|H]; [subst e|] end; try contradiction; try (apply K; tauto).
    all: try (apply Ku; apply K; tauto).
    all: try (match goal with |- knows ?q => match type of K with context [Times q ?b] => apply (knows_Times q b) | context [Times ?b q] => apply (knows_Times b q) end end; first [apply K; tauto|apply Ku; apply K; tauto]).
    all: match goal with |- knows ?q => change (knows (Uminus q)); apply K; tauto end.
  Qed.

  Section Printer.
    Variable u : expr -> option (list token).
    (** what is known of the sub-expressions of the ones printed *)
    Variable bound : nat.
    Hypothesis U : forall e, esize e < bound -> scalar e = true -> knows e -> exists t, u e = Some t /\ rd Add t (eval env0 e) /\ (match e with ELoad _ | Num _ => rd Prim t (eval env0 e) | _ => True end).
    Lemma paren_ok e : esize e < bound -> scalar e = true -> knows e -> exists t, parenthesize u e = Some t /\ rd Prim t (eval env0 e).
    Proof.
      intros B Sc K. destruct (U e B Sc K) as (t & E & R & P).
      assert (G : exists t0, (tok TLpar +++ u e +++ tok TRpar) = Some t0 /\ rd Prim t0 (eval env0 e)).
      { rewrite E. eexists. split; [reflexivity|]. apply (rd_paren t); auto. }
      unfold parenthesize. destruct e; auto; eauto.
    Qed.
    Lemma op_ok m a b c : esize a < bound -> esize b < bound -> esize c < bound -> scalar a = true -> scalar b = true -> scalar c = true -> knows a -> knows b -> knows c ->
      exists t, op u m a b c = Some t /\ rd Prim t (macro_value m (eval env0 a) (eval env0 b) (eval env0 c)).
    Proof.
      intros B1 B2 B3 S1 S2 S3 K1 K2 K3. destruct (U a B1 S1 K1) as (t1 & E1 & R1 & _), (U b B2 S2 K2) as (t2 & E2 & R2 & _), (U c B3 S3 K3) as (t3 & E3 & R3 & _).
      unfold op. rewrite E1, E2, E3. eexists. split; [reflexivity|]. apply (rd_macro m t1 t2 t3); auto.
    Qed.
    Lemma piece_ok p : lsize (parts p) < bound -> forallb scalar (parts p) = true -> knowsl (parts p) ->
      (exists t, unparse_piece u false p = Some t /\ rd Add t (pval p)) /\
      (exists t, unparse_piece u true p = Some t /\ forall s v, rd Add s v -> rd Add (s ++ t) (v + pval p)%C).
    Proof.
      intros B Sc K. destruct p as [m a b c|a|a]; unfold lsize in B; cbn [parts fold_right forallb] in *; unfold knowsl in K; cbn [In] in K; rewrite ?andb_true_iff in Sc.
      - destruct (op_ok m a b c) as (t & E & R); try lia; try tauto; try (apply K; tauto). unfold unparse_piece, maybe. rewrite E. split; eexists; (split; [reflexivity|]).
        + apply rd_add, rd_mul, rd_down, R.
        + intros s v Hs. apply (rd_plus s t); auto. apply rd_mul, rd_down, R.
      - destruct (paren_ok a) as (t & E & R); try lia; try tauto; try (apply K; tauto). unfold unparse_piece. rewrite E. split; eexists; (split; [reflexivity|]).
        + apply rd_add, rd_mul. apply (rd_neg t), rd_down, R.
        + intros s v Hs. replace (v + pval (PMinus a))%C with (v - eval env0 a)%C by (cbn [pval]; ring). apply (rd_sub s t); auto. apply rd_mul, rd_down, R.
      - destruct (paren_ok a) as (t & E & R); try lia; try tauto; try (apply K; tauto). unfold unparse_piece, maybe. rewrite E. split; eexists; (split; [reflexivity|]).
        + apply rd_add, rd_mul, rd_down, R.
        + intros s v Hs. apply (rd_plus s t); auto. apply rd_mul, rd_down, R.
    Qed.
    Lemma plus_true n : forall l, length l <= n -> lsize l < bound -> forallb scalar l = true -> knowsl l ->
      exists t, unparse_plus u n true l = Some t /\ forall s v, rd Add s v -> rd Add (s ++ t) (v + lsumE env0 l)%C.
    Proof.
      induction n as [|n IH]; intros l Ln B Sc K.
      - destruct l; [|cbn in Ln; lia]. exists []. split; [reflexivity|]. intros s v R. rewrite app_nil_r. replace (v + lsumE env0 [])%C with v by (cbn; ring). exact R.
      - cbn [unparse_plus]. destruct (pick l) as [[p d]|] eqn:E.
        + destruct (pick_ok _ _ _ E) as (Es & Ld & Lz & Kp & Sp). destruct (Kp K) as [K1 K2], (Sp Sc) as [S1 S2].
          destruct (piece_ok p) as [_ (t & Et & Rt)]; try lia; auto. destruct (IH d) as (t' & Et' & Rt'); try lia; auto.
          rewrite Et, Et'. eexists. split; [reflexivity|]. intros s v R. rewrite app_assoc, Es. replace (v + (pval p + lsumE env0 d))%C with ((v + pval p) + lsumE env0 d)%C by ring. auto.
        + apply pick_none in E. subst l. exists []. split; [reflexivity|]. intros s v R. rewrite app_nil_r. replace (v + lsumE env0 [])%C with v by (cbn; ring). exact R.
    Qed.
    Lemma plus_ok l : l <> [] -> lsize l < bound -> forallb scalar l = true -> knowsl l ->
      exists t, unparse_plus u (length l) false l = Some t /\ rd Add t (lsumE env0 l).
    Proof.
      intros N B Sc K. destruct (pick l) as [[p d]|] eqn:E; [|apply pick_none in E; congruence].
      destruct (pick_ok _ _ _ E) as (Es & Ld & Lz & Kp & Sp). destruct (Kp K) as [K1 K2], (Sp Sc) as [S1 S2].
      destruct (length l) as [|n] eqn:En; [lia|]. cbn [unparse_plus]. rewrite E.
      destruct (piece_ok p) as [(t & Et & Rt) _]; try lia; auto. destruct (plus_true n d) as (t' & Et' & Rt'); try lia; auto.
      rewrite Et, Et'. eexists. split; [reflexivity|]. rewrite Es. auto.
    Qed.
  End Printer.

  Lemma unparse_expr_ok fuel : forall e, esize e < fuel -> scalar e = true -> knows e ->
    exists t, unparse_expr fuel e = Some t /\ rd Add t (eval env0 e) /\ (match e with ELoad _ | Num _ => rd Prim t (eval env0 e) | _ => True end).
  Proof.
    induction fuel as [|f IH]; [lia|]. intros e B Sc K.
    assert (up : forall t v, rd Prim t v -> rd Add t v) by (intros; now apply rd_add, rd_mul, rd_down).
    destruct e as [a| |l|a b| | |a|v| ]; try discriminate Sc; cbn [unparse_expr].
    - eexists. split; [reflexivity|]. assert (R : rd Prim [TNum a] (eval env0 (Num a))) by (exists (CNum a); split; [constructor|reflexivity]). auto.
    - cbn [esize] in B. apply knows_Plus in K. cbn [scalar] in Sc. destruct l as [|a [|b l]].
      + eexists. split; [reflexivity|]. split; auto. apply up. exists (CNum 0). split; [constructor|reflexivity].
      + cbn [fold_right] in B. destruct (IH a) as (t & E & R & _); try lia; [cbn in Sc; now rewrite andb_true_r in Sc|apply K; cbn; auto|].
        exists t. split; auto. split; auto. rewrite eval_Plus. unfold lsumE. cbn [fold_right]. replace (eval env0 a + C0)%C with (eval env0 a) by ring. exact R.
      + destruct (plus_ok (unparse_expr f) f IH (a :: b :: l)) as (t & E & R); [discriminate|unfold lsize; lia|exact Sc|exact K|].
        exists t. split; [exact E|]. split; [|exact I]. rewrite eval_Plus. exact R.
    - cbn [esize] in B. cbn [scalar] in Sc. apply andb_prop in Sc. destruct Sc. apply knows_Times in K. destruct K.
      destruct (paren_ok (unparse_expr f) f IH a) as (t1 & E1 & R1); auto; try lia. destruct (paren_ok (unparse_expr f) f IH b) as (t2 & E2 & R2); auto; try lia.
      rewrite E1, E2. eexists. split; [reflexivity|]. split; auto. apply rd_add. cbn [eval]. apply (rd_times t1 t2); [now apply rd_mul, rd_down|now apply rd_down].
    - cbn [esize] in B. cbn [scalar] in Sc.
      assert (Gen : exists t, (tok TMinus +++ parenthesize (unparse_expr f) a) = Some t /\ rd Add t (eval env0 (Uminus a)) /\ True).
      { destruct (paren_ok (unparse_expr f) f IH a) as (t1 & E1 & R1); auto; try lia. rewrite E1. eexists. split; [reflexivity|]. split; auto. apply rd_add, rd_mul. cbn [eval]. apply (rd_neg t1). now apply rd_down. }
      destruct a as [| |l| | | | | |]; try exact Gen. destruct l as [|a l]; [exact Gen|]. destruct l as [|b l]; [exact Gen|]. destruct l as [|? ?]; [|destruct b; exact Gen].
      destruct b as [| | | | | |b| |]; try exact Gen.
      { assert (K2 : knowsl [a; Uminus b]) by (apply knows_Plus; exact K).
        destruct (plus_ok (unparse_expr f) f IH [b; Uminus a]) as (t & E & R).
        { discriminate. }
        { unfold lsize. cbn [fold_right esize] in *. lia. }
        { cbn [forallb scalar] in Sc |- *. rewrite !andb_true_iff in *. tauto. }
        { intros e [<-|[<-|[]]]; [apply (K2 (Uminus b))|apply (K2 a)]; cbn; auto. }
        exists t. split; [exact E|]. split; auto. replace (eval env0 (Uminus (Plus [a; Uminus b]))) with (lsumE env0 [b; Uminus a]); [exact R|]. cbn [eval]. unfold lsumE. cbn [fold_right eval]. ring. }
    - eexists. split; [reflexivity|]. assert (R : rd Prim [TVar v] (eval env0 (ELoad v))) by (exists (CVar v); split; [constructor|]; cbn; apply K; cbn; auto). auto.
  Qed.
End Read.
