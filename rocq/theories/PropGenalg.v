(** * C48: the algebraic simplifier of genfft preserves the meaning of a codelet *)
From Coq Require Import Reals ZArith List Lia Lra Bool Permutation.
From Verif Require Import NumTheory Cplx GenExpr GenAlg GenAlgProofs GenTrig PropGenfft PropGenreal PropGentwid.
Import ListNotations.
Open Scope Z_scope.

(** what the dag is: a list of stores *)
Definition all_stores (roots : list expr) : Prop := forall r, In r roots -> exists v a, r = EStore v a.
(** ** The simplified dag has the same stores in the same order, each with the same value, for all
    (complex) values of the variables *)
Theorem C48_algsimp Or Mg f roots roots' s' : sound_oracles Or Mg -> all_stores roots ->
  algsimp Or Mg f roots = Some (roots', s') -> bad s' = false ->
  forall env, map (storedV env) roots' = map (storedV env) roots.
Proof.
  intros HO Hr H Hb env. assert (F := algsimp_ok Or Mg HO f roots roots' s' H Hb). clear H.
  induction F as [|a b la lb [E1 E2] F IH]; [reflexivity|]. cbn [map]. rewrite IH by (intros r Hin; apply Hr; now right). f_equal.
  destruct (Hr a (or_introl eq_refl)) as (v & x & ->). destruct (E2 v x eq_refl) as (x' & ->). cbn [storedV]. f_equal. f_equal. symmetry. apply (E1 env).
Qed.
(** hence a codelet that computes a transform (C46, C47) still computes it after the simplifier *)
Theorem C48_computes Or Mg f roots roots' s' x l : sound_oracles Or Mg ->
  algsimp Or Mg f roots = Some (roots', s') -> bad s' = false ->
  computes (Some roots) x l -> computes (Some roots') x l.
Proof.
  intros HO H Hb (d & E & V). injection E as <-. exists roots'. split; auto. rewrite <- V.
  assert (Hr : all_stores roots).
  { intros r Hin. assert (Hin' := in_map (stored x) _ _ Hin). rewrite V in Hin'. apply in_map_iff in Hin'. destruct Hin' as (p & Hp & _).
    destruct r; cbn in Hp; try discriminate. eauto. }
  assert (F := algsimp_ok Or Mg HO f roots roots' s' H Hb). clear H V.
  induction F as [|a b la lb [E1 E2] F IH]; [reflexivity|]. cbn [map]. rewrite IH by (intros r Hin; apply Hr; now right). f_equal.
  destruct (Hr a (or_introl eq_refl)) as (v & y & ->). destruct (E2 v y eq_refl) as (y' & ->). cbn [stored]. f_equal. f_equal. symmetry. apply (E1 (real_env x)).
Qed.

(** ** Examples: all oracles answer as well as they can *)
Definition ex_or : oracles :=
  mkor (fun _ => expr_eqb) (fun _ a b => if var_eq_dec a b then true else false) (fun _ _ => 0) (fun _ _ => 0) (fun _ _ _ => false) (fun _ _ => false).
Definition ex_set : asettings := mkset true false 1.
Lemma ex_or_sound : sound_oracles ex_or ex_set.
Proof.
  split; [|split]; cbn.
  - intros _ a b. apply expr_eqb_eq.
  - intros _ u v. destruct (var_eq_dec u v); congruence.
  - intros _ _ a b H. discriminate H.
Qed.
Lemma z0 : is_zero 0 = true. Proof. unfold is_zero. destruct (Req_EM_T 0 0); congruence. Qed.
Lemma z1 : is_zero 1 = false. Proof. unfold is_zero. destruct (Req_EM_T 1 0); [lra|reflexivity]. Qed.
Lemma n1 : negative_num 1 = false. Proof. unfold negative_num. destruct (Rlt_dec 1 0); [lra|reflexivity]. Qed.
Lemma o1' : is_one 1 = true. Proof. unfold is_one. destruct (Req_EM_T 1 1); congruence. Qed.
Lemma e11 : (if Req_EM_T 1 1 then true else false) = true. Proof. destruct (Req_EM_T 1 1); congruence. Qed.
Lemma e00 : (if Req_EM_T 0 0 then true else false) = true. Proof. destruct (Req_EM_T 0 0); congruence. Qed.
Lemma e01 : (if Req_EM_T 0 1 then true else false) = false. Proof. destruct (Req_EM_T 0 1); [lra|reflexivity]. Qed.
Lemma e10 : (if Req_EM_T 1 0 then true else false) = false. Proof. destruct (Req_EM_T 1 0); [lra|reflexivity]. Qed.
Definition va := Locative 0 0 0. Definition vb := Locative 1 1 1. Definition vo := Locative 2 2 0.
Definition vw := Constant 3 0.
(** the simplifier removes double negations, moves signs outwards and shares the products *)
Example C48_run : match algsimp ex_or ex_set 6
    [EStore vo (Times (ELoad vw) (ELoad va)); EStore vb (Uminus (Uminus (ELoad va))); EStore va (Uminus (Times (ELoad vw) (Uminus (ELoad va))))]
  with Some (r, s) => (r, bad s) | None => ([], true) end =
    ([EStore vo (Times (ELoad vw) (ELoad va)); EStore vb (ELoad va); EStore va (Times (ELoad vw) (ELoad va))], false).
Proof. cbv -[IZR is_zero negative_num is_one is_mone Rplus Rmult Ropp Rminus Rdiv Req_EM_T]. reflexivity. Qed.

(** ** The two conditions on the run are needed *)
(** the test of common subexpressions equates x+x+y and x+y+y *)
Theorem C48_multiplicity_refuted : exists s e, structurallyEqualCSE ex_or (Plus [ELoad va; ELoad va; ELoad vb]) (Plus [ELoad va; ELoad vb; ELoad vb])
    (mkst 0 false Leaf Leaf) = Some (true, s) /\ bad s = true /\
  eval e (Plus [ELoad va; ELoad va; ELoad vb]) <> eval e (Plus [ELoad va; ELoad vb; ELoad vb]).
Proof.
  eexists _, (fun v => match v with Locative l _ _ => RtoC (IZR l) | _ => C0 end). split; [cbv; reflexivity|]. split; [reflexivity|].
  cbn. intros E. apply (f_equal fst) in E. cbn in E. lra.
Qed.
(** splitDuplicates replaces x*y by 3*x*y when both x and y are shared terms, even when all the
    simplifiers it calls are replaced by exact constructors *)
Definition exact_ops : ops :=
  mkops (fun n => ret (Num n)) (fun x => ret (Uminus x)) (fun a b => ret (Times a b)) (fun a b => ret (CTimes a b)) (fun a b => ret (CTimesJ a b))
    (fun l => ret l) (fun _ l => ret l) (fun l => ret l) (fun l => ret (Plus l)).
Theorem C48_split_refuted : exists p q s, splitDuplicates ex_or exact_ops 1 [ELoad va; ELoad vb] (Times (ELoad va) (ELoad vb)) (mkst 0 false Leaf Leaf) = Some ((p, q), s) /\
  bad s = true /\ forall e, (eval e p + eval e q = RtoC 3 * (eval e (ELoad va) * eval e (ELoad vb)))%C.
Proof.
  assert (E : splitDuplicates ex_or exact_ops 1 [ELoad va; ELoad vb] (Times (ELoad va) (ELoad vb)) (mkst 0 false Leaf Leaf) =
    Some ((Times (Num 0) (Num 0), Plus [Times (ELoad va) (ELoad vb); Times (ELoad va) (ELoad vb); Times (ELoad va) (ELoad vb)]), mkst 5 true Leaf Leaf))
   by (cbv -[IZR]; reflexivity).
  do 3 eexists. split; [exact E|]. split; [reflexivity|]. intros e. cbn [eval]. apply C_eq; unfold RtoC, cadd, cmul, C0; cbn [fst snd]; ring.
Qed.
(** the hypotheses of C48_computes are met: the store of W*x and so on of [C48_run] *)
Example C48_instance (x : variable -> R) : computes (Some [EStore vb (Uminus (Uminus (ELoad va)))]) x [(vb, x va)] /\
  computes (Some [EStore vb (ELoad va)]) x [(vb, x va)].
Proof.
  assert (A : computes (Some [EStore vb (Uminus (Uminus (ELoad va)))]) x [(vb, x va)]).
  { eexists. split; [reflexivity|]. cbn. do 3 f_equal. unfold real_env. apply C_eq; unfold RtoC, copp; cbn [fst snd]; ring. }
  split; auto.
  destruct (algsimp ex_or ex_set 6 [EStore vb (Uminus (Uminus (ELoad va)))]) as [[r s]|] eqn:E; [|exfalso; revert E; cbv -[IZR is_zero negative_num is_one is_mone Rplus Rmult Ropp Rminus Rdiv Req_EM_T]; discriminate].
  assert (B : match algsimp ex_or ex_set 6 [EStore vb (Uminus (Uminus (ELoad va)))] with Some (r, s) => (r, bad s) | None => ([], true) end = ([EStore vb (ELoad va)], false))
    by (cbv -[IZR is_zero negative_num is_one is_mone Rplus Rmult Ropp Rminus Rdiv Req_EM_T]; reflexivity).
  rewrite E in B. injection B as -> B. exact (C48_computes _ _ _ _ _ _ x _ ex_or_sound E B A).
Qed.
Print Assumptions C48_algsimp.
Print Assumptions C48_computes.
Print Assumptions C48_multiplicity_refuted.
Print Assumptions C48_split_refuted.
