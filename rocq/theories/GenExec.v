(** * genfft: what a list of assignments computes

    [run]: the assignments one after the other, each variable of genfft being a cell of its own.
    [exec]: the assignments one after the other in a memory, where different variables may be the
    same cell ([addr]: the arrays of a codelet may overlap, the input and the output are often
    the same array). *)
From Coq Require Import Reals ZArith List Bool Lia.
From Verif Require Import Cplx GenExpr GenCplx GenAlg GenTrans GenTransProofs GenAlgVars GenAlist.
Import ListNotations.
Open Scope nat_scope.

(** the effect of the C statement v = x *)
Definition run1 (a : assignment) (env : variable -> C) : variable -> C :=
  fun w => if var_eq_dec w (fst a) then eval env (snd a) else env w.
Definition run (l : list assignment) (env : variable -> C) : variable -> C := fold_left (fun e a => run1 a e) l env.
Section Exec.
  Variable A : Type.
  Variable A_dec : forall p q : A, {p = q} + {p <> q}.
  Variable addr : variable -> A.
  Definition exec1 (a : assignment) (m : A -> C) : A -> C :=
    fun p => if A_dec p (addr (fst a)) then eval (fun w => m (addr w)) (snd a) else m p.
  Definition exec (l : list assignment) (m : A -> C) : A -> C := fold_left (fun e a => exec1 a e) l m.
End Exec.

(** ** find_vars *)
Lemma find_vars_Plus w l : In w (find_vars (Plus l)) <-> exists x, In x l /\ In w (find_vars x).
Proof.
  cbn [find_vars]. induction l as [|a l IH]; [split; [intros []|intros (x & [] & _)]|]. rewrite in_app_iff, IH. split.
  - intros [K|(x & Hx & K)]; [exists a|exists x]; cbn; auto.
  - intros (x & [<-|Hx] & K); eauto.
Qed.
Lemma find_vars_occurs w e : nostore e = true -> In w (find_vars e) <-> occurs w e.
Proof.
  induction e as [a| |l IH|a b IHa IHb|a b IHa IHb|a b IHa IHb|a IH|v|v a _] using expr_indl; intros N; cbn [nostore] in N; try discriminate.
  - reflexivity.
  - reflexivity.
  - rewrite find_vars_Plus, occurs_Plus. rewrite forallb_forall in N. split; intros (x & Hx & K); exists x; (split; [auto|]); apply IH; auto.
  - apply andb_prop in N. destruct N. cbn [find_vars occurs]. rewrite in_app_iff, IHa, IHb; tauto.
  - apply andb_prop in N. destruct N. cbn [find_vars occurs]. rewrite in_app_iff, IHa, IHb; tauto.
  - apply andb_prop in N. destruct N. cbn [find_vars occurs]. rewrite in_app_iff, IHa, IHb; tauto.
  - apply IH. auto.
  - cbn. intuition congruence.
Qed.
Lemma lsumE_ext e1 e2 l : (forall x, In x l -> eval e1 x = eval e2 x) -> lsumE e1 l = lsumE e2 l.
Proof. unfold lsumE. induction l as [|a l IH]; intros K; [reflexivity|]. cbn. rewrite IH by (intros; apply K; now right). now rewrite (K a (or_introl eq_refl)). Qed.
Lemma eval_occ e1 e2 e : (forall w, occurs w e -> e1 w = e2 w) -> eval e1 e = eval e2 e.
Proof.
  induction e as [a| |l IH|a b IHa IHb|a b IHa IHb|a b IHa IHb|a IH|v|v a IH] using expr_indl; intros K; try reflexivity.
  - rewrite !eval_Plus. apply lsumE_ext. intros x Hx. apply IH; auto. intros w O. apply K. apply occurs_Plus. eauto.
  - cbn [eval]. rewrite IHa, IHb; auto; intros; apply K; cbn; auto.
  - cbn [eval]. rewrite IHa, IHb; auto; intros; apply K; cbn; auto.
  - cbn [eval]. rewrite IHa, IHb; auto; intros; apply K; cbn; auto.
  - cbn [eval]. rewrite IH; auto.
  - cbn. apply K. cbn. auto.
  - cbn [eval]. apply IH. intros; apply K; cbn; auto.
Qed.
Lemma eval_vars e1 e2 e : nostore e = true -> (forall w, In w (find_vars e) -> e1 w = e2 w) -> eval e1 e = eval e2 e.
Proof. intros N K. apply eval_occ. intros w O. apply K. now apply find_vars_occurs. Qed.
Lemma run_app l l' env : run (l ++ l') env = run l' (run l env).
Proof. apply fold_left_app. Qed.
