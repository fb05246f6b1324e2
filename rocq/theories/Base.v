(** * Base: outcomes, bounded loops and checked INT arithmetic.

    None of this models a particular FFTW function; it is the small
    vocabulary in which the C functions are transcribed. *)
From Coq Require Import ZArith List Lia Bool.
Import ListNotations.
Open Scope Z_scope.

(** Outcome of running a C function: a value, undefined behaviour (signed
    overflow, out-of-bounds access, division by zero, violated assertion), or a
    loop that did not finish within the bound given to it (every theorem
    excludes the last two explicitly by asserting [Ret]). *)
Inductive out (A : Type) : Type :=
| Ret (a : A)
| UB
| Diverge.
Arguments Ret {A} a.
Arguments UB {A}.
Arguments Diverge {A}.

Definition bind {A B} (m : out A) (f : A -> out B) : out B :=
  match m with Ret a => f a | UB => UB | Diverge => Diverge end.

Notation "x <- e ;; f" := (bind e (fun x => f))
  (at level 61, e at next level, right associativity).

(** [ck M z]: the result [z] of a signed operation in an INT type whose range
    is [-M-1 .. M]; out of range is undefined behaviour in C. *)
Definition ck (M z : Z) : out Z :=
  if (- M - 1 <=? z) && (z <=? M) then Ret z else UB.

Definition assert_ (b : bool) : out unit := if b then Ret tt else UB.

Lemma ck_ok M z : - M - 1 <= z <= M -> ck M z = Ret z.
Proof.
  intros H. unfold ck.
  replace (- M - 1 <=? z) with true by (symmetry; apply Z.leb_le; lia).
  replace (z <=? M) with true by (symmetry; apply Z.leb_le; lia).
  reflexivity.
Qed.

Lemma ck_inv M z v : ck M z = Ret v -> v = z /\ - M - 1 <= z <= M.
Proof.
  unfold ck. destruct ((- M - 1 <=? z) && (z <=? M)) eqn:E; [|discriminate].
  intros H; injection H as <-. apply andb_prop in E as [E1 E2].
  apply Z.leb_le in E1, E2. lia.
Qed.

(** One iteration of a C loop either continues with a new state or leaves the
    loop with a result. *)
Inductive stepres (S R : Type) : Type :=
| Cont (s : S)
| Done (r : R).
Arguments Cont {S R} s.
Arguments Done {S R} r.

(** [loop k body s] runs at most [2^k] iterations. *)
Fixpoint loop {S R} (k : nat) (body : S -> stepres S R) (s : S) : stepres S R :=
  match k with
  | O => body s
  | Datatypes.S k' =>
      match loop k' body s with
      | Cont s' => loop k' body s'
      | Done r => Done r
      end
  end.

(** A loop whose body yields an outcome. *)
Definition oloop {S A} (k : nat) (body : S -> stepres S (out A)) (s : S) : out A :=
  match loop k body s with
  | Done r => r
  | Cont _ => Diverge
  end.

Definition obind {S A B} (m : out A) (f : A -> stepres S (out B)) : stepres S (out B) :=
  match m with Ret a => f a | UB => Done UB | Diverge => Done Diverge end.

Notation "x <~ e ;; f" := (obind e (fun x => f))
  (at level 61, e at next level, right associativity).

Section LoopRule.
  Context {S R : Type} (body : S -> stepres S R).
  Variable I : S -> Prop.
  Variable mu : S -> Z.
  Variable Q : R -> Prop.
  Hypothesis step_ok : forall s, I s ->
    match body s with
    | Cont s' => I s' /\ 0 <= mu s' < mu s
    | Done r => Q r
    end.

  Lemma loop_progress k : forall s, I s -> 0 <= mu s ->
    match loop k body s with
    | Cont s' => I s' /\ 0 <= mu s' /\ mu s' + 2 ^ Z.of_nat k <= mu s
    | Done r => Q r
    end.
  Proof.
    induction k as [|k IH]; intros s HI Hmu.
    - cbn [loop]. specialize (step_ok s HI). destruct (body s); auto.
      change (2 ^ Z.of_nat 0) with 1. destruct step_ok as (? & ?). repeat split; auto; lia.
    - cbn [loop]. pose proof (IH s HI Hmu) as H1.
      destruct (loop k body s) as [s'|r]; auto.
      destruct H1 as (HI' & Hmu' & Hd).
      pose proof (IH s' HI' Hmu') as H2.
      destruct (loop k body s') as [s''|r]; auto.
      destruct H2 as (HI'' & Hmu'' & Hd'').
      rewrite Nat2Z.inj_succ, Z.pow_succ_r by lia. repeat split; auto; lia.
  Qed.

  Lemma loop_rule k s : I s -> 0 <= mu s < 2 ^ Z.of_nat k ->
    exists r, loop k body s = Done r /\ Q r.
  Proof.
    intros HI Hmu. pose proof (loop_progress k s HI (proj1 Hmu)) as H.
    destruct (loop k body s) as [s'|r].
    - destruct H as (_ & H1 & H2). lia.
    - exists r; auto.
  Qed.
End LoopRule.

Lemma oloop_rule {S A} (body : S -> stepres S (out A)) (I : S -> Prop) (mu : S -> Z)
      (Q : A -> Prop) k s :
  (forall s, I s ->
    match body s with
    | Cont s' => I s' /\ 0 <= mu s' < mu s
    | Done r => exists a, r = Ret a /\ Q a
    end) ->
  I s -> 0 <= mu s < 2 ^ Z.of_nat k ->
  exists a, oloop k body s = Ret a /\ Q a.
Proof.
  intros Hs HI Hmu.
  destruct (loop_rule body I mu (fun r => exists a, r = Ret a /\ Q a) Hs k s HI Hmu)
    as (r & Hr & a & -> & HQ).
  exists a. unfold oloop. rewrite Hr. auto.
Qed.

(** Enough iterations for a measure below [n]. *)
Definition bits (n : Z) : nat := S (Z.to_nat (Z.log2_up (Z.max 2 n))).

Lemma bits_ok n m : m <= n -> m < 2 ^ Z.of_nat (bits n).
Proof.
  intros H. unfold bits. rewrite Nat2Z.inj_succ, Z2Nat.id by apply Z.log2_up_nonneg.
  rewrite Z.pow_succ_r by apply Z.log2_up_nonneg.
  pose proof (Z.log2_up_spec (Z.max 2 n) ltac:(lia)). lia.
Qed.
