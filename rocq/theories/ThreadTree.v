(** * Lemmas on trees and paths (proof library) *)
From Coq Require Import ZArith List Lia Bool PeanoNat.
From Verif Require Import Base SpecThreads ThreadModel.
Import ListNotations.
Open Scope nat_scope.

Section Tree.
Context {A M : Type}.
Variable act : A -> M -> M.
Notation tree := (tree A).
Notation prog := (prog A).

Fixpoint set_nth {B} (l : list B) (j : nat) (x : B) : list B :=
  match l, j with [], _ => [] | _ :: t, O => x :: t | y :: t, S j => y :: set_nth t j x end.
Lemma set_nth_length {B} (l : list B) j x : length (set_nth l j x) = length l.
Proof. revert j. induction l; intros [|j]; cbn; auto. Qed.
Lemma set_nth_same {B} (l : list B) j x : j < length l -> nth_error (set_nth l j x) j = Some x.
Proof. revert j. induction l; intros [|j]; cbn; intros; try lia; auto. apply IHl. lia. Qed.
Lemma set_nth_other {B} (l : list B) j i x : i <> j -> nth_error (set_nth l j x) i = nth_error l i.
Proof. revert j i. induction l; intros [|j] [|i] H; cbn; auto; try congruence. Qed.
Lemma set_nth_split {B} (l : list B) j x y : nth_error l j = Some y ->
  exists l1 l2, l = l1 ++ y :: l2 /\ set_nth l j x = l1 ++ x :: l2 /\ length l1 = j.
Proof.
  revert j. induction l as [|z l IH]; intros [|j] H; cbn in *; try discriminate.
  - injection H as ->. exists [], l. auto.
  - destruct (IH _ H) as (l1 & l2 & -> & -> & E). exists (z :: l1), l2. cbn. auto.
Qed.

Fixpoint get (T : tree) (p : path) : option tree :=
  match p with
  | [] => Some T
  | j :: p' => match T with
    | TPar ts _ => match nth_error ts j with Some t => get t p' | None => None end
    | TSeq _ => None
    end
  end.
Fixpoint put (T : tree) (p : path) (X : tree) : tree :=
  match p with
  | [] => X
  | j :: p' => match T with
    | TPar ts k => match nth_error ts j with Some t => TPar (set_nth ts j (put t p' X)) k | None => T end
    | TSeq _ => T
    end
  end.

Lemma get_app T p r : get T (p ++ r) = match get T p with Some t => get t r | None => None end.
Proof.
  revert T. induction p as [|j p IH]; intros T; [reflexivity|]. cbn. destruct T as [q|ts k]; [reflexivity|].
  destruct (nth_error ts j); auto.
Qed.
Lemma get_put_same T p X Y : get T p = Some Y -> get (put T p X) p = Some X.
Proof.
  revert T. induction p as [|j p IH]; intros T H; [reflexivity|]. cbn in *. destruct T as [q|ts k]; [discriminate|].
  destruct (nth_error ts j) as [t|] eqn:E; [|discriminate]. rewrite set_nth_same; [eauto|]. apply nth_error_Some. congruence.
Qed.
(** [p] is a prefix of [r] *)
Definition pre (p r : path) : Prop := exists x, r = p ++ x.
Lemma pre_cons j p r : pre (j :: p) r -> exists r', r = j :: r' /\ pre p r'.
Proof. intros (x & ->). exists (p ++ x). split; auto. now exists x. Qed.
Lemma get_put_other T p X r : ~ pre p r -> ~ pre r p -> get (put T p X) r = get T r.
Proof.
  revert T r. induction p as [|j p IH]; intros T r H1 H2.
  - exfalso. apply H1. now exists r.
  - destruct r as [|i r]; [exfalso; apply H2; now exists (j :: p)|]. cbn.
    destruct T as [q|ts k]; [reflexivity|]. destruct (nth_error ts j) as [t|] eqn:E; [|cbn; now rewrite ?E].
    destruct (Nat.eq_dec i j) as [->|Hn].
    + rewrite set_nth_same by (apply nth_error_Some; congruence). rewrite E. apply IH.
      * intros (x & ->). apply H1. now exists x.
      * intros (x & ->). apply H2. now exists x.
    + now rewrite set_nth_other.
Qed.
Lemma get_put_above T p X r ts k : pre r p -> r <> p -> get T r = Some (TPar ts k) ->
  exists ts', get (put T p X) r = Some (TPar ts' k) /\ length ts' = length ts.
Proof.
  intros (x & ->). revert T. induction r as [|i r IH]; intros T H1 H2; cbn in *.
  - injection H2 as ->. destruct x as [|j x]; [congruence|]. cbn. destruct (nth_error ts j) eqn:E; eauto.
    exists (set_nth ts j (put t x X)). split; auto. apply set_nth_length.
  - destruct T as [q|tt kk]; [discriminate|]. destruct (nth_error tt i) as [t|] eqn:E; [|discriminate].
    rewrite set_nth_same by (apply nth_error_Some; congruence). apply IH; auto. congruence.
Qed.

(** steps deep in the tree *)
Lemma tstep_at T p t t' m m' : get T p = Some t -> tstep act t m t' m' -> tstep act T m (put T p t') m'.
Proof.
  revert T. induction p as [|j p IH]; intros T H S; cbn in *.
  - injection H as ->. auto.
  - destruct T as [q|ts k]; [discriminate|]. destruct (nth_error ts j) as [x|] eqn:E; [|discriminate].
    destruct (set_nth_split ts j (put x p t') x E) as (l1 & l2 & -> & -> & _). constructor. auto.
Qed.
Lemma put_put T p X Y Z : get T p = Some Z -> put (put T p X) p Y = put T p Y.
Proof.
  revert T. induction p as [|j p IH]; intros T H; [reflexivity|]. cbn in *. destruct T as [q|ts k]; [discriminate|].
  destruct (nth_error ts j) as [t|] eqn:E; [|discriminate]. cbn. rewrite set_nth_same by (apply nth_error_Some; congruence).
  rewrite IH by auto. f_equal. clear. revert j. induction ts; intros [|j]; cbn; auto. now rewrite IHts.
Qed.

(** induction on trees *)
Section Ind.
Variable P : tree -> Prop.
Hypothesis H1 : forall p, P (TSeq p).
Hypothesis H2 : forall ts k, Forall P ts -> P (TPar ts k).
Fixpoint tree_nind (T : tree) : P T :=
  match T with
  | TSeq p => H1 p
  | TPar ts k => H2 ts k ((fix go l : Forall P l := match l with [] => Forall_nil _ | t :: l' => Forall_cons _ (tree_nind t) (go l') end) ts)
  end.
End Ind.

(** ** Weights *)
Variable fcost : path -> nat.
Fixpoint cost (p : prog) : nat :=
  match p with
  | PEnd => 0
  | PAct _ k => S (cost k)
  | PSpawn bs k => 40 * length bs + 10 + list_sum (map cost bs) + cost k
  end.
Fixpoint wsum (f : nat -> tree -> nat) (j : nat) (ts : list tree) : nat :=
  match ts with [] => 0 | t :: l => f j t + wsum f (S j) l end.
End Tree.
Arguments pre : clear implicits.

Section Weight.
Context {A : Type}.
Fixpoint weight (F : path -> nat) (p : path) (T : tree A) : nat :=
  match T with
  | TSeq q => cost q
  | TPar ts k => cost k + F p + (fix go j l := match l with [] => 0 | t :: l' => weight F (p ++ [j]) t + go (S j) l' end) 0 ts
  end.
Lemma weight_par F p ts k : weight F p (TPar ts k) = cost k + F p + wsum (fun j t => weight F (p ++ [j]) t) 0 ts.
Proof.
  cbn. f_equal.
  assert (E : forall n, (fix go j l := match l with [] => 0 | t :: l' => weight F (p ++ [j]) t + go (S j) l' end) n ts = wsum (fun j t => weight F (p ++ [j]) t) n ts).
  { induction ts as [|t ts IH]; intros n; cbn; auto. }
  apply E.
Qed.
Lemma wsum_ext (f g : nat -> tree A -> nat) j ts : (forall i t, nth_error ts i = Some t -> f (j + i) t = g (j + i) t) -> wsum f j ts = wsum g j ts.
Proof.
  revert j. induction ts as [|t ts IH]; intros j H; [reflexivity|]. cbn. rewrite (IH (S j)).
  - pose proof (H 0 t eq_refl) as E. rewrite Nat.add_0_r in E. now rewrite E.
  - intros i x Hx. specialize (H (S i) x Hx). now replace (S j + i) with (j + S i) by lia.
Qed.
Lemma weight_ext F G T : forall p, (forall r, F (p ++ r) = G (p ++ r)) -> weight F p T = weight G p T.
Proof.
  induction T as [q|ts k IH] using tree_nind; intros p H; [reflexivity|]. rewrite !weight_par. f_equal; [f_equal|].
  - specialize (H []). now rewrite app_nil_r in H.
  - apply wsum_ext. intros i t Ht. apply nth_error_In in Ht. rewrite Forall_forall in IH. apply IH; auto.
    intros r. rewrite <- !app_assoc. apply H.
Qed.
Lemma wsum_app (f : nat -> tree A -> nat) j a b : wsum f j (a ++ b) = wsum f j a + wsum f (j + length a) b.
Proof.
  revert j. induction a as [|t a IH]; intros j; cbn; [now rewrite Nat.add_0_r|]. rewrite IH. replace (j + S (length a)) with (S j + length a) by lia. lia.
Qed.
Lemma weight_put F G X p : forall T b Y, get T p = Some Y ->
  (forall r, ~ pre p r -> F (b ++ r) = G (b ++ r)) ->
  weight G b (put T p X) + weight F (b ++ p) Y = weight F b T + weight G (b ++ p) X.
Proof.
  induction p as [|j p IH]; intros T b Y H E.
  - cbn in H. injection H as ->. rewrite !app_nil_r. cbn [put]. lia.
  - cbn in H. destruct T as [q|ts k]; [discriminate|]. destruct (nth_error ts j) as [t|] eqn:Et; [|discriminate].
    cbn [put]. rewrite Et. destruct (set_nth_split ts j (put t p X) t Et) as (l1 & l2 & E1 & E2 & E3). rewrite E2. subst ts.
    rewrite !weight_par, !wsum_app. cbn [wsum]. rewrite Nat.add_0_l, E3.
    assert (R : forall c, c ++ j :: p = (c ++ [j]) ++ p) by (intros; now rewrite <- app_assoc).
    specialize (IH t (b ++ [j]) Y H). rewrite !R. rewrite <- R in IH. rewrite R in IH.
    assert (IH' := IH ltac:(intros r Hr; rewrite <- !app_assoc; apply E; intros (x & Ex); apply Hr; cbn in Ex; exists x; congruence)). clear IH.
    assert (Eb : F b = G b).
    { rewrite <- (app_nil_r b). apply E. intros (x & Ex). discriminate. }
    assert (E4 : wsum (fun i t0 => weight F (b ++ [i]) t0) 0 l1 = wsum (fun i t0 => weight G (b ++ [i]) t0) 0 l1).
    { apply wsum_ext. intros i x Hx. apply weight_ext. intros r. rewrite <- !app_assoc. apply E.
      intros (y & Ey). cbn in Ey. injection Ey as Ey _. assert (i < length l1) by (apply nth_error_Some; congruence). lia. }
    assert (E5 : wsum (fun i t0 => weight F (b ++ [i]) t0) (S j) l2 = wsum (fun i t0 => weight G (b ++ [i]) t0) (S j) l2).
    { apply wsum_ext. intros i x Hx. apply weight_ext. intros r. rewrite <- !app_assoc. apply E.
      intros (y & Ey). cbn in Ey. injection Ey as Ey _. lia. }
    lia.
Qed.
End Weight.
