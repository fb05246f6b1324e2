(** * C50: the assignment list made from the dag of a codelet computes what the dag computes *)
From Coq Require Import Reals ZArith List Bool Lia Lra.
From Verif Require Import Cplx GenExpr GenCplx GenAlg GenAlgVars GenTrans GenTransProofs GenAlist GenExec GenAlistProofs.
Import ListNotations.
Open Scope nat_scope.

(** ** Specification *)
(** [v] is loaded, or stored, by the dag *)
Definition dag_loads (H : heap) (roots : list nat) (v : variable) : Prop :=
  exists r u y, In r roots /\ H r = NStore u y /\ occurs v (tree H y).
Definition dag_stores (H : heap) (roots : list nat) (v : variable) : Prop :=
  exists r y, In r roots /\ H r = NStore v y.
(** a temporary made after [tmp] temporaries *)
Definition new_temporary (tmp : Z) (v : variable) : Prop := exists k, v = Temporary k /\ (tmp < k)%Z.
(** The dag of a codelet: nodes refer to older nodes, the roots are stores of expressions without
    stores, different roots store different variables, no variable is both loaded and stored
    (an array element that is read and written is two variables with the same location), and its
    temporaries, if it has any, are old *)
Record codelet_ok (tmp : Z) (H : heap) (roots : list nat) : Prop := {
  co_acyclic : acyclic H;
  co_stores : forall r, In r roots -> exists v y, H r = NStore v y /\ nostore (tree H y) = true;
  co_diff : forall r r' v y y', In r roots -> In r' roots -> H r = NStore v y -> H r' = NStore v y' -> r = r';
  co_disj : forall v, dag_loads H roots v -> ~ dag_stores H roots v;
  co_old : forall v, dag_loads H roots v \/ dag_stores H roots v -> ~ new_temporary tmp v
}.
(** each variable is assigned once; what is assigned is a new temporary or a variable the dag stores; what is used
    is a variable the dag loads or a temporary assigned before *)
Definition single_assignment (tmp : Z) (H : heap) (roots : list nat) (l : list assignment) : Prop :=
  NoDup (map fst l) /\
  forall l1 v x l2, l = l1 ++ (v, x) :: l2 ->
    (new_temporary tmp v \/ dag_stores H roots v) /\ nostore x = true /\
    forall w, In w (find_vars x) -> dag_loads H roots w \/ (new_temporary tmp w /\ In w (map fst l1)).

Section Proof.
  Variable Mg : amagic.
  Variable tmp : Z.
  Variable H : heap.
  Variable roots : list nat.
  Hypothesis OK : codelet_ok tmp H roots.
  Variable noloc : bool.
  Hypothesis noloc_loads : noloc = true -> inline_loads Mg = false.
  Hypothesis noloc_bytw : noloc = true -> generate_bytw Mg = true -> forall n a b v, H n = NCTimes a b \/ H n = NCTimesJ a b -> H a = NLoad v -> is_locative v = false.
  Lemma alist_main fuel : (forall r, In r roots -> r < fuel) -> exists l,
    to_assignments Mg H fuel tmp roots = Some (rev l) /\
    okl tmp (dag_loads H roots) (dag_stores H roots) noloc l /\
    forall r v y, In r roots -> H r = NStore v y -> In v (map fst l) /\ forall env, run (rev l) env v = eval env (tree H y).
  Proof.
    intros L. destruct OK as [AC St Df Dj Ol]. unfold to_assignments.
    destruct (visits_ok Mg H (visitM Mg H fuel) roots (fun _ => None)) as (counts & -> & Cc & _ & Sc).
    { intros n t Hn Ct. apply visitM_ok; auto. }
    { intros n K. exfalso. apply K. reflexivity. }
    destruct (roots_run Mg H AC tmp (dag_loads H roots) (dag_stores H roots)) with (noloc := noloc) (counts := counts) (roots := roots) (f := fuel) (l := roots) (s := mkst [] (fun _ => None) tmp)
      as (es & s' & -> & [I' _] & _ & V); auto.
    - intros k K. destruct (Z.le_gt_cases k tmp); auto. exfalso. apply (Ol (Temporary k)); auto. exists k. split; auto; lia.
    - intros k K. destruct (Z.le_gt_cases k tmp); auto. exfalso. apply (Ol (Temporary k)); auto. exists k. split; auto; lia.
    - intros r Hr. destruct (St r Hr) as (v & y & Er & Ny). exists v, y. split; auto. split; [|exists r, y; auto]. split; auto. intros w Hw. exists r, v, y. auto.
    - split; [constructor; cbn|]; try discriminate.
      + constructor.
      + lia.
      + intros k [].
      + intros v [].
      + intros r v y K. exfalso. apply K. reflexivity.
    - exists (al s'). split; auto. split; [apply I'|]. intros r v y Hr Er. specialize (V r Hr). destruct (vis' s' r) as [e|] eqn:Ee; [|congruence].
      apply (i_vis _ _ _ _ _ _ I') in Ee. unfold entry in Ee. rewrite Er in Ee. exact Ee.
  Qed.
  Lemma okl_nodup l : okl tmp (dag_loads H roots) (dag_stores H roots) noloc l -> NoDup (map fst l).
  Proof. induction 1; cbn; constructor; auto. Qed.
  Lemma okl_at l : okl tmp (dag_loads H roots) (dag_stores H roots) noloc l -> forall l2 v x l1, l = l2 ++ (v, x) :: l1 ->
    (newtmp tmp v \/ dag_stores H roots v) /\ nostore x = true /\
    ((forall w, In w (find_vars x) -> avail tmp (dag_loads H roots) noloc l1 w) \/ (newtmp tmp v /\ exists w, x = ELoad w /\ dag_loads H roots w)).
  Proof.
    induction 1 as [|u z l O IH N V Nx A]; intros l2 v x l1 E; [destruct l2; discriminate|].
    destruct l2 as [|a l2]; cbn in E; injection E; intros; subst; auto. eapply IH; eauto.
  Qed.
  Lemma okl_ssa l : okl tmp (dag_loads H roots) (dag_stores H roots) noloc l -> single_assignment tmp H roots (rev l).
  Proof.
    intros O. split; [rewrite map_rev; apply NoDup_rev; now apply okl_nodup|]. intros l1 v x l2 E.
    assert (E' : l = rev l2 ++ (v, x) :: rev l1). { apply (f_equal (@rev assignment)) in E. rewrite rev_involutive in E. rewrite E, rev_app_distr. cbn [rev]. now rewrite <- app_assoc. }
    destruct (okl_at l O _ _ _ _ E') as (A & B & D). split; [exact A|]. split; auto. intros w Hw. destruct D as [D|(_ & w' & -> & Lw)].
    - destruct (D w Hw) as [[Lw _]|[Nw Iw]]; [now left|right]. split; [exact Nw|]. rewrite map_rev in Iw. now apply in_rev.
    - destruct Hw as [<-|[]]. now left.
  Qed.
End Proof.

(** ** The theorem: for every setting of the generator, the conversion succeeds; the list is in
    single assignment form; run from the first to the last, it gives each variable the dag stores the
    value the dag gives it, and changes nothing else but new temporaries *)
Theorem C50_alist Mg tmp H roots fuel : codelet_ok tmp H roots -> (forall r, In r roots -> r < fuel) ->
  exists l, to_assignments Mg H fuel tmp roots = Some l /\
    single_assignment tmp H roots l /\
    (forall env r v y, In r roots -> H r = NStore v y -> In v (map fst l) /\ run l env v = eval env (tree H y)) /\
    (forall env w, ~ dag_stores H roots w -> ~ new_temporary tmp w -> run l env w = env w).
Proof.
  intros OK L. destruct (alist_main Mg tmp H roots OK false) with (fuel := fuel) as (l & E & O & V); try discriminate; auto.
  exists (rev l). split; auto. split; [eapply okl_ssa; eauto|]. split.
  - intros env r v y Hr Er. destruct (V r v y Hr Er) as [I' V']. split; auto. rewrite map_rev, <- in_rev. exact I'.
  - intros env w Nw Nt. apply (R_other l). intros K. apply in_map_iff in K. destruct K as ((u & x) & <- & K). eapply okl_fst in K; eauto. tauto.
Qed.

(** ** Array elements are loaded before they are used: unless loads are inlined, an expression that mentions an
    array element is the load of this element into a temporary (so a store never reads the
    arrays).  The first factors of the complex products must not be array elements: they are
    constants, the twiddle factors *)
Theorem C50_loads Mg tmp H roots fuel l : codelet_ok tmp H roots -> (forall r, In r roots -> r < fuel) ->
  inline_loads Mg = false ->
  (generate_bytw Mg = true -> forall n a b v, H n = NCTimes a b \/ H n = NCTimesJ a b -> H a = NLoad v -> is_locative v = false) ->
  to_assignments Mg H fuel tmp roots = Some l ->
  forall v x w, In (v, x) l -> In w (find_vars x) -> is_locative w = true -> x = ELoad w /\ new_temporary tmp v.
Proof.
  intros OK L NL NB E v x w Hvx Hw Lw. destruct (alist_main Mg tmp H roots OK true) with (fuel := fuel) as (l' & E' & O & _); auto.
  rewrite E in E'. injection E' as ->. apply in_rev in Hvx. apply in_split in Hvx. destruct Hvx as (l2 & l1 & Es).
  destruct (okl_at _ _ _ _ l' O _ _ _ _ Es) as (_ & _ & [D|(Nv & w' & -> & _)]).
  - exfalso. destruct (D w Hw) as [[_ Dw]|[(k & -> & _) _]]; [rewrite Dw in Lw by reflexivity|]; discriminate.
  - destruct Hw as [->|[]]. auto.
Qed.

(** ** Examples *)
Definition magic0 : amagic := {| inline_single := true; inline_loads := false; inline_loads_constants := false; inline_constants := true;
  trivial_stores := false; strength_reduce_mul := false; enable_fma := false; generate_bytw := true |}.
Definition fma0 : amagic := {| inline_single := true; inline_loads := false; inline_loads_constants := false; inline_constants := true;
  trivial_stores := false; strength_reduce_mul := false; enable_fma := true; generate_bytw := true |}.
(** a butterfly in place: o0 = i0 + w i1, o1 = i0 - w i1 *)
Definition i0 := Locative 0 0 0. Definition i1 := Locative 1 1 1. Definition wv := Constant 0 0.
Definition o0 := Locative 0 2 0. Definition o1 := Locative 1 3 1.
Definition bf_heap : heap := fun i => nth i [NLoad i0; NLoad i1; NLoad wv; NTimes 2 1; NPlus [0; 3]; NUminus 3; NPlus [0; 5]; NStore o0 4; NStore o1 6] NNaN.
Definition T (k : Z) := Temporary k.
Definition L (k : Z) := ELoad (T k).
Lemma bf_nodes i : i < 9 \/ bf_heap i = NNaN.
Proof. destruct (Nat.lt_ge_cases i 9); [now left|right]. unfold bf_heap. now rewrite nth_overflow. Qed.
Example C50_butterfly_ok : codelet_ok 0 bf_heap [7; 8].
Proof.
  assert (Ld : forall v, dag_loads bf_heap [7; 8] v -> v = i0 \/ v = i1 \/ v = wv).
  { intros v (r & u & y & Hr & Er & O). destruct Hr as [<-|[<-|[]]]; cbn in Er; injection Er as <- <-; cbn in O; intuition. }
  assert (Sd : forall v, dag_stores bf_heap [7; 8] v -> v = o0 \/ v = o1).
  { intros v (r & y & Hr & Er). destruct Hr as [<-|[<-|[]]]; cbn in Er; injection Er as <- <-; auto. }
  constructor.
  - intros i c Hc. destruct (bf_nodes i) as [Li|E]; [|rewrite E in Hc; destruct Hc].
    do 9 (destruct i as [|i]; [cbn in Hc; intuition lia|]). lia.
  - intros r [<-|[<-|[]]]; cbn; eauto.
  - intros r r0 v y y0 [<-|[<-|[]]] [<-|[<-|[]]]; cbn; unfold o0, o1; intros; congruence.
  - intros v A B. apply Ld in A. apply Sd in B. destruct B as [->| ->]; destruct A as [A|[A|A]]; discriminate.
  - intros v [A|A] (k & -> & _); [apply Ld in A; destruct A as [A|[A|A]]|apply Sd in A; destruct A as [A|A]]; discriminate.
Qed.
Example C50_butterfly : to_assignments magic0 bf_heap 9 0 [7; 8] =
  Some [(T 1, ELoad i0); (T 2, ELoad wv); (T 3, ELoad i1); (T 4, Times (L 2) (L 3)); (o0, Plus [L 1; L 4]); (o1, Plus [L 1; Uminus (L 4)])].
Proof. vm_compute. reflexivity. Qed.
Example C50_butterfly_fma : to_assignments fma0 bf_heap 9 0 [7; 8] =
  Some [(T 1, ELoad i0); (T 2, ELoad wv); (T 3, ELoad i1); (o0, Plus [L 1; Times (L 2) (L 3)]); (o1, Plus [L 1; Uminus (Times (L 2) (L 3))])].
Proof. vm_compute. reflexivity. Qed.
Example C50_butterfly_inline : to_assignments {| inline_single := true; inline_loads := true; inline_loads_constants := true; inline_constants := true;
  trivial_stores := true; strength_reduce_mul := false; enable_fma := false; generate_bytw := true |} bf_heap 9 0 [7; 8] =
  Some [(T 1, Times (ELoad wv) (ELoad i1)); (T 2, Plus [ELoad i0; L 1]); (o0, L 2); (T 3, Plus [ELoad i0; Uminus (L 1)]); (o1, L 3)].
Proof. vm_compute. reflexivity. Qed.

(** A node under a negation that is used twice is counted once (to_alist.ml:83 visits the
    children of the node, not the node), so the list computes its value twice: correct, but
    the sum i0 + i1 is made two times.  "Each operation of the dag is done once" is false *)
Definition neg_heap : heap := fun i => nth i [NLoad i0; NLoad i1; NPlus [0; 1]; NUminus 2; NLoad wv; NPlus [0; 3]; NTimes 4 3; NStore o0 5; NStore o1 6] NNaN.
Lemma neg_list : to_assignments magic0 neg_heap 9 0 [7; 8] =
  Some [(T 1, ELoad i0); (T 2, ELoad i1); (o0, Plus [L 1; Uminus (Plus [L 1; L 2])]); (T 3, ELoad wv); (o1, Times (L 3) (Uminus (Plus [L 1; L 2])))].
Proof. vm_compute. reflexivity. Qed.
Theorem C50_once_refuted : exists l v v' x x', to_assignments magic0 neg_heap 9 0 [7; 8] = Some l /\ v <> v' /\
  In (v, x) l /\ In (v', x') l /\ (exists a, x = Plus [a; Uminus (Plus [L 1; L 2])]) /\ (exists a, x' = Times a (Uminus (Plus [L 1; L 2]))).
Proof.
  eexists _, o0, o1, _, _. split; [exact neg_list|]. split; [discriminate|]. split; [do 2 right; left; reflexivity|]. split; [do 4 right; left; reflexivity|].
  split; eexists; reflexivity.
Qed.

Print Assumptions C50_alist.
Print Assumptions C50_loads.
