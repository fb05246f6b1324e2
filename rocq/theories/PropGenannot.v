(** * C52: the final code of a codelet: order of the instructions and nested declarations *)
From Coq Require Import Reals ZArith List Bool Lia Permutation.
From Verif Require Import Cplx GenExpr GenCplx GenAlg GenAlgVars GenTrans GenTransProofs GenAlist GenExec GenAlistProofs PropGenalist GenSched GenSchedProofs PropGensched.
From Verif Require Import GenAnnot GenAnnotProofs GenAnnotProofs2 GenAnnotProofs3 GenAnnotProofs4.
Import ListNotations.
Open Scope nat_scope.

(** ** Specification *)
(** [r] is a well-formed C text for the instructions of [l]: it contains each of them once, in an order that respects the
    dependencies; each temporary it assigns is declared exactly once, nothing else is declared, and
    every mention of a temporary is inside the block that declares it *)
Record well_declared (r : annotated) (l : list assignment) : Prop := {
  wd_perm : Permutation (map snd (scoped [] r)) l;
  wd_order : ordered (map snd (scoped [] r));
  wd_once : NoDup (decls r);
  wd_which : forall w, In w (decls r) <-> is_temporary w = true /\ In w (map fst l);
  wd_scope : forall scope v x w, In (scope, (v, x)) (scoped [] r) -> w = v \/ In w (find_vars x) -> is_temporary w = true -> In w scope
}.
(** List.sort is only assumed to permute its argument *)
Definition permutes (sort : (keyed -> keyed -> Z) -> list keyed -> list keyed) : Prop := forall c l, Permutation (sort c l) l.

Section Codelet.
  Variables (Mg : amagic) (tmp : Z) (H : heap) (roots : list nat) (fuel0 : nat) (l : list assignment).
  Hypothesis OK : codelet_ok tmp H roots.
  Hypothesis Lr : forall r, In r roots -> r < fuel0.
  Hypothesis NL : inline_loads Mg = false.
  Hypothesis NB : generate_bytw Mg = true -> forall n a b v, H n = NCTimes a b \/ H n = NCTimesJ a b -> H a = NLoad v -> is_locative v = false.
  Hypothesis ST : forall r v y, In r roots -> H r = NStore v y -> is_temporary v = false.
  Hypothesis LT : forall v, dag_loads H roots v -> is_temporary v = false.
  Hypothesis E : to_assignments Mg H fuel0 tmp roots = Some l.
  Lemma codelet_sane : sane l.
  Proof.
    destruct (codelet_ssa Mg tmp H roots fuel0 l OK Lr E) as [ND DU]. constructor; auto.
    - intros a Ha. destruct (depends_on a a) eqn:D; [|reflexivity]. exfalso. assert (R := codelet_ranked Mg tmp H roots fuel0 l OK Lr NL NB E ST a a Ha Ha D). lia.
    - intros a (u, y) Ha Hb Hw. cbn [snd] in Hw. destruct a as [v x]. cbn [fst] in *.
      apply in_split in Hb. destruct Hb as (l1 & l2 & El). destruct (DU _ _ _ _ El) as (_ & _ & Dy). destruct (Dy v Hw) as [Lv|[(k & -> & _) _]]; [|reflexivity].
      exfalso. apply in_split in Ha. destruct Ha as (m1 & m2 & Em). destruct (DU _ _ _ _ Em) as ([K|K] & _); [apply (co_old _ _ _ OK v); auto|apply (co_disj _ _ _ OK v); auto].
    - intros (v, x) w Ha Hw Lw. destruct (C50_loads Mg tmp H roots fuel0 l OK Lr NL NB E v x w Ha Hw Lw) as [Ex (k & -> & _)]. cbn. auto.
  Qed.
  Lemma codelet_defd : defd l.
  Proof.
    destruct (codelet_ssa Mg tmp H roots fuel0 l OK Lr E) as [ND DU]. intros (u, y) v Hb Hw T. cbn [snd] in Hw.
    apply in_split in Hb. destruct Hb as (l1 & l2 & El). destruct (DU _ _ _ _ El) as (_ & _ & Dy). destruct (Dy v Hw) as [Lv|[_ Iv]]; [rewrite (LT v Lv) in T; discriminate|].
    rewrite El, map_app. apply in_app_iff. auto.
  Qed.
  Lemma codelet_one a : roots <> [] -> Permutation [a] l -> is_temporary (fst a) = false.
  Proof.
    intros Nr P. apply Permutation_length_1_inv in P. destruct roots as [|r rs] eqn:Er; [congruence|]. destruct (co_stores _ _ _ OK r (or_introl eq_refl)) as (v & y & Ev & _).
    rewrite <- Er in *. assert (Ir : In r roots) by (rewrite Er; now left). destruct (codelet_run Mg tmp H roots fuel0 l OK Lr E (fun _ => RtoC 0) r v y Ir Ev) as [Iv _].
    rewrite P in Iv. destruct Iv as [->|[]]. eauto.
  Qed.
End Codelet.

(** ** For every list of assignments with its dependencies in order: whatever the scheduler and the passes do, the code is well formed *)
Theorem C52_text sort Mn s l : permutes sort -> wfs s -> orders s l -> sane l -> defd l -> (forall a, l = [a] -> is_temporary (fst a) = false) ->
  (exists f0 r, forall f, f0 <= f -> annotate sort Mn f s = Some r) /\
  (forall f r, annotate sort Mn f s = Some r -> well_declared r l).
Proof.
  intros Sp W [_ G] Sa Df One. split.
  - destruct (final_order_total sort Sp Mn l s W G Sa Df) as (f0 & x & Ex). exists f0. eexists. intros f Lf. unfold annotate. rewrite Ex by auto. reflexivity.
  - intros f r. unfold annotate. destruct (final_order sort Mn f s) as [x|] eqn:Ex; [|discriminate]. intros [= <-]. destruct (final_order_ok sort Sp Mn f l s x G Sa Ex) as (Wx & P & O).
    assert (ND : NoDup (assigned x)) by (eapply Permutation_NoDup; [apply Permutation_map, Permutation_sym, P|apply Sa]).
    destruct (annotated_ok (number_of_variables Mn) x Wx ND O) as (A & B & C).
    { intros a Ea. rewrite Ea in P. apply One. now apply Permutation_length_1_inv in P. }
    assert (Pa : Permutation (assigned x) (map fst l)) by apply Permutation_map, P.
    constructor.
    + rewrite A. exact P.
    + rewrite A. exact O.
    + eapply Permutation_NoDup; [apply Permutation_sym, B|]. now apply NoDup_filter.
    + intros w. split; [intros Hw; apply (Permutation_in _ B) in Hw; apply filter_In in Hw; split; [tauto|apply (Permutation_in _ Pa); tauto]|].
      intros [T Hw]. apply (Permutation_in _ (Permutation_sym B)), filter_In. split; auto. apply (Permutation_in _ (Permutation_sym Pa)), Hw.
    + intros sc v y w Hi Hw T. apply (C sc (v, y) w Hi Hw T).
      assert (Iv : In (v, y) (sched_to_ilist x)) by (rewrite <- A; apply (in_map snd) in Hi; exact Hi). destruct Hw as [->|Hw]; [apply (in_map fst) in Iv; exact Iv|].
      apply (Permutation_in _ (Permutation_sym Pa)). apply (Df (v, y) w); auto. apply (Permutation_in _ P Iv).
Qed.

(** ** For every codelet: the generator succeeds, and its final text computes the dag in memory, in place or not *)
Theorem C52_codelet Mg Ms Mn sort tmp H roots fuel0 l {A} (A_dec : forall p q : A, {p = q} + {p <> q}) addr :
  codelet_ok tmp H roots -> roots <> [] -> (forall r, In r roots -> r < fuel0) ->
  inline_loads Mg = false ->
  (generate_bytw Mg = true -> forall n a b v, H n = NCTimes a b \/ H n = NCTimesJ a b -> H a = NLoad v -> is_locative v = false) ->
  (forall r v y, In r roots -> H r = NStore v y -> is_temporary v = false) -> (forall v, dag_loads H roots v -> is_temporary v = false) ->
  to_assignments Mg H fuel0 tmp roots = Some l ->
  length l <= N.to_nat 100000 -> schedule_type Ms <> 1%Z -> permutes sort -> memory_ok addr tmp H roots ->
  (exists fuel s t, schedule Ms fuel l = Some s /\ isolate_precomputations_and_schedule Ms fuel l = Some t) /\
  (forall fuel s, schedule Ms fuel l = Some s \/ isolate_precomputations_and_schedule Ms fuel l = Some s ->
    (exists f0 r, forall f, f0 <= f -> annotate sort Mn f s = Some r) /\
    (forall f r, annotate sort Mn f s = Some r -> well_declared r l /\ computes_dag A_dec addr tmp H roots (map snd (scoped [] r)))).
Proof.
  intros OK Nr Lr NL NB ST LT E Len Ty Sp MO.
  destruct (C51_codelet Mg Ms tmp H roots fuel0 l A_dec addr OK Lr NL NB ST E Len Ty MO) as [Ex Al]. split; [exact Ex|]. intros fuel s Hs.
  destruct (Al fuel s Hs) as [Or _]. assert (W : wfs s) by (destruct Hs as [Hs|Hs]; [eapply schedule_wf; eauto|eapply isolate_wf; eauto]).
  destruct (C52_text sort Mn s l Sp W Or) as [X Y].
  - eapply codelet_sane; eauto.
  - eapply codelet_defd; eauto.
  - intros a ->. eapply codelet_one; eauto.
  - split; [exact X|]. intros f r Er. assert (Wd := Y f r Er). split; [exact Wd|]. eapply codelet_exec; eauto; apply Wd.
Qed.

(** ** Examples *)
Definition no_sort (c : keyed -> keyed -> Z) (l : list keyed) := l.
Definition plain : nmagic := {| schedule_for_pipeline_on := false; pipeline_latency := 0; reorder_insns := false; reorder_stores := false; reorder_loads := false; number_of_variables := 4 |}.
Definition all_on : nmagic := {| schedule_for_pipeline_on := true; pipeline_latency := 4; reorder_insns := true; reorder_stores := true; reorder_loads := true; number_of_variables := 2 |}.
Definition bf_sched : sched :=
  Seq (Par [Instr (T 1, ELoad i0); Seq (Instr (T 3, ELoad i1)) (Seq (Instr (T 2, ELoad wv)) (Instr (T 4, Times (L 2) (L 3))))])
      (Par [Instr (o0, Plus [L 1; L 4]); Instr (o1, Plus [L 1; Uminus (L 4)])]).
Definition one_var : nmagic := {| schedule_for_pipeline_on := false; pipeline_latency := 0; reorder_insns := false; reorder_stores := false; reorder_loads := false; number_of_variables := 1 |}.
Definition text (r : option annotated) := match r with Some r => Some (map snd (scoped [] r), decls r) | None => None end.
Definition scopes (r : option annotated) := match r with Some r => Some (map (fun p => length (fst p)) (scoped [] r)) | None => None end.
(** the default settings keep the order of the schedule *)
Example C52_butterfly_text : text (annotate no_sort plain 40 bf_sched) =
  Some ([(T 1, ELoad i0); (T 3, ELoad i1); (T 2, ELoad wv); (T 4, Times (L 2) (L 3)); (o0, Plus [L 1; L 4]); (o1, Plus [L 1; Uminus (L 4)])],
        [T 1; T 4; T 3; T 2]).
Proof. vm_compute. reflexivity. Qed.
(** all passes on: the pipelined schedule puts the stores in the other order *)
Example C52_butterfly_all_on : text (annotate no_sort all_on 40 bf_sched) =
  Some ([(T 1, ELoad i0); (T 3, ELoad i1); (T 2, ELoad wv); (T 4, Times (L 2) (L 3)); (o1, Plus [L 1; Uminus (L 4)]); (o0, Plus [L 1; L 4])],
        [T 1; T 3; T 2; T 4]).
Proof. vm_compute. reflexivity. Qed.
(** number_of_variables = 1: inner blocks, the scopes of the instructions differ *)
Example C52_butterfly_blocks : scopes (annotate no_sort one_var 40 bf_sched) = Some [2; 3; 4; 4; 2; 2].
Proof. vm_compute. reflexivity. Qed.
Example C52_butterfly fuel s Mn : schedule (sm 0) fuel bf_list = Some s ->
  (exists f0 r, forall f, f0 <= f -> annotate no_sort Mn f s = Some r) /\
  (forall f r, annotate no_sort Mn f s = Some r -> well_declared r bf_list /\ computes_dag Z.eq_dec bf_addr 0 bf_heap [7; 8] (map snd (scoped [] r))).
Proof.
  intros E. eapply (C52_codelet magic0 (sm 0) Mn no_sort 0 bf_heap [7; 8] 9 bf_list Z.eq_dec bf_addr).
  - exact C50_butterfly_ok.
  - discriminate.
  - intros r [<-|[<-|[]]]; lia.
  - reflexivity.
  - intros _ n a b v [K|K]; exfalso; destruct (bf_nodes n) as [Ln|En]; try (rewrite En in K; discriminate); do 9 (destruct n as [|n]; [discriminate K|]); lia.
  - intros r v y [<-|[<-|[]]]; cbn; intros [= <- _]; reflexivity.
  - intros v Lv. apply bf_loads in Lv. destruct Lv as [->|[->| ->]]; reflexivity.
  - exact C50_butterfly.
  - unfold bf_list; cbn [length]; lia.
  - discriminate.
  - intros c l. apply Permutation_refl.
  - exact bf_memory.
  - left. exact E.
Qed.

Print Assumptions C52_text.
Print Assumptions C52_codelet.
Print Assumptions C52_butterfly.
