(** * From the optimized store expressions to the C text: codelets with stores that the optimizer drops *)
From Coq Require Import Reals ZArith List Bool Lia Permutation.
From Verif Require Import NumTheory Cplx GenExpr GenCplx GenAlg GenAlgProofs GenAlgVars GenTrans GenTransProofs PropGenfft PropGenreal PropGentwid TensorModel Offs PropGenalg PropGentrans.
From Verif Require Import GenAlist GenExec GenAlistProofs PropGenalist GenSched GenSchedProofs PropGensched GenAnnot GenAnnotProofs GenAnnotProofs2 GenAnnotProofs3 GenAnnotProofs4 PropGenannot.
From Verif Require Import GenPrint GenPrintProofs GenPrintScalar GenPrintExec PropGenprint GenLink.
Import ListNotations.
Open Scope nat_scope.

(** the passes after algsimp: [t] is the C text printed for the optimized stores [v'] (see [compiled] in GenLink.v) *)
Inductive printed (v' : list expr) (t : ctext) : Prop :=
| printed_intro H roots Mg Ms Mn sort fuel0 l fuel s f r g :
    acyclic H -> NoDup roots -> dag H roots = v' -> v' <> [] -> (forall p e, In (EStore p e) v' -> scalar e = true) ->
    inline_loads Mg = false ->
    (generate_bytw Mg = true -> forall n a b u, H n = NCTimes a b \/ H n = NCTimesJ a b -> H a = NLoad u -> is_locative u = false) ->
    (forall r, In r roots -> r < fuel0) -> to_assignments Mg H fuel0 0 roots = Some l -> length l <= N.to_nat 100000 ->
    schedule_type Ms <> 1%Z -> schedule Ms fuel l = Some s \/ isolate_precomputations_and_schedule Ms fuel l = Some s ->
    permutes sort -> annotate sort Mn f s = Some r -> unparse_annotated g r = Some t ->
    printed v' t.
Theorem compiled_printed v t : compiled v t <-> exists v', optimizes v v' /\ printed v' t.
Proof.
  split.
  - intros [v' H roots Mg Ms Mn sort fuel0 l fuel s f r g Op AC NDr Ed Ne Sc NL NB Lr El Len Ty Hs Sp Ea Eu]. exists v'. split; auto. eapply printed_intro; eauto.
  - intros (v' & Op & [H roots Mg Ms Mn sort fuel0 l fuel s f r g AC NDr Ed Ne Sc NL NB Lr El Len Ty Hs Sp Ea Eu]). eapply compiled_intro; eauto.
Qed.
(** the same with at least one round of transposed simplification, which is what standard_optimizer does
    unless -no-network-transposition is given (algsimp.ml:560-577, magic.ml) *)
Definition compiled_loop (v v' : list expr) (t : ctext) : Prop := (exists u, simplifies v u /\ rounds u v') /\ printed v' t.
Lemma compiled_loop_compiled v v' t : compiled_loop v v' t -> compiled v t.
Proof. intros [(u & A & R) P]. apply compiled_printed. exists v'. split; auto. now apply (opt_loop v v' u). Qed.

(** the arrays, as far as the remaining stores [v'] are concerned *)
Record array_layout2 {A} (addr : variable -> A) (v v' : list expr) : Prop := {
  lay2_vars : forall w, loads_of v w -> is_temporary w = false /\ ~ In w (places v');
  lay2_places : forall p, In p (places v') -> is_locative p = true;
  lay2_diff : forall p q, In p (places v') -> In q (places v') -> addr p = addr q -> p = q;
  lay2_inplace : forall p w, In p (places v') -> loads_of v w -> addr p = addr w -> same_location p w = true;
  lay2_const : forall p w, In p (places v') -> var_is_constant w = true -> addr p <> addr w
}.
Theorem printed_runs v v' t {A} (A_dec : forall p q : A, {p = q} + {p <> q}) addr :
  all_stores v -> NoDup (places v) -> optimizes v v' -> printed v' t -> array_layout2 addr v v' ->
  forall (loc : locals) m,
    (exists s', cruns A A_dec addr t (loc, m) s') /\
    forall s', cruns A A_dec addr t (loc, m) s' ->
      (forall p e, In (EStore p e) v -> (exists env, eval env e <> C0) -> snd s' (addr p) = eval (fun w => m (addr w)) e) /\
      (forall q, (forall p, In p (places v') -> addr p <> q) -> snd s' q = m q).
Proof.
  intros S ND Op [H roots Mg Ms Mn sort fuel0 l fuel s f r g AC NDr Ed Ne Sc NL NB Lr El Len Ty Hs Sp Ea Eu] [LV LP LD LI LC].
  destruct (C49_algsimp v v' S ND Op) as (K1 & K2 & K3 & K4).
  assert (LL : forall w, dag_loads H roots w -> loads_of v w \/ var_is_constant w = true).
  { intros w Hw. destruct (var_is_constant w) eqn:Cw; auto. left. apply all_stores_loads; auto. apply (optimizes_loads v v' w S Op Cw).
    apply (dag_loads_trees H roots w AC) in Hw. rewrite Ed in Hw. destruct Hw as (p & e & He & Ow). exists (EStore p e). auto. }
  assert (RS : forall q, In q roots -> exists p y, H q = NStore p y /\ In (EStore p (tree H y)) v').
  { intros q Hq. assert (Hin : In (tree H q) v') by (rewrite <- Ed; unfold dag; now apply in_map). destruct (K2 _ Hin) as (p & d & E). rewrite (tree_eq H AC q) in E.
    destruct (H q) as [| | | | | | | |u y] eqn:Eq; try discriminate. injection E as -> <-. exists p, y. split; auto. now rewrite (tree_eq H AC q), Eq in Hin. }
  assert (SP : forall p, dag_stores H roots p <-> In p (places v')).
  { intros p. rewrite in_places. split.
    - intros (q & y & Hq & Eq). destruct (RS q Hq) as (p' & y' & Eq' & Hin). rewrite Eq in Eq'. injection Eq' as <- <-. eauto.
    - intros (e & He). rewrite <- Ed in He. unfold dag in He. apply in_map_iff in He. destruct He as (q & Er & Hq). rewrite (tree_eq H AC q) in Er.
      destruct (H q) as [| | | | | | | |u y] eqn:E; try discriminate. injection Er as -> <-. exists q, y. auto. }
  assert (SV : forall p, dag_stores H roots p -> In p (places v')) by (intros p Hp; now apply SP).
  assert (LT : forall w, dag_loads H roots w -> is_temporary w = false).
  { intros w Hw. destruct (LL w Hw) as [Lw|Cw]; [now apply LV|]. destruct w; try discriminate; reflexivity. }
  assert (OK : codelet_ok 0 H roots).
  { constructor; auto.
    - intros q Hq. destruct (RS q Hq) as (p & y & E & Hin). exists p, y. split; auto. apply scalar_nostore. eapply Sc; eauto.
    - intros q q' p y y' Hq Hq' E E'. assert (Et : tree H q = tree H q').
      { destruct (RS q Hq) as (p1 & y1 & E1 & I1). rewrite E in E1. injection E1 as <- <-. destruct (RS q' Hq') as (p2 & y2 & E2 & I2). rewrite E' in E2. injection E2 as <- <-.
        rewrite (tree_eq H AC q), (tree_eq H AC q'), E, E'. f_equal. eapply places_inj; [exact K1|exact I1|exact I2]. }
      assert (NDm : NoDup (places (map (tree H) roots))) by (change (map (tree H) roots) with (dag H roots); now rewrite Ed).
      clear - NDm Hq Hq' Et E E' AC. induction roots as [|a rs IH]; [destruct Hq|]. unfold places in NDm. cbn [map flat_map] in NDm. fold (places (map (tree H) rs)) in NDm.
      assert (X : forall z yz, In z rs -> H z = NStore p yz -> In p (places (map (tree H) rs))).
      { intros z yz Hz Ez. apply in_places. exists (tree H yz). apply in_map_iff. exists z. split; auto. now rewrite (tree_eq H AC z), Ez. }
      destruct Hq as [->|Hq], Hq' as [->|Hq']; auto.
      + exfalso. rewrite (tree_eq H AC q), E in NDm. cbn in NDm. inversion NDm as [|? ? N1 _]; subst. apply N1. eapply X; eauto.
      + exfalso. rewrite (tree_eq H AC q'), E' in NDm. cbn in NDm. inversion NDm as [|? ? N1 _]; subst. apply N1. eapply X; eauto.
      + apply IH; auto. apply NoDup_app_inv in NDm. tauto.
    - intros w Hw Ws. apply SV in Ws. destruct (LL w Hw) as [Lw|Cw]; [exact (proj2 (LV w Lw) Ws)|]. apply LP in Ws. destruct w; discriminate.
    - intros w Hw (k & -> & _). destruct Hw as [Hw|Hw]; [apply LT in Hw; discriminate|]. apply SV, LP in Hw. discriminate. }
  assert (AR : arrays_ok addr H roots).
  { constructor.
    - intros p q Hp Hq. apply LD; auto.
    - intros p w Hp Hw Epw. apply SV in Hp. destruct (LL w Hw) as [Lw|Cw]; [now apply LI|]. exfalso. exact (LC p w Hp Cw Epw). }
  assert (Nr : roots <> []) by (intros ->; apply Ne; rewrite <- Ed; reflexivity).
  assert (ST : forall q p y, In q roots -> H q = NStore p y -> is_temporary p = false /\ scalar (tree H y) = true).
  { intros q p y Hq E. destruct (RS q Hq) as (p1 & y1 & E1 & I1). rewrite E in E1. injection E1 as <- <-. split; [|eapply Sc; eauto].
    assert (Hp : In p (places v')) by (apply in_places; eauto). apply LP in Hp. destruct p; discriminate || reflexivity. }
  intros loc m.
  destruct (C53_text Mg Ms Mn sort 0 H roots fuel0 l A_dec addr OK Nr Lr NL NB ST LT El Len Ty Sp AR fuel s Hs f r g t Ea Eu loc m) as [X Y].
  split; [exact X|]. intros s' R. destruct (Y s' R) as [Y1 Y2]. clear X Y Len.
  assert (G : forall p e, In (EStore p e) v -> snd s' (addr p) = eval (fun w => m (addr w)) e \/ ~ In p (places v') /\ forall env, eval env e = C0).
  { intros p e He. destruct (K4 p e He) as [(e' & He' & V)|[Np Z]]; [left|right; split; assumption]. rewrite <- V.
    rewrite <- Ed in He'. unfold dag in He'. apply in_map_iff in He'. destruct He' as (q & Er & Hq). rewrite (tree_eq H AC q) in Er.
    destruct (H q) as [| | | | | | | |u y] eqn:E; try discriminate. injection Er as -> <-. eapply Y1; eauto. }
  split.
  - intros p e He (env & N). destruct (G p e He) as [Q|[_ Z]]; auto. now rewrite Z in N.
  - intros q Nq. apply Y2. intros w Hw. apply Nq. auto.
Qed.
