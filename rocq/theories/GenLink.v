(** * From the store expressions of a generator to the C text of its codelet *)
From Coq Require Import Reals ZArith List Bool Lia Permutation.
From Verif Require Import NumTheory Cplx GenExpr GenCplx GenAlg GenAlgProofs GenAlgVars GenTrans GenTransProofs PropGenfft PropGenreal PropGentwid TensorModel Offs PropGenalg PropGentrans.
From Verif Require Import GenAlist GenExec GenAlistProofs PropGenalist GenSched GenSchedProofs PropGensched GenAnnot GenAnnotProofs GenAnnotProofs2 GenAnnotProofs3 GenAnnotProofs4 PropGenannot.
From Verif Require Import GenPrint GenPrintProofs GenPrintScalar GenPrintExec PropGenprint.
Import ListNotations.
Open Scope nat_scope.

(** [v] is the list of store expressions that a generator has built; [t] is the C text printed for it.
    genutil.ml:216-231 (standard_optimizer): algsimp (C48, C49) gives the stores [v']; the expressions in memory are a
    heap [H] (only its sharing is arbitrary); To_alist (C50), Schedule (C51), Annotate (C52) and the printer (C53) follow.
    The options are those of C53; the codelet has no complex product (no -simd). *)
Inductive compiled (v : list expr) (t : ctext) : Prop :=
| compiled_intro v' H roots Mg Ms Mn sort fuel0 l fuel s f r g :
    optimizes v v' ->
    acyclic H -> NoDup roots -> dag H roots = v' -> v' <> [] -> (forall p e, In (EStore p e) v' -> scalar e = true) ->
    inline_loads Mg = false ->
    (generate_bytw Mg = true -> forall n a b u, H n = NCTimes a b \/ H n = NCTimesJ a b -> H a = NLoad u -> is_locative u = false) ->
    (forall r, In r roots -> r < fuel0) -> to_assignments Mg H fuel0 0 roots = Some l -> length l <= N.to_nat 100000 ->
    schedule_type Ms <> 1%Z -> schedule Ms fuel l = Some s \/ isolate_precomputations_and_schedule Ms fuel l = Some s ->
    permutes sort -> annotate sort Mn f s = Some r -> unparse_annotated g r = Some t ->
    compiled v t.

(** ** Loads of the optimized dag *)
Definition loads_of (v : list expr) (w : variable) : Prop := exists p e, In (EStore p e) v /\ occurs w e.
Lemma all_stores_loads v w : all_stores v -> (exists e, In e v /\ occurs w e) <-> loads_of v w.
Proof.
  intros S. split.
  - intros (e & He & Ow). destruct (S e He) as (p & d & ->). exists p, d. split; auto.
  - intros (p & e & He & Ow). exists (EStore p e). split; auto.
Qed.
Lemma dag_loads_trees H roots w : acyclic H -> dag_loads H roots w <-> loads_of (dag H roots) w.
Proof.
  intros AC. split.
  - intros (r & u & y & Hr & Er & Ow). exists u, (tree H y). split; auto. unfold dag. apply in_map_iff. exists r. split; auto. now rewrite (tree_eq H AC r), Er.
  - intros (p & e & He & Ow). unfold dag in He. apply in_map_iff in He. destruct He as (r & Er & Hr). rewrite (tree_eq H AC r) in Er.
    destruct (H r) as [| | | | | | | |u y] eqn:E; try discriminate. injection Er as -> <-. exists r, p, y. auto.
Qed.
Lemma simplifies_loads v v' w : all_stores v -> simplifies v v' -> (exists e, In e v' /\ occurs w e) -> exists e, In e v /\ occurs w e.
Proof. intros S (Or & Mg & f & s & HO & A & B) O. exact (algsimp_occurs Or Mg f v v' s w A O). Qed.
Lemma round_loads v v4 w : round v v4 -> var_is_constant w = false -> (exists e, In e v4 /\ occurs w e) -> exists e, In e v /\ occurs w e.
Proof.
  intros [v1 v2 v3 (pheq & H & roots & fuel & Hp & K & <- & T) (Or & Mg & f & s & HO & A & B) (pheq' & H' & roots' & fuel' & Hp' & K' & Ev2 & T') (Or' & Mg' & f' & s' & HO' & A' & B')] Cw O4.
  destruct (C49_transpose pheq H roots Hp K) as [_ T1]. destruct (T1 fuel v1 T) as (S1 & N1 & P1 & F1 & O1). clear T1 T.
  destruct (C49_transpose pheq' H' roots' Hp' K') as [_ T2]. destruct (T2 fuel' v3 T') as (S3 & N3 & P3 & F3 & O3). clear T2 T'.
  apply (algsimp_occurs Or' Mg' f' v3 v4 s' w A') in O4. destruct (O3 w Cw O4) as (e & He & _). rewrite Ev2 in He.
  destruct (places_rel v1 v2 S1 (algsimp_ok Or Mg HO f v1 v2 s A B)) as (Q & _ & _).
  assert (Hw : In w (places v2)) by (apply in_places; eauto). rewrite Q in Hw. apply P1 in Hw. tauto.
Qed.
Lemma optimizes_loads v v' w : all_stores v -> optimizes v v' -> var_is_constant w = false -> (exists e, In e v' /\ occurs w e) -> exists e, In e v /\ occurs w e.
Proof.
  intros S [A|u A R] Cw O.
  - eapply simplifies_loads; eauto.
  - apply (simplifies_loads v u w S A). clear A S. induction R as [a b R|a b c R Rs IH]; [now apply (round_loads a b)|]. apply (round_loads a b); auto.
Qed.

(** ** The link *)
Lemma scalar_nostore e : scalar e = true -> nostore e = true.
Proof.
  induction e as [b| |l F|x1 x2 I1 I2|x1 x2 _ _|x1 x2 _ _|x IH|u|u x _] using expr_indl; cbn [scalar nostore]; try discriminate; auto.
  - intros K. rewrite forallb_forall in *. auto.
  - intros K. apply andb_true_iff in K. destruct K. rewrite I1, I2; auto.
Qed.

Record array_layout {A} (addr : variable -> A) (v : list expr) : Prop := {
  lay_vars : forall w, loads_of v w -> is_temporary w = false /\ ~ In w (places v);
  lay_places : forall p, In p (places v) -> is_locative p = true;
  lay_diff : forall p q, In p (places v) -> In q (places v) -> addr p = addr q -> p = q;
  lay_inplace : forall p w, In p (places v) -> loads_of v w -> addr p = addr w -> same_location p w = true;
  lay_const : forall p w, In p (places v) -> var_is_constant w = true -> addr p <> addr w
}.
Theorem compiled_runs v t {A} (A_dec : forall p q : A, {p = q} + {p <> q}) addr :
  all_stores v -> NoDup (places v) -> compiled v t -> array_layout addr v ->
  forall (loc : locals) m,
    (exists s', cruns A A_dec addr t (loc, m) s') /\
    forall s', cruns A A_dec addr t (loc, m) s' ->
      (forall p e, In (EStore p e) v -> (exists env, eval env e <> C0) -> snd s' (addr p) = eval (fun w => m (addr w)) e) /\
      (forall p e, In (EStore p e) v -> snd s' (addr p) = eval (fun w => m (addr w)) e \/
         snd s' (addr p) = m (addr p) /\ forall env, eval env e = C0) /\
      (forall q, (forall p, In p (places v) -> addr p <> q) -> snd s' q = m q).
Proof.
  intros S ND [v' H roots Mg Ms Mn sort fuel0 l fuel s f r g Op AC NDr Ed Ne Sc NL NB Lr El Len Ty Hs Sp Ea Eu] [LV LP LD LI LC].
  destruct (C49_algsimp v v' S ND Op) as (K1 & K2 & K3 & K4).
  assert (LL : forall w, dag_loads H roots w -> loads_of v w \/ var_is_constant w = true).
  { intros w Hw. destruct (var_is_constant w) eqn:Cw; auto. left. apply all_stores_loads; auto. apply (optimizes_loads v v' w S Op Cw).
    apply (dag_loads_trees H roots w AC) in Hw. rewrite Ed in Hw. destruct Hw as (p & e & He & Ow). exists (EStore p e). auto. }
  assert (RS : forall q, In q roots -> exists p y, H q = NStore p y /\ In (EStore p (tree H y)) v').
  { intros q Hq. assert (Hin : In (tree H q) v') by (rewrite <- Ed; unfold dag; now apply in_map). destruct (K2 _ Hin) as (p & d & E). rewrite (tree_eq H AC q) in E.
    destruct (H q) as [| | | | | | | |u y] eqn:Eq; try discriminate. injection E as -> <-. exists p, y. split; auto. now rewrite (tree_eq H AC q), Eq in Hin. }
  assert (SP : forall p, dag_stores H roots p <-> In p (places v')).
  { intros p. rewrite in_places. split.
    - intros (q & y & Hq & Eq). destruct (RS q Hq) as (p' & y' & Eq' & Hin). rewrite Eq in Eq'. injection Eq' as <- <-. eauto.
    - intros (e & He). rewrite <- Ed in He. unfold dag in He. apply in_map_iff in He. destruct He as (q & Er & Hq). rewrite (tree_eq H AC q) in Er.
      destruct (H q) as [| | | | | | | |u y] eqn:E; try discriminate. injection Er as -> <-. exists q, y. auto. }
  assert (SV : forall p, dag_stores H roots p -> In p (places v)) by (intros p Hp; apply K3; now apply SP).
  assert (LT : forall w, dag_loads H roots w -> is_temporary w = false).
  { intros w Hw. destruct (LL w Hw) as [Lw|Cw]; [now apply LV|]. destruct w; try discriminate; reflexivity. }
  assert (OK : codelet_ok 0 H roots).
  { constructor; auto.
    - intros q Hq. destruct (RS q Hq) as (p & y & E & Hin). exists p, y. split; auto. apply scalar_nostore. eapply Sc; eauto.
    - intros q q' p y y' Hq Hq' E E'. assert (Et : tree H q = tree H q').
      { destruct (RS q Hq) as (p1 & y1 & E1 & I1). rewrite E in E1. injection E1 as <- <-. destruct (RS q' Hq') as (p2 & y2 & E2 & I2). rewrite E' in E2. injection E2 as <- <-.
        rewrite (tree_eq H AC q), (tree_eq H AC q'), E, E'. f_equal. eapply places_inj; [exact K1|exact I1|exact I2]. }
      assert (NDm : NoDup (places (map (tree H) roots))) by (change (map (tree H) roots) with (dag H roots); now rewrite Ed).
      clear - NDm Hq Hq' Et E E' AC. induction roots as [|a rs IH]; [destruct Hq|]. unfold places in NDm. cbn [map flat_map] in NDm. fold (places (map (tree H) rs)) in NDm.
      assert (X : forall z yz, In z rs -> H z = NStore p yz -> In p (places (map (tree H) rs))).
      { intros z yz Hz Ez. apply in_places. exists (tree H yz). apply in_map_iff. exists z. split; auto. now rewrite (tree_eq H AC z), Ez. }
      destruct Hq as [->|Hq], Hq' as [->|Hq']; auto.
      + exfalso. rewrite (tree_eq H AC q), E in NDm. cbn in NDm. inversion NDm as [|? ? N1 _]; subst. apply N1. eapply X; eauto.
      + exfalso. rewrite (tree_eq H AC q'), E' in NDm. cbn in NDm. inversion NDm as [|? ? N1 _]; subst. apply N1. eapply X; eauto.
      + apply IH; auto. apply NoDup_app_inv in NDm. tauto.
    - intros w Hw Ws. apply SV in Ws. destruct (LL w Hw) as [Lw|Cw]; [exact (proj2 (LV w Lw) Ws)|]. apply LP in Ws. destruct w; discriminate.
    - intros w Hw (k & -> & _). destruct Hw as [Hw|Hw]; [apply LT in Hw; discriminate|]. apply SV, LP in Hw. discriminate. }
  assert (AR : arrays_ok addr H roots).
  { constructor.
    - intros p q Hp Hq. apply LD; auto.
    - intros p w Hp Hw Epw. apply SV in Hp. destruct (LL w Hw) as [Lw|Cw]; [now apply LI|]. exfalso. exact (LC p w Hp Cw Epw). }
  assert (Nr : roots <> []) by (intros ->; apply Ne; rewrite <- Ed; reflexivity).
  assert (ST : forall q p y, In q roots -> H q = NStore p y -> is_temporary p = false /\ scalar (tree H y) = true).
  { intros q p y Hq E. destruct (RS q Hq) as (p1 & y1 & E1 & I1). rewrite E in E1. injection E1 as <- <-. split; [|eapply Sc; eauto].
    assert (Hp : In p (places v)) by (apply K3, in_places; eauto). apply LP in Hp. destruct p; discriminate || reflexivity. }
  intros loc m.
  destruct (C53_text Mg Ms Mn sort 0 H roots fuel0 l A_dec addr OK Nr Lr NL NB ST LT El Len Ty Sp AR fuel s Hs f r g t Ea Eu loc m) as [X Y].
  split; [exact X|]. intros s' R. destruct (Y s' R) as [Y1 Y2]. clear X Y Len.
  assert (G : forall p e, In (EStore p e) v -> snd s' (addr p) = eval (fun w => m (addr w)) e \/ ~ In p (places v') /\ forall env, eval env e = C0).
  { intros p e He. destruct (K4 p e He) as [(e' & He' & V)|[Np Z]]; [left|right; split; assumption]. rewrite <- V.
    rewrite <- Ed in He'. unfold dag in He'. apply in_map_iff in He'. destruct He' as (q & Er & Hq). rewrite (tree_eq H AC q) in Er.
    destruct (H q) as [| | | | | | | |u y] eqn:E; try discriminate. injection Er as -> <-. eapply Y1; eauto. }
  split; [|split].
  - intros p e He (env & N). destruct (G p e He) as [Q|[_ Z]]; auto. now rewrite Z in N.
  - intros p e He. destruct (G p e He) as [Q|[Np Z]]; auto. right. split; auto. apply Y2. intros w Hw Ew. assert (Hw' := Hw). apply SP in Hw'. apply Np.
    replace p with w; auto. apply LD; auto. apply in_places. eauto.
  - intros q Nq. apply Y2. intros w Hw. apply Nq. auto.
Qed.
