(** * C49: the network transposition of genfft transposes the linear map of a codelet, and the
    simplification loop built on it preserves what the codelet computes *)
From Coq Require Import Reals ZArith List Lia Lra Bool Permutation.
From Verif Require Import NumTheory Cplx GenExpr GenCplx GenAlg GenAlgProofs GenAlgVars GenTrans GenTransProofs GenTrig PropGenfft PropGenreal PropGentwid PropGenalg.
Import ListNotations.
Open Scope nat_scope.

(** ** Specification *)
(** The dag with the given roots: nodes refer to older nodes; the roots are different stores, to
    places that are not constants, of linear functions of what is loaded ([lin]: in each product the
    first factor is a constant); there is one node for each variable that is loaded *)
Record dag_ok (H : heap) (roots : list nat) : Prop := {
  ok_acyclic : acyclic H;
  ok_nodup : NoDup roots;
  ok_lin : forall r, In r roots -> exists v x, H r = NStore v x /\ lin (tree H x);
  ok_place : forall r v x, In r roots -> H r = NStore v x -> var_is_constant v = false;
  ok_shared : loads_shared H roots
}.
(** the expressions of the roots *)
Definition dag (H : heap) (roots : list nat) : list expr := map (tree H) roots.

Section Occ.
  Variable H : heap.
  Hypothesis AC : acyclic H.
  Lemma occurs_node v n : occurs v (tree H n) <-> H n = NLoad v \/ exists c, In c (children (H n)) /\ occurs v (tree H c).
  Proof.
    rewrite (tree_eq H AC n). destruct (H n) as [a| |l|a b|a b|a b|a|u|u a]; cbn [children In].
    - cbn. split; [intros []|intros [E|(c & [] & _)]; discriminate].
    - cbn. split; [intros []|intros [E|(c & [] & _)]; discriminate].
    - rewrite occurs_Plus. split.
      + intros (x & Hx & O). apply in_map_iff in Hx. destruct Hx as (c & <- & Hc). eauto.
      + intros [E|(c & Hc & O)]; [discriminate|]. exists (tree H c). split; auto. now apply in_map.
    - cbn [occurs]. split; [intros [O|O]; right; eauto|]. intros [E|(c & [<-|[<-|[]]] & O)]; [discriminate|auto|auto].
    - cbn [occurs]. split; [intros [O|O]; right; eauto|]. intros [E|(c & [<-|[<-|[]]] & O)]; [discriminate|auto|auto].
    - cbn [occurs]. split; [intros [O|O]; right; eauto|]. intros [E|(c & [<-|[<-|[]]] & O)]; [discriminate|auto|auto].
    - cbn [occurs]. split; [intros O; right; eauto|]. intros [E|(c & [<-|[]] & O)]; [discriminate|auto].
    - cbn [occurs]. split; [intros ->; now left|]. intros [E|(c & [] & O)]. congruence.
    - cbn [occurs]. split; [intros O; right; eauto|]. intros [E|(c & [<-|[]] & O)]; [discriminate|auto].
  Qed.
  Lemma occurs_reach roots v : (exists r, In r roots /\ occurs v (tree H r)) <-> exists n, reach H roots n /\ H n = NLoad v.
  Proof.
    split.
    - intros (r & Hr & O). assert (R : reach H roots r) by now apply reach_root. clear Hr. revert R O.
      induction r as [r IH] using (well_founded_induction lt_wf). intros R O. apply occurs_node in O. destruct O as [E|(c & Hc & O)]; [eauto|].
      apply (IH c); auto. apply reach_child with r; auto.
    - intros (n & R & E). assert (O : occurs v (tree H n)) by (apply occurs_node; now left). clear E. induction R as [r Hr|p c Rp IH Hc]; [eauto|].
      apply IH. apply occurs_node. right. eauto.
  Qed.
End Occ.
Lemma occurs_dag H roots v : (exists e, In e (dag H roots) /\ occurs v e) <-> exists r, In r roots /\ occurs v (tree H r).
Proof.
  unfold dag. split.
  - intros (e & He & O). apply in_map_iff in He. destruct He as (r & <- & Hr). eauto.
  - intros (r & Hr & O). exists (tree H r). split; auto. now apply in_map.
Qed.

(** ** One transposition.  It succeeds; the result has exactly one store for each variable (not a
    constant) that is loaded in the dag; and its linear map is the transposed one:
    sum over the places v of the dag of w(v) times what the dag stores at v, for inputs x, is
    the sum over the places u of the result of x(u) times what the result stores at u, for inputs w,
    whatever the constants are *)
Theorem C49_transpose pheq H roots : sound_eq pheq -> dag_ok H roots ->
  (exists fuel E, transpose pheq H fuel roots = Some E) /\
  forall fuel E, transpose pheq H fuel roots = Some E ->
    (forall e, In e E -> exists v d, e = EStore v d) /\ NoDup (places E) /\
    (forall v, In v (places E) <-> var_is_constant v = false /\ exists e, In e (dag H roots) /\ occurs v e) /\
    (forall w x, same_consts w x -> form w x (dag H roots) = form x w E) /\
    (forall v, var_is_constant v = false -> (exists e, In e E /\ occurs v e) -> exists e, In (EStore v e) (dag H roots) /\ nonconst e = true).
Proof.
  intros Hp [AC ND LN PL SH]. split; [now apply transpose_ends|]. intros fuel E T.
  destruct (transpose_ok pheq Hp H AC roots ND LN fuel E T) as (A & B & C & D & F).
  split; [intros e He; destruct (A e He) as (v & d & -> & _); eauto|]. split; [now apply C|]. split; [|split; [exact D|]].
  - intros v. rewrite (B v). unfold loaded. rewrite occurs_dag, occurs_reach by exact AC. reflexivity.
  - intros v Cv (e & He & O). destruct (F e v He O) as [K|(r & x & Hr & Er & Nx)]; [congruence|]. exists (tree H x). split; [|exact Nx].
    unfold dag. replace (EStore v (tree H x)) with (tree H r) by (rewrite (tree_eq H AC r), Er; reflexivity). now apply in_map.
Qed.

(** ** What a place gets *)
Definition keeps (v v' : list expr) : Prop :=
  NoDup (places v') /\
  (forall e, In e v' -> exists p d, e = EStore p d) /\
  (forall p, In p (places v') -> In p (places v)) /\
  (forall p e, In (EStore p e) v ->
     (exists e', In (EStore p e') v' /\ forall env, eval env e' = eval env e) \/
     (~ In p (places v') /\ forall env, eval env e = C0)).
Lemma in_places p (v : list expr) : In p (places v) <-> exists e, In (EStore p e) v.
Proof.
  unfold places. rewrite in_flat_map. split.
  - intros (e & He & Hp). destruct e; cbn in Hp; try contradiction. destruct Hp as [<-|[]]. eauto.
  - intros (e & He). exists (EStore p e). split; auto. now left.
Qed.
Lemma places_inj p v : NoDup (places v) -> forall e e', In (EStore p e) v -> In (EStore p e') v -> e = e'.
Proof.
  induction v as [|a v IH]; intros ND e e' A B; [destruct A|]. unfold places in ND. cbn [flat_map] in ND. fold (places v) in ND.
  destruct A as [->|A], B as [B|B].
  - congruence.
  - exfalso. cbn in ND. inversion ND as [|? ? N1 _]; subst. apply N1. apply in_places. eauto.
  - exfalso. subst a. cbn in ND. inversion ND as [|? ? N1 _]; subst. apply N1. apply in_places. eauto.
  - apply IH; auto. destruct a; cbn in ND; auto. now inversion ND.
Qed.
Lemma keeps_trans a b c : keeps a b -> keeps b c -> keeps a c.
Proof.
  intros (N1 & S1 & P1 & K1) (N2 & S2 & P2 & K2). split; [exact N2|]. split; [exact S2|]. split; [auto|]. intros p e He.
  destruct (K1 p e He) as [(e' & He' & V)|[Np V]].
  - destruct (K2 p e' He') as [(e'' & He'' & V')|[Np V']].
    + left. exists e''. split; auto. intros env. now rewrite V'.
    + right. split; auto. intros env. now rewrite <- V.
  - right. split; auto.
Qed.
Lemma places_rel l l' : (forall r, In r l -> exists v a, r = EStore v a) -> Forall2 rel l l' -> places l' = places l /\
  (forall e, In e l' -> exists p d, e = EStore p d) /\ (forall p e, In (EStore p e) l -> exists e', In (EStore p e') l' /\ forall env, eval env e' = eval env e).
Proof.
  intros S F. induction F as [|a b la lb [E1 E2] F IH].
  - split; [reflexivity|]. split; intros; contradiction.
  - destruct (S a (or_introl eq_refl)) as (v & x & ->). destruct (E2 v x eq_refl) as (x' & ->). destruct IH as (I1 & I2 & I3); [intros r Hr; apply S; now right|].
    split; [|split].
    + unfold places in *. cbn. now rewrite I1.
    + intros e [<-|He]; eauto.
    + intros p e [Q|He].
      * injection Q as <- <-. exists x'. split; [now left|]. intros env. symmetry. apply (E1 env).
      * destruct (I3 p e He) as (e' & He' & V). exists e'. split; [now right|auto].
Qed.
(** one value from the bilinear form *)
Definition unit_at (p : variable) (env : variable -> C) : variable -> C :=
  fun v => if var_eq_dec v p then C1 else if var_is_constant v then env v else C0.
Lemma form_unit p env v : NoDup (places v) -> (forall q, In q (places v) -> var_is_constant q = false) -> forall x, 
  (forall e, In (EStore p e) v -> form (unit_at p env) x v = eval x e) /\ (~ In p (places v) -> form (unit_at p env) x v = C0).
Proof.
  intros ND NC x. induction v as [|a v IH]; [split; [intros e []|reflexivity]|].
  unfold places in ND, NC. cbn [flat_map] in ND, NC. fold (places v) in ND, NC. unfold form in *. 
  assert (IH' := IH ltac:(destruct a; cbn in ND; auto; now inversion ND) ltac:(intros q Hq; apply NC; apply in_app_iff; now right)). clear IH. destruct IH' as [I1 I2].
  split.
  - intros e [->|He]; rewrite lsum_cons.
    + cbn in ND. inversion ND as [|? ? N1 _]; subst. rewrite I2 by exact N1. unfold unit_at at 1. destruct (var_eq_dec p p); [ring|congruence].
    + rewrite (I1 e He). destruct a as [| | | | | | | |q d]; try ring. cbn in ND. inversion ND as [|? ? N1 _]; subst.
      unfold unit_at at 1. destruct (var_eq_dec q p) as [->|Nq]; [exfalso; apply N1; apply in_places; eauto|]. rewrite (NC q) by (now left). ring.
  - intros Np. unfold places in Np. cbn [flat_map] in Np. fold (places v) in Np. rewrite in_app_iff in Np. rewrite lsum_cons, I2 by tauto.
    destruct a as [| | | | | | | |q d]; try ring. unfold unit_at at 1. destruct (var_eq_dec q p) as [->|Nq]; [exfalso; apply Np; left; now left|]. rewrite (NC q) by (now left). ring.
Qed.
Lemma form_rel w x l l' : (forall r, In r l -> exists v a, r = EStore v a) -> Forall2 rel l l' -> form w x l' = form w x l.
Proof.
  intros S F. unfold form. induction F as [|a b la lb [E1 E2] F IH]; [reflexivity|]. destruct (S a (or_introl eq_refl)) as (v & y & ->). destruct (E2 v y eq_refl) as (y' & ->).
  rewrite !lsum_cons, IH by (intros r Hr; apply S; now right). f_equal. f_equal. symmetry. exact (E1 x).
Qed.

(** ** A run of the simplification loop, algsimp.ml:561-579 *)
(** AlgSimp.algsimp (C48) *)
Definition simplifies (v v' : list expr) : Prop := exists Or Mg fuel s,
  sound_oracles Or Mg /\ algsimp Or Mg fuel v = Some (v', s) /\ bad s = false.
(** Transpose.transpose of the expressions [v], whatever the sharing of their nodes is, as long
    as the dag is well formed *)
Definition transposes (v v' : list expr) : Prop := exists pheq H roots fuel,
  sound_eq pheq /\ dag_ok H roots /\ dag H roots = v /\ transpose pheq H fuel roots = Some v'.
(** one round of simplification_loop *)
Inductive round (v v4 : list expr) : Prop :=
| round_intro v1 v2 v3 : transposes v v1 -> simplifies v1 v2 -> transposes v2 v3 -> simplifies v3 v4 -> round v v4.
(** the loop: one or more rounds (Stats.complexity, which decides when to stop, is not modelled) *)
Inductive rounds : list expr -> list expr -> Prop :=
| rounds_one v v' : round v v' -> rounds v v'
| rounds_more v v' v'' : round v v' -> rounds v' v'' -> rounds v v''.
(** algsimp, with and without -no-network-transposition *)
Inductive optimizes (v v' : list expr) : Prop :=
| opt_plain : simplifies v v' -> optimizes v v'
| opt_loop u : simplifies v u -> rounds u v' -> optimizes v v'.

Lemma dag_stores H roots : dag_ok H roots -> forall e, In e (dag H roots) -> exists v a, e = EStore v a.
Proof.
  intros K e He. apply in_map_iff in He. destruct He as (r & <- & Hr). destruct (ok_lin _ _ K r Hr) as (v & x & E & _).
  rewrite (tree_eq H (ok_acyclic _ _ K) r), E. eauto.
Qed.
Lemma dag_nonconst_place H roots : dag_ok H roots -> forall p, In p (places (dag H roots)) -> var_is_constant p = false.
Proof.
  intros K p Hp. apply in_places in Hp. destruct Hp as (e & He). apply in_map_iff in He. destruct He as (r & E & Hr). destruct (ok_lin _ _ K r Hr) as (v & x & Er & _).
  rewrite (tree_eq H (ok_acyclic _ _ K) r), Er in E. injection E as <- _. eapply ok_place; eauto.
Qed.
(** One round: each place keeps its value; a place is dropped only if its value is 0 for all inputs;
    in particular nothing is stored at a place whose expression loads nothing *)
Theorem C49_round v v4 : NoDup (places v) -> round v v4 ->
  keeps v v4 /\ (forall p e, In (EStore p e) v -> nonconst e = false -> ~ In p (places v4)).
Proof.
  intros ND [v1 v2 v3 (pheq & H & roots & fuel & Hp & K & <- & T) (Or & Mg & f & s & HO & A & B) (pheq' & H' & roots' & fuel' & Hp' & K' & Ev2 & T') (Or' & Mg' & f' & s' & HO' & A' & B')].
  destruct (C49_transpose pheq H roots Hp K) as [_ T1]. destruct (T1 fuel v1 T) as (S1 & N1 & P1 & F1 & O1). clear T1 T.
  destruct (C49_transpose pheq' H' roots' Hp' K') as [_ T2]. destruct (T2 fuel' v3 T') as (S3 & N3 & P3 & F3 & _). clear T2 T'. rewrite Ev2 in *.
  assert (R1 := algsimp_ok Or Mg HO f v1 v2 s A B). assert (R3 := algsimp_ok Or' Mg' HO' f' v3 v4 s' A' B').
  destruct (places_rel v3 v4 S3 R3) as (Q1 & Q2 & Q3).
  assert (PN : forall p, In p (places v4) -> exists e, In (EStore p e) (dag H roots) /\ nonconst e = true).
  { intros p Hp4. rewrite Q1 in Hp4. apply P3 in Hp4. destruct Hp4 as (Cp & O). destruct (algsimp_occurs _ _ _ _ _ _ p A O) as (r & Hr & O'). apply O1; eauto. }
  assert (FF : forall w x, same_consts w x -> form w x (dag H roots) = form w x v3).
  { intros w x SC. rewrite (F1 w x SC), <- (form_rel x w v1 v2 S1 R1). apply F3. intros u Hu. symmetry. now apply SC. }
  assert (NCd := dag_nonconst_place H roots K). assert (NC3 : forall q, In q (places v3) -> var_is_constant q = false) by (intros q Hq; now apply P3 in Hq).
  assert (SU : forall p env, var_is_constant p = false -> same_consts (unit_at p env) env).
  { intros p env Cp u Cu. unfold unit_at. destruct (var_eq_dec u p); [congruence|]. now rewrite Cu. }
  split; [split; [|split; [|split]]|].
  - rewrite Q1. exact N3.
  - exact Q2.
  - intros p Hp4. destruct (PN p Hp4) as (e & He & _). apply in_places. eauto.
  - intros p e He. assert (Cp : var_is_constant p = false) by (apply NCd, in_places; eauto).
    assert (Val : forall env, eval env e = form (unit_at p env) env v3).
    { intros env. rewrite <- FF by now apply SU. symmetry. now apply (form_unit p env _ ND NCd env). }
    destruct (in_dec var_eq_dec p (places v3)) as [In3|Out3].
    + left. apply in_places in In3. destruct In3 as (e3 & He3). destruct (Q3 p e3 He3) as (e4 & He4 & V4). exists e4. split; auto. intros env. rewrite V4, Val. symmetry.
      now apply (form_unit p env _ N3 NC3 env).
    + right. split; [now rewrite Q1|]. intros env. rewrite Val. now apply (form_unit p env _ N3 NC3 env).
  - intros p e He Ne Hp4. destruct (PN p Hp4) as (e' & He' & Ne'). rewrite (places_inj p _ ND e e' He He') in Ne. congruence.
Qed.
Lemma simplifies_keeps v v' : all_stores v -> NoDup (places v) -> simplifies v v' -> keeps v v' /\ places v' = places v.
Proof.
  intros S ND (Or & Mg & f & s & HO & A & B). destruct (places_rel v v' S (algsimp_ok Or Mg HO f v v' s A B)) as (Q1 & Q2 & Q3).
  split; [|exact Q1]. split; [now rewrite Q1|]. split; [exact Q2|]. split; [now rewrite Q1|]. intros p e He. left. now apply Q3.
Qed.
Lemma rounds_keeps v v' : rounds v v' -> NoDup (places v) -> keeps v v'.
Proof.
  induction 1 as [v v' R|v v' v'' R Rs IH]; intros ND.
  - now apply C49_round.
  - destruct (C49_round v v' ND R) as [K _]. eapply keeps_trans; [exact K|]. apply IH. apply K.
Qed.
(** ** The whole optimizer of expressions: every place keeps its value, except that stores of
    functions that are 0 for all inputs may be dropped *)
Theorem C49_algsimp v v' : all_stores v -> NoDup (places v) -> optimizes v v' -> keeps v v'.
Proof.
  intros S ND [A|u A R].
  - now apply simplifies_keeps.
  - destruct (simplifies_keeps v u S ND A) as [K _]. eapply keeps_trans; [exact K|]. apply rounds_keeps; auto. apply K.
Qed.
(** hence a codelet that computes a transform (C46, C47) still does *)
Theorem C49_computes v v' x l : optimizes v v' -> computes (Some v) x l -> NoDup (map fst l) ->
  (forall p a, In (p, a) l -> (exists e, In (EStore p e) v' /\ eval (real_env x) e = RtoC a) \/ (~ In p (places v') /\ a = 0%R)) /\
  (forall p, In p (places v') -> In p (map fst l)) /\ NoDup (places v').
Proof.
  intros O (d & E & V) ND. injection E as <-.
  assert (S : all_stores v).
  { intros r Hin. assert (Hin' := in_map (stored x) _ _ Hin). rewrite V in Hin'. apply in_map_iff in Hin'. destruct Hin' as (p & Hp & _). destruct r; cbn in Hp; try discriminate. eauto. }
  assert (P : places v = map fst l /\ forall p a, In (p, a) l -> exists e, In (EStore p e) v /\ eval (real_env x) e = RtoC a).
  { clear O ND. revert l V. induction v as [|r v IH]; intros [|[p a] l] V; try discriminate; [split; [reflexivity|intros ? ? []]|].
    cbn [map] in V. injection V as V1 V2. destruct (IH (fun q Hq => S q (or_intror Hq)) l V2) as [I1 I2].
    destruct (S r (or_introl eq_refl)) as (u & y & ->). cbn [stored fst snd] in V1. injection V1 as -> Vy. split.
    - unfold places in *. cbn. now rewrite I1.
    - intros q b [Q|Hin]; [injection Q as <- <-; exists y; split; [now left|exact Vy]|]. destruct (I2 q b Hin) as (e & He & Ve). exists e. split; [now right|auto]. }
  destruct P as [P1 P2]. rewrite <- P1 in ND. destruct (C49_algsimp v v' S ND O) as (K1 & K2 & K3 & K4).
  split; [|split; [now rewrite <- P1|exact K1]]. intros p a Hin. destruct (P2 p a Hin) as (e & He & Ve). destruct (K4 p e He) as [(e' & He' & V')|[Np Z]].
  - left. exists e'. split; auto. now rewrite V'.
  - right. split; auto. rewrite Z in Ve. unfold C0, RtoC in Ve. congruence.
Qed.

(** ** Examples *)
(** a butterfly with a twiddle factor, and a place that gets 0:
    o0 = a + W*b, o1 = a - W*b, o2 = 0 *)
Definition xa := Locative 0 0 0. Definition xb := Locative 0 0 1. Definition xw := Constant 1 0.
Definition y0 := Locative 2 2 0. Definition y1 := Locative 2 2 1. Definition y2 := Locative 2 2 2.
Definition ex_heap : heap := fun i => nth i [NLoad xa; NLoad xb; NLoad xw; NTimes 2 1; NPlus [0; 3]; NUminus 3; NPlus [0; 5]; NNum 0; NStore y0 4; NStore y1 6; NStore y2 7] NNaN.
Definition ex_roots := [8; 9; 10].
Example C49_ok : dag_ok ex_heap ex_roots.
Proof.
  split.
  - intros i c. unfold ex_heap. do 11 (destruct i as [|i]; [cbn; intuition lia|]). cbn. destruct i; intros [].
  - repeat constructor; cbn; intuition lia.
  - intros r [<-|[<-|[<-|[]]]].
    + exists y0, 4. split; [reflexivity|]. cbn. auto.
    + exists y1, 6. split; [reflexivity|]. cbn. auto.
    + exists y2, 7. split; [reflexivity|]. cbn. auto.
  - intros r v x [<-|[<-|[<-|[]]]] E; cbn in E; injection E as <- <-; reflexivity.
  - assert (K : forall n v, ex_heap n = NLoad v -> n = 0 /\ v = xa \/ n = 1 /\ v = xb \/ n = 2 /\ v = xw).
    { intros n v. unfold ex_heap. do 11 (destruct n as [|n]; [cbn; intros E; try discriminate; injection E as <-; tauto|]). cbn. destruct n; discriminate. }
    intros m n v _ _ E1 E2. apply K in E1, E2. unfold xa, xb, xw in *. destruct E1 as [[-> ->]|[[-> ->]|[-> ->]]], E2 as [[-> E]|[[-> E]|[-> E]]]; auto; discriminate.
Qed.
Example C49_run : transpose pheq0 ex_heap 20 ex_roots =
  Some [EStore xb (Times (ELoad xw) (Plus [Uminus (ELoad y1); ELoad y0])); EStore xa (Plus [ELoad y1; ELoad y0])].
Proof. cbv -[IZR]. reflexivity. Qed.
(** a round of the loop on y0 = W*a, y1 = -b, y2 = 0: the store of 0 is dropped *)
Definition rd1 : heap := fun i => nth i [NLoad xa; NLoad xb; NLoad xw; NTimes 2 0; NUminus 1; NNum 0; NStore y0 3; NStore y1 4; NStore y2 5] NNaN.
Definition rd2 : heap := fun i => nth i [NLoad y1; NLoad y0; NLoad xw; NUminus 0; NTimes 2 1; NStore xb 3; NStore xa 4] NNaN.
Definition v_in := [EStore y0 (Times (ELoad xw) (ELoad xa)); EStore y1 (Uminus (ELoad xb)); EStore y2 (Num 0)].
Definition v_mid := [EStore xb (Uminus (ELoad y1)); EStore xa (Times (ELoad xw) (ELoad y0))].
Definition v_out := [EStore y0 (Times (ELoad xw) (ELoad xa)); EStore y1 (Uminus (ELoad xb))].
Lemma simplifies_same v : match algsimp ex_or ex_set 6 v with Some (r, s) => (r, bad s) | None => ([], true) end = (v, false) -> simplifies v v.
Proof.
  intros E. exists ex_or, ex_set, 6. destruct (algsimp ex_or ex_set 6 v) as [[r s]|]; [|discriminate]. injection E as -> B. exists s. split; [apply ex_or_sound|]. auto.
Qed.
Example C49_round_instance : round v_in v_out /\ NoDup (places v_in).
Proof.
  split; [|repeat constructor; cbn; intuition discriminate].
  apply round_intro with (v1 := v_mid) (v2 := v_mid) (v3 := v_out).
  - exists pheq0, rd1, [6; 7; 8], 20. split; [exact pheq0_sound|]. split; [|split; [reflexivity|cbv -[IZR]; reflexivity]]. split.
    + intros i c. unfold rd1. do 9 (destruct i as [|i]; [cbn; intuition lia|]). cbn. destruct i; intros [].
    + repeat constructor; cbn; intuition lia.
    + intros r [<-|[<-|[<-|[]]]]; [exists y0, 3|exists y1, 4|exists y2, 5]; (split; [reflexivity|cbn; auto]).
    + intros r v x [<-|[<-|[<-|[]]]] E; cbn in E; injection E as <- <-; reflexivity.
    + assert (K : forall n v, rd1 n = NLoad v -> n = 0 /\ v = xa \/ n = 1 /\ v = xb \/ n = 2 /\ v = xw).
      { intros n v. unfold rd1. do 9 (destruct n as [|n]; [cbn; intros E; try discriminate; injection E as <-; tauto|]). cbn. destruct n; discriminate. }
      intros m n v _ _ E1 E2. apply K in E1, E2. unfold xa, xb, xw in *. destruct E1 as [[-> ->]|[[-> ->]|[-> ->]]], E2 as [[-> E]|[[-> E]|[-> E]]]; auto; discriminate.
  - apply simplifies_same. cbv -[IZR is_zero negative_num is_one is_mone Rplus Rmult Ropp Rminus Rdiv Req_EM_T]. reflexivity.
  - exists pheq0, rd2, [5; 6], 20. split; [exact pheq0_sound|]. split; [|split; [reflexivity|cbv -[IZR]; reflexivity]]. split.
    + intros i c. unfold rd2. do 7 (destruct i as [|i]; [cbn; intuition lia|]). cbn. destruct i; intros [].
    + repeat constructor; cbn; intuition lia.
    + intros r [<-|[<-|[]]]; [exists xb, 3|exists xa, 4]; (split; [reflexivity|cbn; auto]).
    + intros r v x [<-|[<-|[]]] E; cbn in E; injection E as <- <-; reflexivity.
    + assert (K : forall n v, rd2 n = NLoad v -> n = 0 /\ v = y1 \/ n = 1 /\ v = y0 \/ n = 2 /\ v = xw).
      { intros n v. unfold rd2. do 7 (destruct n as [|n]; [cbn; intros E; try discriminate; injection E as <-; tauto|]). cbn. destruct n; discriminate. }
      intros m n v _ _ E1 E2. apply K in E1, E2. unfold y0, y1, xw in *. destruct E1 as [[-> ->]|[[-> ->]|[-> ->]]], E2 as [[-> E]|[[-> E]|[-> E]]]; auto; discriminate.
  - apply simplifies_same. cbv -[IZR is_zero negative_num is_one is_mone Rplus Rmult Ropp Rminus Rdiv Req_EM_T]. reflexivity.
Qed.
(** ** The conditions are needed *)
(** a product with the constant on the right loses its term (the simplifier can make such
    products: it collects W*x + W*y to (x+y)*W) *)
Definition bad_heap : heap := fun i => nth i [NLoad xa; NLoad xw; NTimes 0 1; NStore y0 2] NNaN.
Theorem C49_right_constant_refuted : exists E, transpose pheq0 bad_heap 10 [3] = Some E /\
  exists w x, same_consts w x /\ form w x (dag bad_heap [3]) <> form x w E.
Proof.
  exists [EStore xa (Num 0)]. split; [cbv -[IZR]; reflexivity|]. exists (fun _ => C1), (fun _ => C1). split; [intros v _; reflexivity|].
  unfold form, lsum. cbn. intros E. apply (f_equal fst) in E. cbn in E. lra.
Qed.
(** two nodes that load the same variable give two stores to the same place *)
Definition dup_heap : heap := fun i => nth i [NLoad xa; NLoad xa; NPlus [0; 1]; NStore y0 2] NNaN.
Theorem C49_unshared_refuted : exists E, transpose pheq0 dup_heap 10 [3] = Some E /\ ~ NoDup (places E).
Proof.
  exists [EStore xa (ELoad y0); EStore xa (ELoad y0)]. split; [cbv -[IZR]; reflexivity|]. cbn. intros N. inversion N as [|? ? N1 _]; subst. apply N1. now left.
Qed.
Print Assumptions C49_transpose.
Print Assumptions C49_round.
Print Assumptions C49_algsimp.
Print Assumptions C49_computes.
Print Assumptions C49_right_constant_refuted.
Print Assumptions C49_unshared_refuted.
