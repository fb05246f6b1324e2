(** * C51: the scheduler of genfft loses no assignment and breaks no dependency, so a codelet may work in place *)
From Coq Require Import Reals ZArith List Bool Lia Permutation.
From Verif Require Import Cplx GenExpr GenCplx GenAlg GenAlgVars GenTrans GenTransProofs GenAlist GenExec GenAlistProofs PropGenalist GenSched GenSchedProofs.
Import ListNotations.
Open Scope nat_scope.

(** ** Execution in memory *)
Section Mem.
  Variable A : Type.
  Variable A_dec : forall p q : A, {p = q} + {p <> q}.
  Variable addr : variable -> A.
  Local Notation exec := (exec A A_dec addr).
  (** [view m]: the values of the variables in the memory [m] *)
  Definition view (m : A -> C) : variable -> C := fun w => m (addr w).
  Lemma run_at l env : NoDup (map fst l) -> (forall l1 v x l2, l = l1 ++ (v, x) :: l2 -> nostore x = true /\ forall w, In w (find_vars x) -> In w (map fst l) -> In w (map fst l1)) ->
    forall v x, In (v, x) l -> run l env v = eval (run l env) x.
  Proof.
    intros ND DU v x K. apply in_split in K. destruct K as (l1 & l2 & ->). destruct (DU l1 v x l2 eq_refl) as [Nx Dx].
    rewrite map_app in ND. cbn [map fst] in ND. apply NoDup_remove in ND. destruct ND as [ND Nv].
    assert (Later : forall w, ~ In w (map fst l2) -> run (l1 ++ (v, x) :: l2) env w = run1 (v, x) (run l1 env) w).
    { intros w Hw. rewrite run_app. change (run l2 (run1 (v, x) (run l1 env)) w = run1 (v, x) (run l1 env) w). revert Hw. generalize (run1 (v, x) (run l1 env)). clear.
      induction l2 as [|[u y] l2 IH]; intros e Hw; [reflexivity|]. cbn [map fst In] in Hw. change (run l2 (run1 (u, y) e) w = e w). rewrite IH by tauto. unfold run1. cbn [fst]. destruct (var_eq_dec w u); [subst; tauto|reflexivity]. }
    rewrite Later by (intros K; apply Nv, in_app_iff; auto). unfold run1. cbn [fst snd]. destruct (var_eq_dec v v) as [_|]; [|congruence].
    apply eval_vars; auto. intros w Hw.
    assert (Hl2 : ~ In w (map fst l2)).
    { intros K. assert (K1 : In w (map fst l1)) by (apply Dx; auto; rewrite map_app, in_app_iff; cbn; auto).
      revert ND K K1. clear. induction l1 as [|a l1 IH]; cbn [map app In]; intros ND K K1; [destruct K1|]. inversion ND; subst. destruct K1 as [<-|K1]; [apply H1, in_app_iff; auto|auto]. }
    rewrite Later by exact Hl2. unfold run1. cbn [fst]. destruct (var_eq_dec w v) as [->|]; [|reflexivity].
    exfalso. assert (K1 : In v (map fst l1)) by (apply Dx; auto; rewrite map_app, in_app_iff; cbn; auto). apply Nv. apply in_app_iff. auto.
  Qed.
  Theorem exec_ordered l l' m :
    NoDup (map fst l) ->
    (forall l1 v x l2, l = l1 ++ (v, x) :: l2 -> nostore x = true /\ forall w, In w (find_vars x) -> In w (map fst l) -> In w (map fst l1)) ->
    (forall v w, In v (map fst l) -> In w (map fst l) -> addr v = addr w -> v = w) ->
    (forall v u x w, In v (map fst l) -> In (u, x) l -> In w (find_vars x) -> addr v = addr w -> v = w \/ same_location v w = true) ->
    Permutation l' l -> ordered l' ->
    (forall v, In v (map fst l) -> exec l' m (addr v) = run l (view m) v) /\
    (forall p, (forall v, In v (map fst l) -> addr v <> p) -> exec l' m p = m p).
  Proof.
    intros ND DU Inj Sep P O. assert (RA := run_at l (view m) ND DU).
    assert (Out : forall v, ~ In v (map fst l) -> run l (view m) v = m (addr v)).
    { clear. intros v. change (m (addr v)) with (view m v). generalize (view m). induction l as [|[u y] l IH]; intros e Hw; [reflexivity|]. cbn [map fst In] in Hw. change (run l (run1 (u, y) e) v = e v). rewrite IH by tauto. unfold run1. cbn [fst]. destruct (var_eq_dec v u); [subst; tauto|reflexivity]. }
    assert (ND' : NoDup (map fst l')) by (eapply Permutation_NoDup; [apply Permutation_map, Permutation_sym; eauto|auto]).
    (* the memory after a prefix of l' *)
    assert (G : forall p q, l' = p ++ q ->
      (forall v, In v (map fst p) -> exec p m (addr v) = run l (view m) v) /\ (forall c, (forall v, In v (map fst p) -> addr v <> c) -> exec p m c = m c)).
    { induction p as [|[v x] p IH] using rev_ind; intros q E; [split; [intros v []|auto]|].
      rewrite <- app_assoc in E. cbn [app] in E. destruct (IH _ E) as [IH1 IH2]. unfold GenExec.exec in *. rewrite fold_left_app. cbn [fold_left].
      fold (GenExec.exec A A_dec addr p m) in *. set (m1 := GenExec.exec A A_dec addr p m) in *.
      assert (Pin : forall a, In a p -> In a l) by (intros a Ha; apply (Permutation_in a P); rewrite E; apply in_app_iff; auto).
      assert (Pfst : forall w, In w (map fst p) -> In w (map fst l)) by (intros w Hw; apply in_map_iff in Hw; destruct Hw as (a & <- & Ha); apply in_map; auto).
      assert (Hvx : In (v, x) l) by (apply (Permutation_in _ P); rewrite E; apply in_app_iff; right; now left).
      assert (Hv : In v (map fst l)) by (apply (in_map fst) in Hvx; exact Hvx).
      assert (Nx : nostore x = true /\ ~ In v (find_vars x)).
      { apply in_split in Hvx. destruct Hvx as (l1 & l2 & El). destruct (DU _ _ _ _ El) as [N D]. split; auto. intros K. specialize (D v K Hv). rewrite El, map_app in ND. cbn [map fst] in ND. apply NoDup_remove in ND. destruct ND as [_ ND]. apply ND, in_app_iff. auto. }
      destruct Nx as [Nx Nvx].
      assert (Val : eval (fun w => m1 (addr w)) x = run l (view m) v).
      { rewrite (RA v x Hvx). apply eval_vars; auto. intros w Hw. rewrite E in O. apply FOP_app_inv in O. destruct O as (_ & O2 & O3). assert (Ov : Forall (fun b => depends_on b (v, x) = false) q) by (clear - O2; inversion O2; auto).
        destruct (in_dec var_eq_dec w (map fst l)) as [Iw|Nw].
        - assert (Ip : In w (map fst p)).
          { apply in_map_iff in Iw. destruct Iw as ((w' & y) & Ew & Iw). cbn [fst] in Ew. subst w'. apply (Permutation_in _ (Permutation_sym P)) in Iw. rewrite E in Iw. apply in_app_iff in Iw.
            destruct Iw as [Iw|[Iw|Iw]]; [apply (in_map fst) in Iw; exact Iw|congruence|]. exfalso. rewrite Forall_forall in Ov. specialize (Ov _ Iw). unfold depends_on in Ov. apply orb_false_iff in Ov. destruct Ov as [Ov _].
            unfold node_uses in Ov. cbn [fst snd] in Ov. assert (T : existsb (same w) (find_vars x) = true) by (apply existsb_exists; exists w; split; auto; unfold same; destruct (var_eq_dec w w); congruence). congruence. }
          now apply IH1.
        - rewrite Out by exact Nw. apply IH2. intros u Hu Eu. destruct (Sep u v x w (Pfst u Hu) Hvx Hw Eu) as [->|Sl]; [apply Nw; auto|].
          apply in_map_iff in Hu. destruct Hu as ((u' & y) & Eu' & Hu). cbn [fst] in Eu'. subst u'. specialize (O3 _ (v, x) Hu (or_introl eq_refl)). unfold depends_on in O3. apply orb_false_iff in O3. destruct O3 as [_ O3].
          unfold node_clobbers in O3. cbn [fst snd] in O3. assert (T : existsb (same_location u) (find_vars x) = true) by (apply existsb_exists; eauto). congruence. }
      split.
      - intros u Hu. rewrite map_app, in_app_iff in Hu. cbn [map fst In] in Hu. unfold exec1. cbn [fst snd]. destruct (A_dec (addr u) (addr v)) as [Ea|Na].
        + destruct Hu as [Hu|[<-|[]]]; [|exact Val]. assert (u = v) by (apply Inj; auto). subst u. exact Val.
        + destruct Hu as [Hu|[<-|[]]]; [now apply IH1|congruence].
      - intros c Hc. unfold exec1. cbn [fst snd]. destruct (A_dec c (addr v)) as [->|Nc].
        + exfalso. apply (Hc v); auto. rewrite map_app, in_app_iff. right. now left.
        + apply IH2. intros u Hu. apply Hc. rewrite map_app, in_app_iff. auto. }
    destruct (G l' [] (eq_sym (app_nil_r l'))) as [G1 G2]. assert (Pm := Permutation_map fst P). split.
    - intros v Hv. apply G1. apply (Permutation_in _ (Permutation_sym Pm) Hv).
    - intros c Hc. apply G2. intros v Hv. apply Hc. apply (Permutation_in _ Pm Hv).
  Qed.
End Mem.

(** ** Specification *)
(** Where the variables of a codelet are in memory: what it stores goes to different cells; a cell that is
    loaded and stored is the same location for genfft (Locative with one location: iloc and oloc of an in-place
    codelet); its new temporaries are in cells of their own *)
Record memory_ok {A} (addr : variable -> A) (tmp : Z) (H : heap) (roots : list nat) : Prop := {
  mo_stores : forall v w, dag_stores H roots v -> dag_stores H roots w -> addr v = addr w -> v = w;
  mo_inplace : forall v w, dag_stores H roots v -> dag_loads H roots w -> addr v = addr w -> same_location v w = true;
  mo_temps : forall v w, new_temporary tmp v -> new_temporary tmp w \/ dag_stores H roots w \/ dag_loads H roots w -> addr v = addr w -> v = w
}.
(** The instructions [l'] compute in memory what the dag means: each stored element gets the value of its
    expression in the memory at the start, and nothing but stored elements and temporaries changes *)
Definition computes_dag {A} (A_dec : forall p q : A, {p = q} + {p <> q}) (addr : variable -> A) (tmp : Z) (H : heap) (roots : list nat) (l' : list assignment) : Prop :=
  forall m,
    (forall r v y, In r roots -> H r = NStore v y -> exec A A_dec addr l' m (addr v) = eval (fun w => m (addr w)) (tree H y)) /\
    (forall p, (forall v, dag_stores H roots v \/ new_temporary tmp v -> addr v <> p) -> exec A A_dec addr l' m p = m p).
(** the instruction lists a scheduler may emit for [l] *)
Definition orders (s : sched) (l : list assignment) : Prop :=
  (exists l', lin s l') /\ forall l', lin s l' -> Permutation l' l /\ ordered l'.

(** ** Proofs *)
Fixpoint sched_ind' (P : sched -> Prop) (pd : P Done) (pi : forall a, P (Instr a)) (ps : forall a b, P a -> P b -> P (Seq a b)) (pp : forall l, Forall P l -> P (Par l)) (s : sched) : P s :=
  match s with
  | Done => pd
  | Instr a => pi a
  | Seq a b => ps a b (sched_ind' P pd pi ps pp a) (sched_ind' P pd pi ps pp b)
  | Par l => pp l ((fix go l : Forall P l := match l with [] => Forall_nil P | a :: l => Forall_cons a (sched_ind' P pd pi ps pp a) (go l) end) l)
  end.
Lemma lin_ex s : exists l', lin s l'.
Proof.
  induction s as [|a|a b (la & Ha) (lb & Hb)|l F] using sched_ind'.
  - exists []. constructor.
  - exists [a]. constructor.
  - exists (la ++ lb). now constructor.
  - assert (G : exists ls, Forall2 lin l ls).
    { induction F as [|a l (la & Ha) F (ls & IH)]; [exists []; constructor|exists (la :: ls); now constructor]. }
    destruct G as (ls & G). exists (concat ls). econstructor; [apply Permutation_refl|exact G].
Qed.

(** *** Any acyclic list of assignments *)
Theorem C51_order Ms (rank : assignment -> nat) l : ranked rank l -> length l <= N.to_nat 100000 -> schedule_type Ms <> 1%Z ->
  (exists fuel s t, schedule Ms fuel l = Some s /\ isolate_precomputations_and_schedule Ms fuel l = Some t) /\
  (forall fuel s, schedule Ms fuel l = Some s -> orders s l) /\
  (forall fuel s, isolate_precomputations_and_schedule Ms fuel l = Some s -> orders s l).
Proof.
  intros R L Ty. assert (F : fine Ms rank l) by (split; [exact R|split; [exact L|now left]]). split; [|split].
  - destruct (schedule_total Ms rank _ l (Nat.lt_succ_diag_r _) F) as (f1 & s & E1). destruct (isolate_total Ms rank l F) as (f2 & t & E2).
    exists (f1 + f2), s, t. split; [apply (schedule_mono Ms f1); auto; lia|].
    unfold isolate_precomputations_and_schedule in *. destruct (partition_precomputations l f2) as [[a b]|] eqn:Ep; [|discriminate].
    assert (Ep' : partition_precomputations l (f1 + f2) = Some (a, b)).
    { unfold partition_precomputations in *. destruct (loopp l f2 _) eqn:El; [|discriminate]. rewrite (loopp_mono l f2 (f1 + f2) _ _ ltac:(lia) El). exact Ep. }
    rewrite Ep'. unfold schedule in *. destruct (schedule_alist Ms f2 a) as [s1|] eqn:E3; [|discriminate]. destruct (schedule_alist Ms f2 b) as [s2|] eqn:E4; [|discriminate].
    now rewrite (schedule_mono Ms f2 (f1 + f2) _ _ ltac:(lia) E3), (schedule_mono Ms f2 (f1 + f2) _ _ ltac:(lia) E4).
  - intros f s E. split; [apply lin_ex|]. exact (schedule_ok Ms rank f l s E F).
  - intros f s E. split; [apply lin_ex|]. exact (isolate_ok Ms rank f l s E F).
Qed.

(** *** The list of a codelet *)
Section Codelet.
  Variables (Mg : amagic) (tmp : Z) (H : heap) (roots : list nat) (fuel0 : nat) (l : list assignment).
  Hypothesis OK : codelet_ok tmp H roots.
  Hypothesis Lr : forall r, In r roots -> r < fuel0.
  Hypothesis NL : inline_loads Mg = false.
  Hypothesis NB : generate_bytw Mg = true -> forall n a b v, H n = NCTimes a b \/ H n = NCTimesJ a b -> H a = NLoad v -> is_locative v = false.
  Hypothesis E : to_assignments Mg H fuel0 tmp roots = Some l.
  Lemma codelet_ssa : single_assignment tmp H roots l.
  Proof. destruct (C50_alist Mg tmp H roots fuel0 OK Lr) as (l' & E' & S & _). rewrite E in E'. injection E' as ->. exact S. Qed.
  Lemma codelet_run env r v y : In r roots -> H r = NStore v y -> In v (map fst l) /\ run l env v = eval env (tree H y).
  Proof. destruct (C50_alist Mg tmp H roots fuel0 OK Lr) as (l' & E' & _ & V & _). rewrite E in E'. injection E' as ->. apply V. Qed.
  (** the position of the assignment of a variable *)
  Fixpoint idx (v : variable) (k : list assignment) : nat :=
    match k with [] => 0 | a :: k => if var_eq_dec v (fst a) then 0 else S (idx v k) end.
  Lemma idx_lt v k : In v (map fst k) -> idx v k < length k.
  Proof. clear. induction k as [|a k IH]; cbn; [tauto|]. intros [<-|Hv]; destruct (var_eq_dec _ _); try lia; try congruence. specialize (IH Hv). lia. Qed.
  Lemma idx_app v k k' : In v (map fst k) -> idx v (k ++ k') = idx v k.
  Proof. clear. induction k as [|a k IH]; cbn; [tauto|]. intros Hv. destruct (var_eq_dec v (fst a)) as [|N]; auto. rewrite IH; auto. destruct Hv; congruence. Qed.
  Lemma idx_new v x k k' : ~ In v (map fst k) -> idx v (k ++ (v, x) :: k') = length k.
  Proof. clear. induction k as [|a k IH]; cbn; intros Hv. - destruct (var_eq_dec v v); congruence. - destruct (var_eq_dec v (fst a)) as [->|N]; [tauto|]. rewrite IH; tauto. Qed.
  (** temporaries in the order of the list, then the stores *)
  Definition codelet_rank (a : assignment) : nat := match fst a with Temporary _ => idx (fst a) l | _ => length l end.
  Lemma same_true a b : same a b = true -> a = b.
  Proof. unfold same. destruct (var_eq_dec a b); congruence. Qed.
  Lemma codelet_ranked : (forall r v y, In r roots -> H r = NStore v y -> is_temporary v = false) -> ranked codelet_rank l.
  Proof.
    intros ST. destruct codelet_ssa as [ND DU]. intros (v, x) (u, y) Ha Hb D. unfold codelet_rank. cbn [fst].
    assert (Stored : forall w, dag_stores H roots w -> is_temporary w = false) by (intros w (r & z & Hr & Er); eauto).
    unfold depends_on in D. apply orb_true_iff in D. destruct D as [D|D].
    - unfold node_uses in D. cbn [fst snd] in D. apply existsb_exists in D. destruct D as (w & Hw & Ew). apply same_true in Ew. subst w.
      apply in_split in Hb. destruct Hb as (l1 & l2 & El). destruct (DU _ _ _ _ El) as (Ku & _ & Dy).
      destruct (Dy v Hw) as [Lv|[(k & -> & Lk) Iv]].
      + exfalso. apply in_split in Ha. destruct Ha as (m1 & m2 & Em). destruct (DU _ _ _ _ Em) as (Kv & _). destruct Kv as [Kv|Kv]; [apply (co_old _ _ _ OK v); auto|apply (co_disj _ _ _ OK v); auto].
      + assert (Lt : idx (Temporary k) l < length l1) by (rewrite El, idx_app by auto; now apply idx_lt).
        destruct u as [j| |]; try (rewrite El, app_length; cbn [length]; rewrite El in Lt; lia).
        assert (Nu : ~ In (Temporary j) (map fst l1)) by (rewrite El, map_app in ND; cbn [map fst] in ND; apply NoDup_remove in ND; destruct ND as [_ ND]; intros K; apply ND, in_app_iff; auto).
        replace (idx (Temporary j) l) with (length l1) by (rewrite El; symmetry; now apply idx_new). exact Lt.
    - unfold node_clobbers in D. cbn [fst snd] in D. apply existsb_exists in D. destruct D as (w & Hw & Ew).
      destruct u as [| lu cu iu|]; try discriminate. destruct w as [|lw cw iw|]; try discriminate.
      destruct (C50_loads Mg tmp H roots fuel0 l OK Lr NL NB E v x (Locative lw cw iw) Ha Hw eq_refl) as [_ (k & -> & _)].
      apply idx_lt. apply (in_map fst) in Ha. exact Ha.
  Qed.
  Variable A : Type.
  Variable A_dec : forall p q : A, {p = q} + {p <> q}.
  Variable addr : variable -> A.
  Hypothesis MO : memory_ok addr tmp H roots.
  Lemma codelet_exec l' : Permutation l' l -> ordered l' -> computes_dag A_dec addr tmp H roots l'.
  Proof.
    intros P O m. destruct codelet_ssa as [ND DU].
    assert (Kind : forall v, In v (map fst l) -> new_temporary tmp v \/ dag_stores H roots v).
    { intros v Hv. apply in_map_iff in Hv. destruct Hv as ((v' & x) & <- & Hv). apply in_split in Hv. destruct Hv as (l1 & l2 & El). apply (DU _ _ _ _ El). }
    destruct (exec_ordered A A_dec addr l l' m ND) as [X1 X2]; auto.
    - intros l1 v x l2 El. destruct (DU _ _ _ _ El) as (_ & Nx & Dx). split; auto. intros w Hw Iw. destruct (Dx w Hw) as [Lw|[_ Iw']]; auto.
      exfalso. destruct (Kind w Iw); [apply (co_old _ _ _ OK w); auto|apply (co_disj _ _ _ OK w); auto].
    - intros v w Hv Hw Ea. destruct (Kind v Hv) as [Kv|Kv], (Kind w Hw) as [Kw|Kw].
      + apply (mo_temps _ _ _ _ MO); auto.
      + apply (mo_temps _ _ _ _ MO); auto.
      + symmetry. apply (mo_temps _ _ _ _ MO); auto.
      + apply (mo_stores _ _ _ _ MO); auto.
    - intros v u x w Hv Hux Hw Ea. apply in_split in Hux. destruct Hux as (l1 & l2 & El). destruct (DU _ _ _ _ El) as (_ & _ & Dx).
      destruct (Dx w Hw) as [Lw|[Tw _]], (Kind v Hv) as [Kv|Kv].
      + left. apply (mo_temps _ _ _ _ MO); auto.
      + right. apply (mo_inplace _ _ _ _ MO); auto.
      + left. apply (mo_temps _ _ _ _ MO); auto.
      + left. symmetry. apply (mo_temps _ _ _ _ MO); auto.
    - split.
      + intros r v y Hr Er. destruct (codelet_run (view A addr m) r v y Hr Er) as [Iv V]. rewrite X1 by exact Iv. exact V.
      + intros p Hp. apply X2. intros v Hv. apply Hp. destruct (Kind v Hv); auto.
  Qed.
End Codelet.

(** *** A codelet in memory, in place or not: whatever order the scheduler chooses, the instructions compute the dag *)
Theorem C51_codelet Mg Ms tmp H roots fuel0 l {A} (A_dec : forall p q : A, {p = q} + {p <> q}) addr :
  codelet_ok tmp H roots -> (forall r, In r roots -> r < fuel0) ->
  inline_loads Mg = false ->
  (generate_bytw Mg = true -> forall n a b v, H n = NCTimes a b \/ H n = NCTimesJ a b -> H a = NLoad v -> is_locative v = false) ->
  (forall r v y, In r roots -> H r = NStore v y -> is_temporary v = false) ->
  to_assignments Mg H fuel0 tmp roots = Some l ->
  length l <= N.to_nat 100000 -> schedule_type Ms <> 1%Z -> memory_ok addr tmp H roots ->
  (exists fuel s t, schedule Ms fuel l = Some s /\ isolate_precomputations_and_schedule Ms fuel l = Some t) /\
  (forall fuel s, schedule Ms fuel l = Some s \/ isolate_precomputations_and_schedule Ms fuel l = Some s ->
    orders s l /\ forall l', lin s l' -> computes_dag A_dec addr tmp H roots l').
Proof.
  intros OK Lr NL NB ST E Len Ty MO.
  destruct (C51_order Ms (codelet_rank l) l) as (Ex & Os & Oi); auto.
  { eapply codelet_ranked; eauto. }
  split; [exact Ex|]. intros fuel s Hs. assert (Or : orders s l) by (destruct Hs; eauto). split; [exact Or|].
  intros l' Hl. destruct Or as [_ Or]. destruct (Or l' Hl). eapply codelet_exec; eauto.
Qed.

(** ** Examples *)
Definition sm t := {| schedule_type := t; locations_are_special := false |}.
(** the butterfly of C50, in place: i0 and o0 are cell 0, i1 and o1 are cell 1 *)
Definition bf_list : list assignment :=
  [(T 1, ELoad i0); (T 2, ELoad wv); (T 3, ELoad i1); (T 4, Times (L 2) (L 3)); (o0, Plus [L 1; L 4]); (o1, Plus [L 1; Uminus (L 4)])].
Definition bf_addr (v : variable) : Z := match v with Locative a _ _ => a | Constant _ _ => 2%Z | Temporary k => (2 + Z.max 1 k)%Z end.
Lemma bf_loads v : dag_loads bf_heap [7; 8] v -> v = i0 \/ v = i1 \/ v = wv.
Proof. intros (r & u & y & Hr & Er & O). destruct Hr as [<-|[<-|[]]]; cbn in Er; injection Er as <- <-; cbn in O; intuition. Qed.
Lemma bf_stores v : dag_stores bf_heap [7; 8] v -> v = o0 \/ v = o1.
Proof. intros (r & y & Hr & Er). destruct Hr as [<-|[<-|[]]]; cbn in Er; injection Er as <- <-; auto. Qed.
Lemma bf_memory : memory_ok bf_addr 0 bf_heap [7; 8].
Proof.
  constructor.
  - intros v w Hv Hw. apply bf_stores in Hv, Hw. destruct Hv as [->| ->], Hw as [->| ->]; cbn; congruence.
  - intros v w Hv Hw. apply bf_stores in Hv. apply bf_loads in Hw. destruct Hv as [->| ->], Hw as [->|[->| ->]]; cbn; congruence.
  - intros v w (k & -> & Lk) [(j & -> & Lj)|[Hw|Hw]] E.
    + unfold bf_addr in E. f_equal. lia.
    + apply bf_stores in Hw. destruct Hw as [->| ->]; unfold bf_addr, o0, o1 in E; lia.
    + apply bf_loads in Hw. destruct Hw as [->|[->| ->]]; unfold bf_addr, i0, i1, wv in E; lia.
Qed.
Example C51_butterfly_in_place : exists s, schedule (sm 0) 20 bf_list = Some s /\ forall l', lin s l' -> computes_dag Z.eq_dec bf_addr 0 bf_heap [7; 8] l'.
Proof.
  destruct (schedule (sm 0) 20 bf_list) as [s|] eqn:E; [|vm_compute in E; discriminate]. exists s. split; auto.
  eapply (C51_codelet magic0 (sm 0) 0 bf_heap [7; 8] 9 bf_list Z.eq_dec bf_addr).
  - exact C50_butterfly_ok.
  - intros r [<-|[<-|[]]]; lia.
  - reflexivity.
  - intros _ n a b v [K|K]; exfalso; destruct (bf_nodes n) as [Ln|En]; try (rewrite En in K; discriminate); do 9 (destruct n as [|n]; [discriminate K|]); lia.
  - intros r v y [<-|[<-|[]]]; cbn; intros [= <- _]; reflexivity.
  - exact C50_butterfly.
  - unfold bf_list; cbn [length]; lia.
  - discriminate.
  - exact bf_memory.
  - left. exact E.
Qed.
Print Assumptions C51_butterfly_in_place.
Example C51_butterfly_schedule : schedule (sm 0) 20 bf_list =
  Some (Seq (Par [Instr (T 1, ELoad i0); Seq (Instr (T 3, ELoad i1)) (Seq (Instr (T 2, ELoad wv)) (Instr (T 4, Times (L 2) (L 3))))])
            (Par [Instr (o0, Plus [L 1; L 4]); Instr (o1, Plus [L 1; Uminus (L 4)])])).
Proof. vm_compute. reflexivity. Qed.
(** with the loads of the twiddle factors first *)
Example C51_butterfly_isolated : isolate_precomputations_and_schedule (sm 0) 20 bf_list =
  Some (Seq (Instr (T 2, ELoad wv)) (Seq (Par [Instr (T 1, ELoad i0); Seq (Instr (T 3, ELoad i1)) (Instr (T 4, Times (L 2) (L 3)))])
            (Par [Instr (o0, Plus [L 1; L 4]); Instr (o1, Plus [L 1; Uminus (L 4)])]))).
Proof. vm_compute. reflexivity. Qed.

(** ** What is false *)
(** With schedule_type = 1 (the option -schedule-type 1) the load of a twiddle factor is lost: it is YELLOW at the
    end of partition, in neither half, and the instructions use a temporary that nothing assigns *)
Theorem C51_type1_refuted : exists s, schedule (sm 1) 20 bf_list = Some s /\ forall l', lin s l' -> ~ Permutation l' bf_list /\ ~ In (T 2, ELoad wv) l' /\ In (T 4, Times (L 2) (L 3)) l'.
Proof.
  set (s := Seq (Par [Instr (T 1, ELoad i0); Seq (Instr (T 3, ELoad i1)) (Instr (T 4, Times (L 2) (L 3)))])
            (Par [Instr (o0, Plus [L 1; L 4]); Instr (o1, Plus [L 1; Uminus (L 4)])])).
  exists s. split; [vm_compute; reflexivity|].
  assert (G : forall l', lin s l' -> Permutation l' [(T 1, ELoad i0); (T 3, ELoad i1); (T 4, Times (L 2) (L 3)); (o0, Plus [L 1; L 4]); (o1, Plus [L 1; Uminus (L 4)])]).
  { assert (I1 : forall a k, lin (Instr a) k -> k = [a]) by (intros a k K; inversion K; auto).
    assert (S1 : forall a b k, lin (Seq a b) k -> exists x y, k = x ++ y /\ lin a x /\ lin b y) by (intros a b k K; inversion K; subst; eauto).
    assert (P2 : forall a b k, lin (Par [a; b]) k -> exists x y, Permutation k (x ++ y) /\ lin a x /\ lin b y).
    { intros a b k K. inversion K as [| | |? l1 ls Hp F]; subst. apply Permutation_length_2_inv in Hp. destruct Hp as [->| ->].
      - inversion F as [|? x ? l2 Fx F2]; subst. inversion F2 as [|? y ? l3 Fy F3]; subst. inversion F3; subst. exists x, y. cbn. rewrite app_nil_r. auto.
      - inversion F as [|? x ? l2 Fx F2]; subst. inversion F2 as [|? y ? l3 Fy F3]; subst. inversion F3; subst. exists y, x. cbn. rewrite app_nil_r. split; auto. apply Permutation_app_comm. }
    intros l' K. apply S1 in K. destruct K as (x & y & -> & Hx & Hy). apply P2 in Hx. destruct Hx as (x1 & x2 & Px & Hx1 & Hx2). apply P2 in Hy. destruct Hy as (y1 & y2 & Py & Hy1 & Hy2).
    apply S1 in Hx2. destruct Hx2 as (x3 & x4 & -> & Hx3 & Hx4). apply I1 in Hx1, Hx3, Hx4, Hy1, Hy2. subst. rewrite Px, Py. reflexivity. }
  intros l' K. apply G in K. split; [|split].
  - intros P. rewrite K in P. apply Permutation_length in P. discriminate P.
  - intros N. apply (Permutation_in _ K) in N. cbn in N. repeat (destruct N as [N|N]; [discriminate N|]). exact N.
  - apply (Permutation_in _ (Permutation_sym K)). cbn. auto.
Qed.
(** If loads were inlined (the option -inline-loads), the dag that swaps two elements in place has no order: o0 := i1 must wait
    for o1 := i0 and conversely, the scheduler finds no input (Failure "connected") *)
Definition swap_heap : heap := fun i => nth i [NLoad i0; NLoad i1; NStore o0 1; NStore o1 0] NNaN.
Definition inline0 : amagic := {| inline_single := true; inline_loads := true; inline_loads_constants := false; inline_constants := true;
  trivial_stores := false; strength_reduce_mul := false; enable_fma := false; generate_bytw := true |}.
Theorem C51_inline_loads_refuted : exists l, to_assignments inline0 swap_heap 4 0 [2; 3] = Some l /\ forall fuel, schedule (sm 0) fuel l = None.
Proof.
  exists [(o0, ELoad i1); (o1, ELoad i0)]. split; [vm_compute; reflexivity|]. intros [|f]; [reflexivity|].
  assert (In0 : inputs [(o0, ELoad i1); (o1, ELoad i0)] = []) by (vm_compute; reflexivity). unfold schedule.
  rewrite schedule_eq by (unfold length; lia). revert In0. generalize [(o0, ELoad i1); (o1, ELoad i0)]. intros l In0.
  assert (Cc : connected_components (S f) l = None). { cbn [connected_components]. unfold cc. rewrite In0. reflexivity. }
  rewrite Cc. reflexivity.
Qed.
Definition swap_list : list assignment := [(T 1, ELoad i1); (o0, L 1); (T 2, ELoad i0); (o1, L 2)].
Example C51_swap_list : to_assignments magic0 swap_heap 4 0 [2; 3] = Some swap_list.
Proof. vm_compute. reflexivity. Qed.
(** in the scheduled order both loads are before both stores *)
Example C51_swap : schedule (sm 0) 20 swap_list =
  Some (Seq (Par [Instr (T 1, ELoad i1); Instr (T 2, ELoad i0)]) (Par [Instr (o0, L 1); Instr (o1, L 2)])).
Proof. vm_compute. reflexivity. Qed.

Print Assumptions C51_order.
Print Assumptions C51_codelet.
Print Assumptions C51_type1_refuted.
Print Assumptions C51_inline_loads_refuted.
