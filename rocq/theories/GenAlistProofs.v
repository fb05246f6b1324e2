(** * genfft: the assignment list of a dag computes what the dag computes *)
From Coq Require Import Reals ZArith List Bool Lia.
From Verif Require Import Cplx GenExpr GenCplx GenAlg GenAlgVars GenTrans GenTransProofs GenAlist GenExec.
Import ListNotations.
Open Scope nat_scope.

Section P.
  Variable Mg : amagic.
  Variable H : heap.
  Hypothesis AC : acyclic H.

  (** the nodes from which the expression of a node is made *)
  Definition kids (n : nat) : list nat :=
    match H n with
    | NPlus l => match children_fma Mg H l with None => l | Some (a, b, c) => [a; b; c] end
    | x => children x
    end.
  Definition fma_val (env : variable -> C) (f : fma) : option C :=
    match f with
    | NO_FMA => None
    | FMA a b c => Some (eval env (tree H a) + eval env (tree H b) * eval env (tree H c))%C
    | FMS a b c => Some (eval env (tree H b) * eval env (tree H c) - eval env (tree H a))%C
    | FNMS a b c => Some (eval env (tree H a) - eval env (tree H b) * eval env (tree H c))%C
    end.
  Definition below (n : nat) (k : nat) : Prop := exists c, In c (children (H n)) /\ (k = c \/ In k (children (H c)) \/ exists d, In d (children (H c)) /\ In k (children (H d))).
  Lemma as_times_eq n b c : as_times H n = Some (b, c) -> H n = NTimes b c.
  Proof. unfold as_times. destruct (H n); try discriminate. destruct (good_for_fma H a b0); congruence. Qed.
  Lemma as_uminus_eq n a : as_uminus H n = Some a -> H n = NUminus a.
  Proof. unfold as_uminus. destruct (H n); congruence. Qed.
  Lemma as_utimes_eq n b c : as_utimes H n = Some (b, c) -> exists t, H n = NUminus t /\ H t = NTimes b c.
  Proof. unfold as_utimes. destruct (as_uminus H n) as [t|] eqn:E; [|discriminate]. intros K. exists t. split; [now apply as_uminus_eq|now apply as_times_eq]. Qed.
  (** a description of the fma found: what is summed and where its arguments are *)
  Definition fma_ok (n : nat) (l : list nat) (f : fma) : Prop :=
    (forall env v, fma_val env f = Some v -> lsumE env (map (tree H) l) = v) /\
    (forall a b c, f = FMA a b c \/ f = FMS a b c \/ f = FNMS a b c -> below n a /\ below n b /\ below n c).
  Lemma build_fma_ok n l : H n = NPlus l -> fma_ok n l (build_fma Mg H l).
  Proof.
    intros Hn. unfold build_fma. destruct (negb (enable_fma Mg)); [split; [discriminate|intros ? ? ? [?|[?|?]]; discriminate]|].
    assert (N : fma_ok n l NO_FMA) by (split; [discriminate|intros ? ? ? [?|[?|?]]; discriminate]).
    destruct l as [|p [|q [|r l]]]; auto.
    assert (Bp : forall k, k = p \/ In k (children (H p)) \/ (exists d, In d (children (H p)) /\ In k (children (H d))) -> below n k) by (intros k K; exists p; rewrite Hn; cbn [children In]; auto).
    assert (Bq : forall k, k = q \/ In k (children (H q)) \/ (exists d, In d (children (H q)) /\ In k (children (H d))) -> below n k) by (intros k K; exists q; rewrite Hn; cbn [children In]; auto).
    destruct (as_utimes H q) as [[b c]|] eqn:E1.
    { apply as_utimes_eq in E1. destruct E1 as (t & Eq & Et). split.
      - intros env v [= <-]. cbn [map]. rewrite lsumE_two, (tree_eq H AC q), Eq, (tree_eq H AC t), Et. cbn [eval]. ring.
      - intros a0 b0 c0 [K|[K|K]]; inversion K; subst. repeat split; [apply Bp; auto|apply Bq|apply Bq]; right; right; exists t; rewrite Eq, Et; cbn; auto. }
    destruct (as_utimes H p) as [[b c]|] eqn:E2.
    { apply as_utimes_eq in E2. destruct E2 as (t & Eq & Et). split.
      - intros env v [= <-]. cbn [map]. rewrite lsumE_two, (tree_eq H AC p), Eq, (tree_eq H AC t), Et. cbn [eval]. ring.
      - intros a0 b0 c0 [K|[K|K]]; inversion K; subst. repeat split; [apply Bq; auto|apply Bp|apply Bp]; right; right; exists t; rewrite Eq, Et; cbn; auto. }
    assert (T5 : fma_ok n [p; q] (match as_times H q with Some (b, c) => FMA p b c | None => match as_times H p with Some (b, c) => FMA q b c | None => NO_FMA end end)).
    { destruct (as_times H q) as [[b c]|] eqn:E3.
      - apply as_times_eq in E3. split.
        + intros env v [= <-]. cbn [map]. rewrite lsumE_two, (tree_eq H AC q), E3. cbn [eval]. ring.
        + intros a0 b0 c0 [K|[K|K]]; inversion K; subst. repeat split; [apply Bp; auto|apply Bq|apply Bq]; right; left; rewrite E3; cbn; auto.
      - destruct (as_times H p) as [[b c]|] eqn:E4; auto. apply as_times_eq in E4. split.
        + intros env v [= <-]. cbn [map]. rewrite lsumE_two, (tree_eq H AC p), E4. cbn [eval]. ring.
        + intros a0 b0 c0 [K|[K|K]]; inversion K; subst. repeat split; [apply Bq; auto|apply Bp|apply Bp]; right; left; rewrite E4; cbn; auto. }
    assert (T4 : fma_ok n [p; q] (match as_times H p, as_uminus H q with Some (b, c), Some a => FMS a b c | _, _ =>
       match as_times H q with Some (b, c) => FMA p b c | None => match as_times H p with Some (b, c) => FMA q b c | None => NO_FMA end end end)).
    { destruct (as_times H p) as [[b c]|] eqn:E3; auto. destruct (as_uminus H q) as [a|] eqn:E4; auto. apply as_times_eq in E3. apply as_uminus_eq in E4. split.
      - intros env v [= <-]. cbn [map]. rewrite lsumE_two, (tree_eq H AC p), E3, (tree_eq H AC q), E4. cbn [eval]. ring.
      - intros a0 b0 c0 [K|[K|K]]; inversion K; subst. repeat split; [apply Bq|apply Bp|apply Bp]; right; left; rewrite ?E3, ?E4; cbn; auto. }
    destruct (as_uminus H p) as [a|] eqn:E3; auto. destruct (as_times H q) as [[b c]|] eqn:E4; auto. apply as_times_eq in E4. apply as_uminus_eq in E3. split.
    - intros env v [= <-]. cbn [map]. rewrite lsumE_two, (tree_eq H AC p), E3, (tree_eq H AC q), E4. cbn [eval]. ring.
    - intros a0 b0 c0 [K|[K|K]]; inversion K; subst. repeat split; [apply Bp|apply Bq|apply Bq]; right; left; rewrite ?E3, ?E4; cbn; auto.
  Qed.
  Lemma below_lt n k : below n k -> k < n.
  Proof. intros (c & Hc & K). apply AC in Hc. destruct K as [->|[K|(d & Hd & K)]]; auto; repeat match goal with X : In _ (children _) |- _ => apply AC in X end; lia. Qed.
  Lemma kids_below n k : In k (kids n) -> below n k.
  Proof.
    unfold kids. destruct (H n) as [a| |l|a b|a b|a b|a|v|v a] eqn:E; cbn [children]; try contradiction;
      try (intros K; exists k; rewrite E; cbn [children]; auto; fail).
    assert (B := build_fma_ok n l E). destruct B as [_ B]. unfold children_fma.
    destruct (build_fma Mg H l) as [|a b c|a b c|a b c] eqn:Ef; [intros K; exists k; rewrite E; cbn [children]; auto|..];
      (assert (K3 := B a b c); intros K; destruct K as [<-|[<-|[<-|[]]]]; tauto).
  Qed.
  Lemma kids_lt n k : In k (kids n) -> k < n.
  Proof. intros K. apply below_lt. now apply kids_below. Qed.

  (** ** The first visit *)
  Definition seen (t : ctable) (n : nat) : Prop := t n <> None.
  Definition closed (t : ctable) : Prop := forall n, seen t n -> forall c, In c (kids n) -> seen t c.
  Definition more (t t' : ctable) : Prop := forall n, seen t n -> seen t' n.
  Lemma visits_ok vis l : forall t, (forall n t, In n l -> closed t -> exists t', vis n t = Some t' /\ closed t' /\ more t t' /\ seen t' n) ->
    closed t -> exists t', visits vis l t = Some t' /\ closed t' /\ more t t' /\ (forall n, In n l -> seen t' n).
  Proof.
    induction l as [|x l IH]; intros t V Ct; cbn [visits].
    - exists t. repeat split; auto; [now intros n|now intros n].
    - destruct (V x t (or_introl eq_refl) Ct) as (t1 & -> & C1' & M1 & S1).
      destruct (IH t1) as (t2 & -> & C2 & M2 & S2); auto. { intros. apply V; auto. now right. }
      exists t2. repeat split; auto. { intros n Hn. auto. } intros n [<-|Hn]; auto.
  Qed.
  Lemma cinsert_seen n c t m : seen (cinsert n c t) m <-> m = n \/ seen t m.
  Proof. unfold seen, cinsert. destruct (Nat.eqb_spec m n); split; intros; auto; try congruence. destruct H0; congruence. Qed.
  Lemma visit_body_ok f n t : (forall k t, In k (kids n) -> closed t -> exists t', visitM Mg H f k t = Some t' /\ closed t' /\ more t t' /\ seen t' k) ->
    closed t -> exists t', visit_body Mg H (visitM Mg H f) n t = Some t' /\ closed t' /\ more t t' /\ forall k, In k (kids n) -> seen t' k.
  Proof.
    unfold visit_body, kids. intros V Ct.
    assert (G : forall l, (forall k, In k l -> In k (kids n)) -> (forall k, In k (kids n) -> In k l) ->
       exists t', visits (visitM Mg H f) l t = Some t' /\ closed t' /\ more t t' /\ forall k, In k (kids n) -> seen t' k).
    { intros l L1 L2. destruct (visits_ok (visitM Mg H f) l t) as (t' & A & B & D & E); auto. exists t'. repeat split; auto. }
    unfold kids in G. destruct (H n) as [a| |l|a b|a b|a b|a|v|v a]; cbn [children] in *;
      try (exists t; repeat split; auto; [now intros m|intros k []]; fail); try (apply G; auto; fail).
    destruct (children_fma Mg H l) as [[[a b] c]|]; apply G; auto; cbn [In]; tauto.
  Qed.
  Lemma visitM_ok f : forall n t, n < f -> closed t -> exists t', visitM Mg H f n t = Some t' /\ closed t' /\ more t t' /\ seen t' n.
  Proof.
    induction f as [|f IH]; intros n t L Ct; [lia|]. cbn [visitM].
    assert (B : forall m, m <= n -> exists t', visit_body Mg H (visitM Mg H f) m t = Some t' /\ closed t' /\ more t t' /\ forall k, In k (kids m) -> seen t' k).
    { intros m Lm. apply visit_body_ok; auto. intros k t0 Hk Ct0. apply IH; auto. apply kids_lt in Hk. lia. }
    assert (Ins : forall t' c, closed t' -> more t t' -> (forall k, In k (kids n) -> seen t' k) ->
       closed (cinsert n c t') /\ more t (cinsert n c t') /\ seen (cinsert n c t') n).
    { intros t' c C' M' K'. repeat split.
      - intros m Hm k Hk. apply cinsert_seen. right. apply cinsert_seen in Hm. destruct Hm as [->|Hm]; eauto.
      - intros m Hm. apply cinsert_seen. auto.
      - apply cinsert_seen. auto. }
    destruct (t n) as [cnt|] eqn:E.
    - assert (Sn : seen t n) by (unfold seen; congruence).
      assert (D : exists t', Some (cinsert n (cnt + 1) t) = Some t' /\ closed t' /\ more t t' /\ seen t' n).
      { exists (cinsert n (cnt + 1) t). split; auto. apply Ins; auto; [now intros m|]. intros k Hk. eapply Ct; eauto. }
      destruct (H n) as [a| |l|a b|a b|a b|a|v|v a] eqn:En; auto.
      assert (La : a < n) by (apply (AC n); rewrite En; now left).
      destruct (B a ltac:(lia)) as (t' & -> & C' & M' & K'). exists (cinsert n (cnt + 1) t'). split; auto. apply Ins; auto. intros k Hk. apply M'. eapply Ct; eauto.
    - destruct (B n ltac:(lia)) as (t' & -> & C' & M' & K'). exists (cinsert n 1 t'). split; auto.
  Qed.

  (** ** The second visit *)
  Variable tmp : Z.
  Variable loaded stored : variable -> Prop.
  Hypothesis loaded_stored : forall v, loaded v -> ~ stored v.
  Hypothesis loaded_old : forall k, loaded (Temporary k) -> (k <= tmp)%Z.
  Hypothesis stored_old : forall k, stored (Temporary k) -> (k <= tmp)%Z.
  (** [noloc]: array elements are only loaded into temporaries *)
  Variable noloc : bool.
  Hypothesis noloc_loads : noloc = true -> inline_loads Mg = false.
  Hypothesis noloc_bytw : noloc = true -> generate_bytw Mg = true -> forall n a b v, H n = NCTimes a b \/ H n = NCTimesJ a b -> H a = NLoad v -> is_locative v = false.
  Definition newtmp (v : variable) : Prop := exists k, v = Temporary k /\ (tmp < k)%Z.
  Definition avail (l : list assignment) (w : variable) : Prop := (loaded w /\ (noloc = true -> is_locative w = false)) \/ (newtmp w /\ In w (map fst l)).
  (** a list of assignments, the last one first *)
  Inductive okl : list assignment -> Prop :=
  | okl_nil : okl []
  | okl_cons v x l : okl l -> ~ In v (map fst l) -> newtmp v \/ stored v -> nostore x = true ->
      (forall w, In w (find_vars x) -> avail l w) \/ (newtmp v /\ exists w, x = ELoad w /\ loaded w) -> okl ((v, x) :: l).
  Definition R (l : list assignment) (env : variable -> C) : variable -> C := run (rev l) env.
  Lemma R_cons a l env : R (a :: l) env = run1 a (R l env).
  Proof. unfold R. cbn [rev]. rewrite run_app. reflexivity. Qed.
  Lemma R_other l env w : ~ In w (map fst l) -> R l env w = env w.
  Proof.
    induction l as [|[v x] l IH]; intros N; [reflexivity|]. rewrite R_cons. unfold run1. cbn [fst map In] in *.
    destruct (var_eq_dec w v) as [->|]; [tauto|]. apply IH. tauto.
  Qed.
  Lemma avail_app l' l w : avail l w -> avail (l' ++ l) w.
  Proof. intros [L|[N I']]; [now left|right]. split; auto. rewrite map_app, in_app_iff. auto. Qed.
  Lemma not_loaded v : newtmp v \/ stored v -> ~ loaded v.
  Proof. intros [(k & -> & K)|K] L; [apply loaded_old in L; lia|]. eapply loaded_stored; eauto. Qed.
  Lemma okl_fst l v x : okl l -> In (v, x) l -> newtmp v \/ stored v.
  Proof. induction 1 as [|u y l O IH N V S A]; intros I'; [destruct I'|]. destruct I' as [E|I']; [congruence|auto]. Qed.
  Lemma R_avail l' l env w : okl (l' ++ l) -> avail l w -> R (l' ++ l) env w = R l env w.
  Proof.
    induction l' as [|[v x] l' IH]; intros O A; [reflexivity|]. cbn [app] in *. inversion O as [|? ? ? O' N V S A']; subst.
    rewrite R_cons. unfold run1. cbn [fst]. destruct (var_eq_dec w v) as [->|]; [exfalso|auto]. destruct A as [[L _]|[_ I']].
    - eapply not_loaded; eauto.
    - apply N. rewrite map_app, in_app_iff. auto.
  Qed.
  Lemma R_eval l' l env e : okl (l' ++ l) -> nostore e = true -> (forall w, In w (find_vars e) -> avail l w) -> eval (R (l' ++ l) env) e = eval (R l env) e.
  Proof. intros O N A. apply eval_vars; auto. intros w Hw. apply R_avail; auto. Qed.

  (** the value of node [x] is [e] *)
  Definition vale (l : list assignment) (x : nat) (e : expr) : Prop :=
    nostore e = true /\ (forall w, In w (find_vars e) -> avail l w) /\ forall env, eval (R l env) e = eval env (tree H x).
  Definition vale' (l : list assignment) (x : nat) (e : expr) : Prop :=
    nostore e = true /\ ((forall w, In w (find_vars e) -> avail l w) \/ exists w, e = ELoad w /\ loaded w) /\ forall env, eval (R l env) e = eval env (tree H x).
  Lemma vale_vale' l x e : vale l x e -> vale' l x e. Proof. intros (A & B & D). split; auto. Qed.
  Definition done (l : list assignment) (r : nat) (v : variable) (y : nat) : Prop :=
    In v (map fst l) /\ forall env, R l env v = eval env (tree H y).
  Definition entry (l : list assignment) (x : nat) (e : expr) : Prop :=
    match H x with NStore v y => done l x v y | _ => vale l x e end.
  Record Inv (s : state) : Prop := {
    i_ok : okl (al s);
    i_tmp : (tmp <= tmp_count s)%Z;
    i_new : forall k, In (Temporary k) (map fst (al s)) -> (k <= tmp_count s)%Z;
    i_vis : forall x e, vis' s x = Some e -> entry (al s) x e;
    i_st : forall v, In v (map fst (al s)) -> stored v -> exists r y, H r = NStore v y /\ vis' s r <> None
  }.
  Definition ext (s s' : state) : Prop := exists l', al s' = l' ++ al s /\ forall x e, vis' s x = Some e -> vis' s' x = Some e.
  Lemma ext_refl s : ext s s. Proof. now exists []. Qed.
  Lemma ext_trans s1 s2 s3 : ext s1 s2 -> ext s2 s3 -> ext s1 s3.
  Proof. intros (l & E & V) (l' & E' & V'). exists (l' ++ l). rewrite E', E, app_assoc. auto. Qed.
  Lemma vale_ext s s' x e : Inv s' -> ext s s' -> vale (al s) x e -> vale (al s') x e.
  Proof.
    intros I' (l' & E & _) (N & A & V). assert (O := i_ok _ I'). rewrite E in *. split; auto. split; [intros w Hw; apply avail_app; auto|].
    intros env. rewrite R_eval; auto.
  Qed.
  (** total correctness of a step that makes an expression with property [Q] *)
  Definition tri {A} (s : state) (m : M A) (Q : state -> A -> Prop) : Prop :=
    exists a s', m s = Some (a, s') /\ Inv s' /\ ext s s' /\ (forall n, vis' s n = None -> (forall v y, H n <> NStore v y) \/ vis' s' n = None) /\ Q s' a.
  Lemma tri_ret {A} s (a : A) (Q : state -> A -> Prop) : Inv s -> Q s a -> tri s (ret a) Q.
  Proof. intros I' K. exists a, s. repeat split; auto; try apply I'. apply ext_refl. Qed.
  Lemma tri_bind {A B} s (m : M A) (k : A -> M B) (P : state -> A -> Prop) (Q : state -> B -> Prop) : tri s m P ->
    (forall a s', Inv s' -> ext s s' -> P s' a -> tri s' (k a) Q) -> tri s (bind m k) Q.
  Proof.
    intros (a & s' & E & I' & X & W & K) F. destruct (F a s' I' X K) as (b & s2 & E2 & I2 & X2 & W2 & K2).
    exists b, s2. unfold bind. rewrite E. repeat split; auto; try apply I2; [eapply ext_trans; eauto|]. intros n Hn. destruct (W n Hn) as [D|D]; auto.
  Qed.
  (** a new temporary for an expression *)
  Lemma tri_fresh s x n : Inv s -> vale' (al s) n x -> tri s (bind fresh (fun t => with_varM t x)) (fun s' e => vale (al s') n e).
  Proof.
    intros I' (N & A & V). set (t := Temporary (tmp_count s + 1)). exists (ELoad t), (mkst ((t, x) :: al s) (vis' s) (tmp_count s + 1)%Z).
    destruct I' as [Io It In_ Iv Is]. assert (Nt : ~ In t (map fst (al s))) by (intros K; apply In_ in K; lia).
    assert (Wt : newtmp t) by (exists (tmp_count s + 1)%Z; split; [reflexivity|lia]).
    assert (O : okl ((t, x) :: al s)) by (constructor; auto; destruct A as [A|A]; auto).
    split; [reflexivity|]. split; [|split; [|split]].
    - constructor; cbn [al vis' tmp_count]; auto; try lia.
      + cbn [map fst In]. intros k [E|K]; [unfold t in E; injection E; lia|]. apply In_ in K. lia.
      + intros m e E. specialize (Iv m e E). unfold entry in *. destruct (H m) as [| | | | | | | |v y]; try (
          destruct Iv as (Ne & Ae & Ve); split; [exact Ne|]; split; [intros w Hw; apply (avail_app [(t, x)]); auto|intros env; rewrite <- Ve; apply (R_eval [(t, x)]); auto]).
        destruct Iv as [D1 D2]. split; [now right|]. intros env. rewrite R_cons. unfold run1. cbn [fst]. destruct (var_eq_dec v t) as [->|]; [tauto|auto].
      + cbn [map fst In]. intros v [<-|K] Sv; [|eauto]. exfalso. apply stored_old in Sv. lia.
    - exists [(t, x)]. auto.
    - intros m Hm. auto.
    - cbn [al]. split; [reflexivity|]. split.
      + cbn [find_vars In]. intros w [<-|[]]. right. split; auto. now left.
      + intros env. cbn [eval]. rewrite R_cons. unfold run1. cbn [fst snd]. destruct (var_eq_dec t t); [auto|congruence].
  Qed.
  Lemma tri_temp s x n : Inv s -> vale (al s) n x -> tri s (with_tempM x) (fun s' e => vale (al s') n e).
  Proof.
    intros I' V. unfold with_tempM. apply vale_vale' in V as V'. destruct x; try now apply tri_fresh. destruct (is_temporary v); [now apply tri_ret|now apply tri_fresh].
  Qed.
  Variable counts : ctable.
  Hypothesis CC : closed counts.
  Lemma tri_maybe s x n : seen counts n -> Inv s -> vale (al s) n x -> tri s (with_temp_maybeM Mg counts n x) (fun s' e => vale (al s') n e).
  Proof.
    intros Sn I' V. unfold with_temp_maybeM. unfold seen in Sn. destruct (counts n) as [c|]; [|congruence]. destruct ((c =? 1) && inline_single Mg); [now apply tri_ret|now apply tri_temp].
  Qed.
  (** a node inside an expression *)
  Definition inner (n : nat) : Prop := nostore (tree H n) = true /\ (forall w, occurs w (tree H n) -> loaded w).
  Lemma inner_child n c : inner n -> In c (children (H n)) -> inner c.
  Proof.
    unfold inner. rewrite (tree_eq H AC n). intros [N O] Hc. destruct (H n) as [a| |l|a b|a b|a b|a|v|v a]; cbn [children In nostore] in *; try contradiction; try discriminate.
    - split. { rewrite forallb_forall in N. apply N. now apply in_map. } intros w Hw. apply O. apply occurs_Plus. exists (tree H c). split; auto. now apply in_map.
    - apply andb_prop in N. destruct N, Hc as [<-|[<-|[]]]; (split; [auto|]); intros w Hw; apply O; cbn; auto.
    - apply andb_prop in N. destruct N, Hc as [<-|[<-|[]]]; (split; [auto|]); intros w Hw; apply O; cbn; auto.
    - apply andb_prop in N. destruct N, Hc as [<-|[<-|[]]]; (split; [auto|]); intros w Hw; apply O; cbn; auto.
    - destruct Hc as [<-|[]]. split; [auto|]; intros w Hw; apply O; cbn; auto.
  Qed.
  Lemma inner_below n c : inner n -> below n c -> inner c.
  Proof. intros I' (d & Hd & K). assert (Id := inner_child n d I' Hd). destruct K as [->|[K|(e & He & K)]]; auto; [eapply inner_child; eauto|]. assert (Ie := inner_child d e Id He). eapply inner_child; eauto. Qed.
  Lemma vale_vars l n e : vale l n e -> forall w, In w (find_vars e) -> avail l w. Proof. now intros (_ & A & _). Qed.
  Section Step.
    Variable eon : nat -> M expr.
    Variable n : nat.
    Hypothesis In_ : inner n.
    Hypothesis Sn : seen counts n.
    Hypothesis E : forall s c, In c (kids n) -> Inv s -> tri s (eon c) (fun s' e => vale (al s') c e).
    Lemma tri_mapM l : (forall c, In c l -> In c (kids n)) -> forall s, Inv s ->
      tri s (mapM eon l) (fun s' es => Forall2 (fun c e => vale (al s') c e) l es).
    Proof.
      induction l as [|c l IH]; intros L s I'; cbn [mapM]; [apply tri_ret; auto|].
      eapply tri_bind; [apply E; auto; apply L; now left|]. intros a s1 I1 X1 V1. cbn beta in V1.
      eapply tri_bind; [apply IH; auto; intros; apply L; now right|]. intros b s2 I2 X2 V2. cbn beta in V2. apply tri_ret; auto. constructor; auto. eapply vale_ext; eauto.
    Qed.
    Lemma vale_Plus l a es : (forall env, eval env (tree H n) = lsumE env (map (tree H) a)) -> Forall2 (fun c e => vale l c e) a es -> vale l n (Plus es).
    Proof.
      intros T F. split; [|split].
      - cbn [nostore]. clear T. induction F as [|c e a es (N & _) F IH]; cbn; auto. now rewrite N.
      - intros w Hw. apply find_vars_Plus in Hw. destruct Hw as (x & Hx & Hw). clear T. induction F as [|c e a es (N & A & _) F IH]; [destruct Hx|]. destruct Hx as [<-|Hx]; auto.
      - intros env. rewrite T, eval_Plus. clear T. induction F as [|c e a es (N & A & V) F IH]; [reflexivity|]. unfold lsumE in *. cbn [map fold_right]. now rewrite V, IH.
    Qed.
    Lemma vale_op l e : nostore e = true -> (forall w, In w (find_vars e) -> avail l w) -> (forall env, eval (R l env) e = eval env (tree H n)) -> vale l n e.
    Proof. now split. Qed.
    Lemma tri_body_inner s : Inv s -> tri s (expr_body Mg H counts eon n) (fun s' e => vale (al s') n e).
    Proof.
      intros I'. unfold expr_body. assert (Ek := E). unfold kids in Ek.
      destruct (H n) as [a| |l|a b|a b|a b|a|v|v a] eqn:En; cbn [children In] in Ek.
      - assert (V : vale (al s) n (Num a)) by (split; [reflexivity|]; split; [intros w []|]; intros env; now rewrite (tree_eq H AC n), En).
        destruct (inline_constants Mg); [apply tri_ret; auto|]. apply tri_maybe; auto.
      - apply tri_ret; auto. split; [reflexivity|]; split; [intros w []|]; intros env; now rewrite (tree_eq H AC n), En.
      - destruct (build_fma_ok n l En) as [Fv _]. unfold children_fma in Ek.
        assert (Tl : forall env, eval env (tree H n) = lsumE env (map (tree H) l)) by (intros env; rewrite (tree_eq H AC n), En; apply eval_Plus).
        destruct (build_fma Mg H l) as [|a b c|a b c|a b c] eqn:Ef; cbn [In] in Ek; cbn [fma_val] in Fv.
        + eapply tri_bind; [apply tri_mapM; [|exact I']; intros c Hc; unfold kids; rewrite En; unfold children_fma; rewrite Ef; exact Hc|].
          intros es s1 I1 X1 V1. cbn beta in V1. apply tri_maybe; auto. eapply vale_Plus; eauto.
        + eapply tri_bind; [apply Ek; auto|]. intros ea s1 I1 X1 V1. cbn beta in V1. eapply tri_bind; [apply Ek; auto|]. intros eb s2 I2 X2 V2. cbn beta in V2.
          eapply tri_bind; [apply Ek; auto|]. intros ec s3 I3 X3 V3. cbn beta in V3. apply (vale_ext s1 s3) in V1; [|auto|eapply ext_trans; eauto]. apply (vale_ext s2 s3) in V2; auto.
          destruct V1 as (N1 & A1 & V1), V2 as (N2 & A2 & V2), V3 as (N3 & A3 & V3). apply tri_maybe; auto. split; [|split].
          * cbn. now rewrite N1, N2, N3.
          * cbn [find_vars]. intros w. rewrite !in_app_iff. cbn [In]. intuition.
          * intros env. rewrite Tl, (Fv env _ eq_refl). rewrite eval_Plus, lsumE_two. cbn [eval]. now rewrite V1, V2, V3.
        + eapply tri_bind; [apply Ek; auto|]. intros ea s1 I1 X1 V1. cbn beta in V1. eapply tri_bind; [apply Ek; auto|]. intros eb s2 I2 X2 V2. cbn beta in V2.
          eapply tri_bind; [apply Ek; auto|]. intros ec s3 I3 X3 V3. cbn beta in V3. apply (vale_ext s1 s3) in V1; [|auto|eapply ext_trans; eauto]. apply (vale_ext s2 s3) in V2; auto.
          destruct V1 as (N1 & A1 & V1), V2 as (N2 & A2 & V2), V3 as (N3 & A3 & V3). apply tri_maybe; auto. split; [|split].
          * cbn. now rewrite N1, N2, N3.
          * cbn [find_vars]. intros w. rewrite !in_app_iff. cbn [In]. intuition.
          * intros env. rewrite Tl, (Fv env _ eq_refl). rewrite eval_Plus, lsumE_two. cbn [eval]. rewrite V1, V2, V3. ring.
        + eapply tri_bind; [apply Ek; auto|]. intros ea s1 I1 X1 V1. cbn beta in V1. eapply tri_bind; [apply Ek; auto|]. intros eb s2 I2 X2 V2. cbn beta in V2.
          eapply tri_bind; [apply Ek; auto|]. intros ec s3 I3 X3 V3. cbn beta in V3. apply (vale_ext s1 s3) in V1; [|auto|eapply ext_trans; eauto]. apply (vale_ext s2 s3) in V2; auto.
          destruct V1 as (N1 & A1 & V1), V2 as (N2 & A2 & V2), V3 as (N3 & A3 & V3). apply tri_maybe; auto. split; [|split].
          * cbn. now rewrite N1, N2, N3.
          * cbn [find_vars]. intros w. rewrite !in_app_iff. cbn [In]. intuition.
          * intros env. rewrite Tl, (Fv env _ eq_refl). rewrite eval_Plus, lsumE_two. cbn [eval]. rewrite V1, V2, V3. ring.
      - eapply tri_bind; [apply Ek; auto|]. intros ea s1 I1 X1 V1. cbn beta in V1. eapply tri_bind; [apply Ek; auto|]. intros eb s2 I2 X2 V2. cbn beta in V2.
        apply (vale_ext s1 s2) in V1; auto. destruct V1 as (N1 & A1 & V1), V2 as (N2 & A2 & V2).
        assert (Vt : vale (al s2) n (Times ea eb)).
        { split; [|split]; [cbn; now rewrite N1, N2|cbn [find_vars]; intros w; rewrite in_app_iff; intuition|]. intros env. rewrite (tree_eq H AC n), En. cbn [eval]. now rewrite V1, V2. }
        destruct ea; try (apply tri_maybe; auto; fail). destruct (strength_reduce_mul Mg && (if Req_EM_T a0 2 then true else false)) eqn:Es; [|apply tri_maybe; auto].
        apply andb_prop in Es. destruct Es as [_ Es]. destruct (Req_EM_T a0 2) as [->|]; [|discriminate].
        eapply tri_bind; [apply (tri_ret s2 eb (fun s' e => s' = s2 /\ e = eb)); auto|]. intros x s3 I3 X3 [-> ->]. apply tri_maybe; auto. split; [|split].
        + cbn. now rewrite N2.
        + cbn [find_vars]. intros w. rewrite !in_app_iff. cbn [In]. intuition.
        + intros env. destruct Vt as (_ & _ & Vt). rewrite <- Vt. rewrite eval_Plus, lsumE_two. cbn [eval]. apply C_eq; unfold RtoC, cadd, cmul; cbn [fst snd]; ring.
      - destruct (if generate_bytw Mg then is_load H a else None) as [a'|] eqn:Eb.
        + destruct (generate_bytw Mg); [|discriminate]. unfold is_load in Eb. destruct (H a) as [| | | | | | |u|] eqn:Ea; try discriminate. injection Eb as <-.
          assert (Lu : loaded u). { assert (Ia := inner_child n a In_). rewrite En in Ia. specialize (Ia (or_introl eq_refl)). destruct Ia as [_ Ia]. apply Ia. rewrite (tree_eq H AC a), Ea. reflexivity. }
          eapply tri_bind; [apply Ek; auto|]. intros eb s2 I2 X2 V2. cbn beta in V2. destruct V2 as (N2 & A2 & V2). apply tri_temp; auto. split; [|split].
          * cbn. now rewrite N2.
          * cbn [find_vars app In]. intros w [<-|Hw]; [left; split; auto; intros Nl; eapply (noloc_bytw Nl); eauto|auto].
          * intros env. rewrite (tree_eq H AC n), En. cbn [eval]. rewrite V2, (tree_eq H AC a), Ea. cbn [eval]. f_equal. apply R_other. intros K. apply in_map_iff in K. destruct K as ((u' & x) & Eu & K). cbn in Eu. subst u'. apply okl_fst in K; [|apply I2]. eapply not_loaded; eauto.
        + eapply tri_bind; [apply Ek; auto|]. intros ea s1 I1 X1 V1. cbn beta in V1. eapply tri_bind; [apply Ek; auto|]. intros eb s2 I2 X2 V2. cbn beta in V2.
          apply (vale_ext s1 s2) in V1; auto. destruct V1 as (N1 & A1 & V1), V2 as (N2 & A2 & V2). apply tri_temp; auto.
          split; [|split]; [cbn; now rewrite N1, N2|cbn [find_vars]; intros w; rewrite in_app_iff; intuition|]. intros env. rewrite (tree_eq H AC n), En. cbn [eval]. now rewrite V1, V2.
      - destruct (if generate_bytw Mg then is_load H a else None) as [a'|] eqn:Eb.
        + destruct (generate_bytw Mg); [|discriminate]. unfold is_load in Eb. destruct (H a) as [| | | | | | |u|] eqn:Ea; try discriminate. injection Eb as <-.
          assert (Lu : loaded u). { assert (Ia := inner_child n a In_). rewrite En in Ia. specialize (Ia (or_introl eq_refl)). destruct Ia as [_ Ia]. apply Ia. rewrite (tree_eq H AC a), Ea. reflexivity. }
          eapply tri_bind; [apply Ek; auto|]. intros eb s2 I2 X2 V2. cbn beta in V2. destruct V2 as (N2 & A2 & V2). apply tri_temp; auto. split; [|split].
          * cbn. now rewrite N2.
          * cbn [find_vars app In]. intros w [<-|Hw]; [left; split; auto; intros Nl; eapply (noloc_bytw Nl); eauto|auto].
          * intros env. rewrite (tree_eq H AC n), En. cbn [eval]. rewrite V2, (tree_eq H AC a), Ea. cbn [eval]. do 2 f_equal. apply R_other. intros K. apply in_map_iff in K. destruct K as ((u' & x) & Eu & K). cbn in Eu. subst u'. apply okl_fst in K; [|apply I2]. eapply not_loaded; eauto.
        + eapply tri_bind; [apply Ek; auto|]. intros ea s1 I1 X1 V1. cbn beta in V1. eapply tri_bind; [apply Ek; auto|]. intros eb s2 I2 X2 V2. cbn beta in V2.
          apply (vale_ext s1 s2) in V1; auto. destruct V1 as (N1 & A1 & V1), V2 as (N2 & A2 & V2). apply tri_temp; auto.
          split; [|split]; [cbn; now rewrite N1, N2|cbn [find_vars]; intros w; rewrite in_app_iff; intuition|]. intros env. rewrite (tree_eq H AC n), En. cbn [eval]. now rewrite V1, V2.
      - eapply tri_bind; [apply Ek; auto|]. intros ea s1 I1 X1 V1. cbn beta in V1. apply tri_ret; auto. destruct V1 as (N1 & A1 & V1). split; [|split]; auto. intros env. rewrite (tree_eq H AC n), En. cbn [eval]. now rewrite V1.
      - assert (Lu : loaded v) by (destruct In_ as [_ O]; apply O; rewrite (tree_eq H AC n), En; reflexivity).
        assert (V : forall env, eval (R (al s) env) (ELoad v) = eval env (tree H n)).
        { intros env; rewrite (tree_eq H AC n), En. cbn [eval]. apply R_other. intros K. apply in_map_iff in K. destruct K as ((u' & x) & Eu & K). cbn in Eu. subst u'. apply okl_fst in K; [|apply I']. eapply not_loaded; eauto. }
        assert (Vi : (noloc = true -> is_locative v = false) -> vale (al s) n (ELoad v)) by (intros K; split; [reflexivity|]; split; [intros w [<-|[]]; now left|exact V]).
        assert (V' : vale' (al s) n (ELoad v)) by (split; [reflexivity|]; split; [right; eauto|exact V]).
        destruct (is_temporary v) eqn:Et; [apply tri_ret; auto; apply Vi; intros _; now destruct v|].
        destruct (is_locative v && inline_loads Mg) eqn:Eil; [apply tri_ret; auto; apply Vi; intros Nl; rewrite (noloc_loads Nl), andb_false_r in Eil; discriminate|].
        destruct (var_is_constant v && inline_loads_constants Mg) eqn:Ec; [apply tri_ret; auto; apply Vi; intros _; now destruct v|].
        unfold with_tempM. rewrite Et. now apply tri_fresh.
      - exfalso. destruct In_ as [N _]. rewrite (tree_eq H AC n), En in N. discriminate.
    Qed.
  End Step.
  Lemma not_store_inner n v y : inner n -> H n <> NStore v y.
  Proof. intros [N _] E. rewrite (tree_eq H AC n), E in N. discriminate. Qed.
  Lemma tri_node f : forall n s, n < f -> inner n -> seen counts n -> Inv s -> tri s (expr_of_nodeM Mg H counts f n) (fun s' e => vale (al s') n e).
  Proof.
    induction f as [|f IH]; intros n s L I_ Sn I'; [lia|]. unfold tri. cbn [expr_of_nodeM].
    assert (Ent : forall l e, entry l n e <-> vale l n e). { intros l e. unfold entry. destruct (H n) eqn:En; try reflexivity. exfalso. eapply not_store_inner; eauto. }
    destruct (vis' s n) as [e|] eqn:Ev.
    - exists e, s. split; auto. split; auto. split; [apply ext_refl|]. split; [intros; auto|]. apply Ent. now apply (i_vis _ I').
    - destruct (tri_body_inner (expr_of_nodeM Mg H counts f) n I_ Sn) with (s := s) as (e & s' & Eb & I2 & (l' & El & Vl) & W & V); auto.
      { intros s0 c Hc I0. apply IH; auto; [apply kids_lt in Hc; lia| |eapply CC; eauto]. eapply inner_below; eauto. now apply kids_below. }
      rewrite Eb. exists e, (mkst (al s') (fun m => if m =? n then Some e else vis' s' m) (tmp_count s')). split; auto. split; [|split; [|split]].
      + destruct I2 as [Io It Iw Iv Is]. constructor; cbn [al vis' tmp_count]; auto.
        * intros x e0. destruct (Nat.eqb_spec x n) as [->|]; [intros [= <-]; now apply Ent|apply Iv].
        * intros v Hv Sv. destruct (Is v Hv Sv) as (r & y & Er & Nr). exists r, y. split; auto. destruct (Nat.eqb_spec r n); congruence.
      + exists l'. split; auto. cbn [vis']. intros x e0 Ex. destruct (Nat.eqb_spec x n) as [->|]; [congruence|auto].
      + cbn [vis']. intros m Hm. destruct (Nat.eqb_spec m n) as [->|]; [left; intros v y; now apply not_store_inner|auto].
      + exact V.
  Qed.
  (** a root *)
  Variable roots : list nat.
  Hypothesis roots_store : forall r, In r roots -> exists v y, H r = NStore v y /\ inner y /\ stored v.
  Hypothesis roots_diff : forall r r' v y y', In r roots -> In r' roots -> H r = NStore v y -> H r' = NStore v y' -> r = r'.
  Hypothesis roots_seen : forall r, In r roots -> seen counts r.
  (** only roots are ever entered in the table as stores *)
  Definition InvR (s : state) : Prop := Inv s /\ forall r v y, vis' s r <> None -> H r = NStore v y -> In r roots.
  Lemma tri_root f r s : r < f -> In r roots -> InvR s ->
    exists e s', expr_of_nodeM Mg H counts f r s = Some (e, s') /\ InvR s' /\ ext s s' /\ vis' s' r <> None.
  Proof.
    intros L Hr [I' IR]. destruct f as [|f]; [lia|]. cbn [expr_of_nodeM].
    destruct (roots_store r Hr) as (v & y & Er & Iy & Sv).
    destruct (vis' s r) as [e|] eqn:Ev; [exists e, s; repeat split; auto; try apply I'; [apply ext_refl|congruence]|].
    assert (Ly : y < r) by (apply (AC r); rewrite Er; now left).
    unfold expr_body. rewrite Er.
    assert (T : tri s (bind (expr_of_nodeM Mg H counts f y) (fun y' => (if trivial_stores Mg then with_tempM else inlineM) y')) (fun s' e => vale (al s') y e)).
    { eapply tri_bind; [apply tri_node; auto; [lia|]|].
      - eapply CC; [apply roots_seen; eauto|]. unfold kids. rewrite Er. now left.
      - intros a s1 I1 X1 V1. cbn beta in V1. destruct (trivial_stores Mg); [now apply tri_temp|now apply tri_ret]. }
    destruct T as (y'' & s1 & E1 & I1 & X1 & W1 & (N1 & A1 & V1)).
    assert (Nv : ~ In v (map fst (al s1))).
    { intros K. destruct (i_st _ I1 v K Sv) as (r' & y' & Er' & Nr').
      destruct (vis' s r') as [e'|] eqn:E'; [|destruct (W1 r' E') as [D|D]; [now apply D in Er'|congruence]].
      assert (r = r') by (apply (roots_diff r r' v y y'); auto; apply (IR r' v y'); auto; congruence). subst r'. congruence. }
    unfold bind in E1 |- *. destruct (expr_of_nodeM Mg H counts f y s) as [[e0 s0]|]; [|discriminate]. rewrite E1. cbn [with_varM al vis' tmp_count].
    eexists _, _. split; [reflexivity|]. split; [|split; [|cbn [vis']; rewrite Nat.eqb_refl; congruence]].
    - destruct X1 as (l1 & El1 & Vl1). destruct I1 as [Io It Iw Iv Is]. assert (O : okl ((v, y'') :: al s1)) by (constructor; auto).
      split; [constructor; cbn [al vis' tmp_count]; auto|].
      + cbn [map fst In]. intros k [E|K]; [|auto]. subst v. assert (K := stored_old k Sv). lia.
      + intros x e'. destruct (Nat.eqb_spec x r) as [->|Nx].
        * intros [= <-]. unfold entry. rewrite Er. split; [now left|]. intros env. rewrite R_cons. unfold run1. cbn [fst snd]. destruct (var_eq_dec v v); [auto|congruence].
        * intros Ex. specialize (Iv x e' Ex). unfold entry in *. destruct (H x) as [| | | | | | | |u z] eqn:Ex'; try (
          destruct Iv as (Ne & Ae & Ve); split; [exact Ne|]; split; [intros w Hw; apply (avail_app [(v, y'')]); auto|intros env; rewrite <- Ve; apply (R_eval [(v, y'')]); auto]).
          destruct Iv as [D1 D2]. split; [now right|]. intros env. rewrite R_cons. unfold run1. cbn [fst]. destruct (var_eq_dec u v) as [->|]; [tauto|auto].
      + cbn [map fst In]. intros u [<-|K] Su; [exists r, y; split; auto; rewrite Nat.eqb_refl; congruence|]. destruct (Is u K Su) as (r' & y' & Er' & Nr'). exists r', y'. split; auto. destruct (r' =? r); congruence.
      + cbn [vis']. intros r' u z. destruct (Nat.eqb_spec r' r) as [->|]; [auto|]. intros K Er'. destruct (vis' s r') as [e'|] eqn:E'; [apply (IR r' u z); auto; congruence|]. destruct (W1 r' E') as [D|D]; [now apply D in Er'|congruence].
    - destruct X1 as (l1 & El1 & Vl1). exists ((v, y'') :: l1). cbn [al vis']. split; [now rewrite El1|]. intros x e' Ex. destruct (Nat.eqb_spec x r) as [->|]; [congruence|auto].
  Qed.
  Lemma roots_run f : forall l s, (forall r, In r l -> In r roots /\ r < f) -> InvR s ->
    exists es s', mapM (expr_of_nodeM Mg H counts f) l s = Some (es, s') /\ InvR s' /\ (forall x e, vis' s x = Some e -> vis' s' x = Some e) /\ forall r, In r l -> vis' s' r <> None.
  Proof.
    induction l as [|r l IH]; intros s L I'; cbn [mapM].
    - exists [], s. unfold ret. split; [reflexivity|]. split; [auto|]. split; [auto|intros r []].
    - destruct (L r (or_introl eq_refl)) as [Hr Lr]. destruct (tri_root f r s Lr Hr I') as (e & s1 & E1 & I1 & X1 & V1).
      destruct (IH s1) as (es & s2 & E2 & I2 & X2 & V2); auto. { intros; apply L; now right. }
      exists (e :: es), s2. unfold bind, ret. rewrite E1, E2. split; auto. split; auto. split.
      + intros x e0 Ex. apply X2. destruct X1 as (l1 & _ & X1). auto.
      + intros r' [<-|Hr']; auto. destruct (vis' s1 r) as [e0|] eqn:Ee; [|congruence]. apply X2 in Ee. congruence.
  Qed.
End P.
