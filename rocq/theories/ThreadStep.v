(** * Steps of the worker pool keep the invariant (proof library) *)
From Coq Require Import ZArith List Lia Bool PeanoNat.
From Verif Require Import Base SpecThreads ThreadModel ThreadTree ThreadInv.
Import ListNotations.
Open Scope nat_scope.

(** ** The measure *)
Definition fc (pc : spc) (i n : nat) : nat :=
  let pre x := x + 28 * (n - 1 - i) + 6 * (n - 1) + 2 in
  let post x := 6 * (n - 1 - i) + x in
  match pc with
  | Fill => pre 28 | DqLock => pre 27 | DqRead => pre 26 | DqPop _ => pre 25 | DqUnlock _ => pre 24 | DqMake _ => pre 23
  | SetW => pre 9 | Up => pre 8 | Inline => 6 * (n - 1) + 4
  | Wait => post 3 | EqLock => post 2 | EqCdr => post 1 | EqHead => post 0 | EqUnlock => post 0 - 1
  end.
Definition posc (p : wpos) : nat :=
  match p with WDown => 0 | WLoad => 5 | WTest _ => 4 | WBusy _ => 3 | WUp => 2 | WTerm => 1 | WExit => 0 end.
Definition wcost (w : worker) : nat := 6 * w_ready w + posc (w_pos w) + (if w_alive w then 12 else 0).
Definition kc (k : kpos) : nat :=
  match k with KNone => 22 | KLock => 21 | KHead => 20 | KCdr _ => 19 | KSetW _ => 18 | KUp _ => 17 | KDown _ => 10 | KFree _ => 9 | KDone => 0 end.

Fixpoint nsum (f : nat -> nat) (n : nat) : nat := match n with 0 => 0 | S n => nsum f n + f n end.
Lemma nsum_ext f g n : (forall i, i < n -> f i = g i) -> nsum f n = nsum g n.
Proof. induction n; intros H; cbn; auto. rewrite IHn by auto. rewrite H; auto. Qed.
Lemma nsum_upd f g n q : q < n -> (forall i, i <> q -> f i = g i) -> nsum g n + f q = nsum f n + g q.
Proof.
  induction n; intros L H; [lia|]. cbn. destruct (Nat.eq_dec q n) as [->|Hn].
  - rewrite (nsum_ext f g n) by (intros; apply H; lia). lia.
  - rewrite (H n) by auto. specialize (IHn ltac:(lia) H). lia.
Qed.

Section TreeMore.
Context {A : Type}.
Notation tree := (tree A).
Lemma set_nth_id {B} (l : list B) j x : nth_error l j = Some x -> set_nth l j x = l.
Proof. revert j. induction l; intros [|j] H; cbn in *; try discriminate; auto. - congruence. - now rewrite IHl. Qed.
Lemma put_id (T : tree) p Y : get T p = Some Y -> put T p Y = T.
Proof.
  revert T. induction p as [|j p IH]; intros T H; cbn in *; [congruence|]. destruct T as [q|ts k]; [discriminate|].
  destruct (nth_error ts j) as [t|] eqn:E; [|discriminate]. rewrite IH by auto. now rewrite set_nth_id.
Qed.
Lemma weight_upd F G (T : tree) p ts k : get T p = Some (TPar ts k) -> (forall y, y <> p -> F y = G y) ->
  weight G [] T + F p = weight F [] T + G p.
Proof.
  intros H E. pose proof (weight_put F G (TPar ts k) p T [] (TPar ts k) H) as W. cbn [app] in W.
  assert (W' := W ltac:(intros r Hr; apply E; intros ->; apply Hr; exists []; now rewrite app_nil_r)). clear W.
  rewrite (put_id T p _ H) in W'. rewrite !weight_par in W'.
  assert (Ew : wsum (fun j t => weight F (p ++ [j]) t) 0 ts = wsum (fun j t => weight G (p ++ [j]) t) 0 ts).
  { apply wsum_ext. intros i t _. apply weight_ext. intros r. apply E. intros Q. apply (f_equal (@length nat)) in Q. rewrite !app_length in Q. cbn in Q. lia. }
  lia.
Qed.
End TreeMore.

Section Step.
Context {A M : Type}.
Variable act : A -> M -> M.
Variable N : nat.
Notation prog := (prog A).
Notation tree := (tree A).
Notation st := (@st A M).
Notation work := (@work A).
Notation Inv := (@Inv A M N).

Definition Fc (s : st) (p : path) : nat := match s_f s p with Some (FSpawn bs _ pc i _) => fc pc i (length bs) | _ => 0 end.
Definition wm (s : st) : nat := nsum (fun q => wcost (s_w s q)) (s_nw s).
Definition mu (s : st) (T : tree) : nat := weight (Fc s) [] T + wm s + kc (s_k s).

Definition good (s : st) (T : tree) (s' : st) : Prop :=
  exists T' own', Inv s' T' own' /\ tsteps act T (s_mem s) T' (s_mem s') /\ mu s' T' < mu s T.

Ltac pd := repeat match goal with
  | |- context [path_dec ?a ?b] => destruct (path_dec a b)
  | H : context [path_dec ?a ?b] |- _ => destruct (path_dec a b)
  | |- context [Nat.eq_dec ?a ?b] => destruct (Nat.eq_dec a b)
  | H : context [Nat.eq_dec ?a ?b] |- _ => destruct (Nat.eq_dec a b)
  end; try congruence.

Lemma queue_same (s s' : st) own own' : Queue s own -> s_head s' = s_head s -> s_nw s <= s_nw s' ->
  (forall q, q < s_nw s -> (own' q = Idle <-> own q = Idle)) -> (forall q, s_nw s <= q -> q < s_nw s' -> own' q <> Idle) ->
  (forall q, q < s_nw s -> own q = Idle -> w_cdr (s_w s' q) = w_cdr (s_w s q)) -> Queue s' own'.
Proof.
  intros (l & ND & Ch & Hl) Eh Nw O1 O2 Ec. exists l. split; auto. split.
  - rewrite Eh. eapply chain_ext; [|exact Ch]. intros q Hq. apply Hl in Hq. now apply Ec.
  - intros q. rewrite Hl. split; intros [Q1 Q2]; [split; [lia|now apply O1]|].
    destruct (Nat.lt_ge_cases q (s_nw s)) as [L|L]; [split; auto; now apply O1|]. exfalso. now apply (O2 q).
Qed.

(** The measure of a step that does not change the tree. *)
Lemma mu_frame s s' T own p bs r pc i k r' pc' i' : Inv s T own ->
  s_f s p = Some (FSpawn bs r pc i k) -> s_f s' p = Some (FSpawn bs r' pc' i' k) ->
  (forall y, y <> p -> Fc s' y = Fc s y) -> s_k s' = s_k s ->
  fc pc' i' (length bs) + wm s' < fc pc i (length bs) + wm s -> mu s' T < mu s T.
Proof.
  intros I E E' Fo Ek H. unfold mu. rewrite Ek. destruct (sp_tree _ _ _ _ _ _ _ _ _ (i_spawn N s T own I _ _ _ _ _ _ E)) as (ts & G & _).
  pose proof (weight_upd (Fc s) (Fc s') T p ts k G ltac:(intros; symmetry; auto)) as W.
  assert (F1 : Fc s p = fc pc i (length bs)) by (unfold Fc; now rewrite E).
  assert (F2 : Fc s' p = fc pc' i' (length bs)) by (unfold Fc; now rewrite E'). lia.
Qed.

(** Everything but frame [p] is unchanged, nothing is given or taken. *)
Lemma simple s T own p bs r pc i k r' pc' i' lk :
  Inv s T own -> s_f s p = Some (FSpawn bs r pc i k) ->
  pcok pc' i' (length bs) ->
  let s' := set_f p (Some (FSpawn bs r' pc' i' k)) (set_lock lk s) in
  (forall j, j <> i -> j < length bs -> stat pc' i' (length bs) j = stat pc i (length bs) j /\ r' j = r j) ->
  (forall b, nth_error bs i = Some b -> slotc s T own p b (r' i) (stat pc' i' (length bs) i) i) ->
  pcfacts s r' pc' i' ->
  ((lk = s_lock s /\ crit pc' = crit pc) \/ (s_lock s = None /\ lk = Some (LPath p) /\ crit pc' = true) \/
   (s_lock s = Some (LPath p) /\ lk = None /\ crit pc' = false)) ->
  (forall q, holds pc i (length bs) r i q -> holds pc' i' (length bs) r' i q) ->
  fc pc' i' (length bs) < fc pc i (length bs) ->
  good s T s'.
Proof.
  intros I E Pk s' St Sl Pf Lk Hh Hm. assert (Cn : p ++ [i] <> p) by apply app_neq_self. exists T, own. split; [|split].
  - apply (core N s s' T own own p bs r pc i k r' pc' i' i (s_nw s)).
    + exact I.
    + exact E.
    + cbn. pd.
    + intros y H1 H2. cbn. pd.
    + left. cbn. pd; auto.
    + auto.
    + intros. lia.
    + cbn. lia.
    + cbn. auto.
    + exact Pk.
    + exact St.
    + intros b Hb. eapply slotc_stable; [apply (Sl b Hb)|..].
      * intros H. cbn. pd; auto.
      * intros H. cbn. pd; auto.
      * auto.
      * cbn. lia.
    + eapply facts_stable; [exact Pf|]. auto.
    + exact Lk.
    + auto.
    + cbn. intros. lia.
    + auto.
    + auto.
    + reflexivity.
    + reflexivity.
    + eapply queue_same; [apply (i_queue N s T own I)|..]; auto; [intros; tauto|cbn; intros; lia].
  - cbn. constructor.
  - apply (mu_frame s s' T own p bs r pc i k r' pc' i' I E).
    + cbn. pd.
    + intros y Hy. unfold Fc. cbn. pd.
    + reflexivity.
    + assert (wm s' = wm s) by reflexivity. lia.
Qed.

Lemma wm_upd s s' q : q < s_nw s -> s_nw s' = s_nw s -> (forall y, y <> q -> s_w s' y = s_w s y) -> wm s' + wcost (s_w s q) = wm s + wcost (s_w s' q).
Proof. intros H1 H2 H3. unfold wm. rewrite H2. apply (nsum_upd (fun y => wcost (s_w s y)) (fun y => wcost (s_w s' y))); auto. intros y Hy. now rewrite H3. Qed.

(** Frame [p] does something to its worker [q]. *)
Lemma touch s T own p bs r pc i k pc' i' q w' :
  Inv s T own -> s_f s p = Some (FSpawn bs r pc i k) ->
  pcok pc' i' (length bs) ->
  let s' := set_f p (Some (FSpawn bs r pc' i' k)) (set_w q w' s) in
  q < s_nw s -> own q = Held p i ->
  (forall j, j <> i -> j < length bs -> stat pc' i' (length bs) j = stat pc i (length bs) j) ->
  (forall b, nth_error bs i = Some b -> slotc s' T own p b (r i) (stat pc' i' (length bs) i) i) ->
  pcfacts s' r pc' i' -> crit pc' = crit pc ->
  holds pc' i' (length bs) r i q ->
  (forall q', holds pc i (length bs) r i q' -> q' = q) ->
  fc pc' i' (length bs) + wcost w' < fc pc i (length bs) + wcost (s_w s q) ->
  good s T s'.
Proof.
  intros I E Pk s' Hq Oq St Sl Pf Cr Ho Hh Hm. assert (Cn : p ++ [i] <> p) by apply app_neq_self.
  assert (Ew : s_w s' q = w') by (cbn; pd).
  assert (Ew' : forall y, y <> q -> s_w s' y = s_w s y) by (intros y Hy; cbn; pd).
  exists T, own. split; [|split].
  - apply (core N s s' T own own p bs r pc i k r pc' i' i q).
    + exact I.
    + exact E.
    + cbn. pd.
    + intros y H1 H2. cbn. pd.
    + left. cbn. pd; auto.
    + auto.
    + auto.
    + cbn. lia.
    + cbn. auto.
    + exact Pk.
    + auto.
    + exact Sl.
    + exact Pf.
    + left. auto.
    + auto.
    + intros _. rewrite Oq. auto.
    + auto.
    + auto.
    + reflexivity.
    + reflexivity.
    + eapply queue_same; [apply (i_queue N s T own I)|..]; auto.
      * intros; tauto.
      * cbn; intros; lia.
      * intros y Hy Oy. rewrite Ew'; auto. congruence.
  - cbn. constructor.
  - apply (mu_frame s s' T own p bs r pc i k r pc' i' I E).
    + cbn. pd.
    + intros y Hy. unfold Fc. cbn. pd.
    + reflexivity.
    + pose proof (wm_upd s s' q Hq eq_refl Ew') as W. rewrite Ew in W. lia.
Qed.

(** A worker that executes block [j] for frame [p] makes a step. *)
Lemma wkstep s T own p bs r pc i k q j w' fo :
  Inv s T own -> s_f s p = Some (FSpawn bs r pc i k) ->
  let s' := set_w q w' (match fo with None => s | Some x => set_f (p ++ [j]) x s end) in
  q < s_nw s -> own q = Held p j -> stat pc i (length bs) j = SGiven -> w_q (r j) = Some q ->
  (match fo with None => True | Some x => (s_f s (p ++ [j]) = None \/ exists b, s_f s (p ++ [j]) = Some (FCode b)) /\
     (x = None \/ exists b, x = Some (FCode b) /\ get T (p ++ [j]) = Some (TSeq b) /\ j < length bs) end) ->
  (forall b, nth_error bs j = Some b -> slotc s T own p b (r j) SGiven j -> slotc s' T own p b (r j) SGiven j) ->
  wcost w' < wcost (s_w s q) ->
  good s T s'.
Proof.
  intros I E s' Hq Oq Es Er Hf Sl Hm. assert (Cn : p ++ [j] <> p) by apply app_neq_self.
  assert (Sp0 := i_spawn N s T own I _ _ _ _ _ _ E).
  assert (Ew : s_w s' q = w') by (cbn; pd).
  assert (Ew' : forall y, y <> q -> s_w s' y = s_w s y) by (intros y Hy; cbn; pd; destruct fo; auto).
  assert (Ef : forall y, y <> p ++ [j] -> s_f s' y = s_f s y) by (intros y Hy; cbn; destruct fo; cbn; pd; auto).
  assert (E' : s_f s' p = Some (FSpawn bs r pc i k)) by (rewrite Ef; auto).
  assert (Enw : s_nw s' = s_nw s) by (cbn; destruct fo; auto).
  assert (Eh : s_head s' = s_head s) by (cbn; destruct fo; auto).
  assert (El : s_lock s' = s_lock s) by (cbn; destruct fo; auto).
  assert (Ek : s_k s' = s_k s) by (cbn; destruct fo; auto).
  assert (Et : s_term s' = s_term s) by (cbn; destruct fo; auto).
  assert (Em : s_mem s' = s_mem s) by (cbn; destruct fo; auto).
  exists T, own. split; [|split].
  - apply (core N s s' T own own p bs r pc i k r pc i j q).
    + exact I.
    + exact E.
    + exact E'.
    + intros y H1 H2. auto.
    + destruct fo as [x|]; [right|left; reflexivity]. destruct Hf as [H1 H2]. split; auto.
      assert (Ex : s_f s' (p ++ [j]) = x) by (cbn; pd). rewrite Ex. exact H2.
    + auto.
    + auto.
    + lia.
    + intros y. rewrite Enw. auto.
    + apply Sp0.
    + auto.
    + intros b Hb. pose proof (sp_slot _ _ _ _ _ _ _ _ _ Sp0 j b Hb) as S1. rewrite Es in *. auto.
    + eapply facts_stable; [apply Sp0|]. intros C. split; auto. intros y Ey ->. apply Ew'. intros ->.
      unfold stat in Es. pose proof (i_role N s T own I q Hq) as R. unfold roleok in R. rewrite Oq in R. destruct (j <? i) eqn:Ji; [discriminate|].
      destruct (j =? i) eqn:Jj; [discriminate|].
      pose proof (sp_pc _ _ _ _ _ _ _ _ _ Sp0) as Pk. cbn in Pk. destruct (nth_error bs i) as [z|] eqn:Ez; [|apply nth_error_None in Ez; lia].
      pose proof (sp_slot _ _ _ _ _ _ _ _ _ Sp0 i z Ez) as Sd. unfold stat in Sd. rewrite Nat.ltb_irrefl, Nat.eqb_refl in Sd. destruct Sd as [_ (q' & Q1 & Q2 & Q3 & _)].
      assert (q' = q) by congruence. subst q'. rewrite Oq in Q2. injection Q2 as ->. rewrite Nat.eqb_refl in Jj. discriminate.
    + left. auto.
    + auto.
    + intros _. rewrite Oq. split; auto. split; auto. split; [now rewrite Es|].
      pose proof (i_role N s T own I q Hq) as R. unfold roleok in R. rewrite Oq in R. destruct R as (a & b & c & d & e & E1 & _ & H). rewrite E in E1. injection E1 as <- <- <- <- <-. exact H.
    + auto.
    + lia.
    + auto.
    + auto.
    + eapply queue_same; [apply (i_queue N s T own I)|..]; auto.
      * lia.
      * intros; tauto.
      * intros; lia.
      * intros y Hy Oy. rewrite Ew'; auto. congruence.
  - rewrite Em. constructor.
  - apply (mu_frame s s' T own p bs r pc i k r pc i I E E').
    + intros y Hy. unfold Fc. destruct (path_dec y (p ++ [j])) as [->|Hn]; [|now rewrite Ef].
      destruct fo as [x|]; [|reflexivity]. assert (Ex : s_f s' (p ++ [j]) = x) by (cbn; pd). rewrite Ex.
      destruct Hf as [[H1|(b & H1)] [H2|(b0 & H2 & _)]]; rewrite H1, ?H2; subst x; reflexivity.
    + auto.
    + pose proof (wm_upd s s' q Hq Enw Ew') as W. rewrite Ew in W. lia.
Qed.

Ltac nb := repeat match goal with
  | |- context [?a <? ?b] => destruct (Nat.ltb_spec a b)
  | |- context [?a =? ?b] => destruct (Nat.eqb_spec a b)
  end; cbn [orb andb]; try lia; try congruence; auto.

Lemma stat_cur pc i n : match pc with DqLock | DqRead | DqPop _ | DqUnlock _ | DqMake _ | SetW | Up => True | _ => False end -> stat pc i n i = SCur pc.
Proof. destruct pc; intros H; try contradiction; unfold stat; nb. Qed.
Lemma stat_other pc pc' i n j :
  match pc with DqLock | DqRead | DqPop _ | DqUnlock _ | DqMake _ | SetW | Up => True | _ => False end ->
  match pc' with DqLock | DqRead | DqPop _ | DqUnlock _ | DqMake _ | SetW | Up => True | _ => False end -> j <> i -> stat pc i n j = stat pc' i n j.
Proof. destruct pc; intros H; try contradiction; destruct pc'; intros H'; try contradiction; intros; unfold stat; nb. Qed.
Lemma stat_enq pc i n : match pc with EqLock | EqCdr | EqHead => True | _ => False end -> stat pc i n i = SEnq pc.
Proof. destruct pc; intros H; try contradiction; unfold stat; nb. Qed.
Lemma stat_eother pc pc' i n j :
  match pc with EqLock | EqCdr | EqHead | EqUnlock | Wait => True | _ => False end ->
  match pc' with EqLock | EqCdr | EqHead | EqUnlock | Wait => True | _ => False end -> j <> i -> stat pc i n j = stat pc' i n j.
Proof. destruct pc; intros H; try contradiction; destruct pc'; intros H'; try contradiction; intros; unfold stat; nb. Qed.

Lemma slot_at (s : st) (T : tree) own p bs r pc i k : Sp s T own p bs r pc i k -> i < length bs ->
  exists b, nth_error bs i = Some b /\ slotc s T own p b (r i) (stat pc i (length bs) i) i.
Proof.
  intros S L. destruct (nth_error bs i) as [b|] eqn:E; [|apply nth_error_None in E; lia]. exists b. split; auto. now apply S.
Qed.
Lemma set_r_same (r : nat -> work) i x : set_r r i x i = x.
Proof. unfold set_r. destruct (Nat.eq_dec i i); congruence. Qed.
Lemma set_r_other (r : nat -> work) i x j : j <> i -> set_r r i x j = r j.
Proof. unfold set_r. destruct (Nat.eq_dec j i); congruence. Qed.
Lemma with_ok (s : st) T own p j w (Q : nat -> Prop) (P : @res A M -> Prop) f : Inv s T own -> hasq s own p j w Q ->
  (forall q, w_q w = Some q -> own q = Held p j -> q < s_nw s -> w_alive (s_w s q) = true -> Q q -> P (f q (s_w s q))) ->
  P (match w_q w with None => Err | Some q => with_worker s q (f q) end).
Proof.
  intros I (q & E1 & E2 & E3 & E4 & E5) H. rewrite E1. unfold with_worker. destruct (Nat.ltb_spec q (s_nw s)); [|lia]. rewrite E4. cbn. now apply H.
Qed.

Definition fgood (s : st) (T : tree) (x : @res A M) : Prop := match x with Ok s' => good s T s' | Blocked => True | Err => False end.

Lemma fexec_ok s T own p : Inv s T own -> fgood s T (fexec act s p).
Proof.
  intros I. unfold fexec. destruct (s_f s p) as [[b|bs r pc i k]|] eqn:E; [|..|exact Logic.I].
  { assert (L := code_leaf N s T own p b I E). pose proof (i_code N s T own I p b E) as G.
    destruct b as [|a b|bs b]; [exact Logic.I|..].
    - exists (put T p (TSeq b)), own. split; [|split].
      + eapply (core2 N s _ T own p (FCode (PAct a b)) (FCode b)); auto; try reflexivity; try discriminate.
        * cbn. pd.
        * intros y Hy. cbn. pd.
      + cbn. eapply tss_snoc; [constructor|]. eapply tstep_at; [exact G|]. constructor.
      + unfold mu. assert (W := weight_put (Fc s) (Fc (set_f p (Some (FCode b)) (set_mem (act a (s_mem s)) s))) (TSeq b) p T [] _ G).
        cbn [app] in W. assert (W' := W ltac:(intros r Hr; unfold Fc; cbn; destruct (path_dec r p) as [->|]; [exfalso; apply Hr; exists []; now rewrite app_nil_r|reflexivity])).
        cbn [weight cost] in W'. unfold wm in *. cbn [s_k s_w s_nw set_f set_mem] in *. lia.
    - destruct bs as [|b0 bs0].
      + exists (put T p (TSeq b)), own. split; [|split].
        * eapply (core2 N s _ T own p (FCode (PSpawn [] b)) (FCode b)); auto; try reflexivity; try discriminate.
          -- cbn. pd.
          -- intros y Hy. cbn. pd.
        * cbn. eapply tss_snoc; [eapply tss_snoc; [constructor|]|].
          -- eapply tstep_at; [exact G|]. constructor.
          -- cbn [map]. rewrite <- (put_put T p (TPar [] b) (TSeq b) _ G). eapply tstep_at; [eapply get_put_same; exact G|]. constructor. constructor.
        * unfold mu. assert (W := weight_put (Fc s) (Fc (set_f p (Some (FCode b)) s)) (TSeq b) p T [] _ G).
          cbn [app] in W. assert (W' := W ltac:(intros r Hr; unfold Fc; cbn; destruct (path_dec r p) as [->|]; [exfalso; apply Hr; exists []; now rewrite app_nil_r|reflexivity])).
          cbn [weight cost] in W'. unfold wm in *. cbn [s_k s_w s_nw set_f set_mem] in *. lia.
      + remember (b0 :: bs0) as bs eqn:Ebs. set (s' := set_f p (Some (FSpawn bs (fun _ => mkwork None None) Fill 0 b)) s).
        exists (put T p (TPar (map TSeq bs) b)), own. split; [|split].
        * eapply (core2 N s s' T own p (FCode (PSpawn bs b)) (FSpawn bs (fun _ => mkwork None None) Fill 0 b)); auto; try reflexivity; try discriminate.
          -- cbn. pd.
          -- intros y Hy. cbn. pd.
          -- split; auto. constructor.
             ++ exists (map TSeq bs). split; [eapply get_put_same; exact G|apply map_length].
             ++ cbn. rewrite Ebs. cbn. lia.
             ++ intros j z Hz. cbn. split.
                ** cbn. pd; auto.
                ** rewrite get_app, (get_put_same T p _ _ G). cbn [get]. rewrite nth_error_map, Hz. reflexivity.
             ++ exact Logic.I.
             ++ discriminate.
        * cbn. eapply tss_snoc; [constructor|]. eapply tstep_at; [exact G|]. constructor.
        * unfold mu. assert (W := weight_put (Fc s) (Fc s') (TPar (map TSeq bs) b) p T [] _ G).
          cbn [app] in W. assert (W' := W ltac:(intros r Hr; unfold Fc; cbn; destruct (path_dec r p) as [->|]; [exfalso; apply Hr; exists []; now rewrite app_nil_r|reflexivity])). clear W.
          rewrite weight_par in W'. change (weight (Fc s) p (TSeq (PSpawn bs b))) with (40 * length bs + 10 + list_sum (map cost bs) + cost b) in W'.
          assert (F1 : Fc s' p = fc Fill 0 (length bs)) by (unfold Fc, s'; cbn [s_f set_f]; destruct (path_dec p p); [reflexivity|congruence]). rewrite F1 in W'.
          assert (Ws : forall (l : list prog) n, wsum (fun j t => weight (Fc s') (p ++ [j]) t) n (map TSeq l) = list_sum (map cost l)).
          { induction l as [|x l IH]; intros n; cbn; auto. }
          rewrite Ws in W'. assert (L1 : fc Fill 0 (length bs) <= 34 * length bs + 2) by (unfold fc; rewrite Ebs; cbn [length]; lia).
          change (s_k s') with (s_k s). change (wm s') with (wm s). lia. }
  assert (Sp0 := i_spawn N s T own I _ _ _ _ _ _ E). pose proof (sp_pc _ _ _ _ _ _ _ _ _ Sp0) as Pk.
  assert (Li : i < length bs) by (destruct pc; cbn in Pk; lia).
  destruct (slot_at _ _ _ _ _ _ _ _ _ Sp0 Li) as (b & Eb & Sb).
  assert (Cn : p ++ [i] <> p) by apply app_neq_self.
  destruct pc as [| | |qo|qo|qo| | | | | | | |].
  (* Fill *)
  - rewrite Eb. cbn in Pk. unfold stat in Sb. rewrite Nat.ltb_irrefl in Sb. cbn in Sb. destruct (Nat.eqb_spec i (length bs - 1)) as [Ei|Ei].
    + set (s' := set_f (p ++ [i]) _ _).
      assert (E' : s_f s' p = Some (FSpawn bs (set_r r i (mkwork (Some b) (w_q (r i)))) Inline i k)) by (cbn; pd).
      assert (Ec : s_f s' (p ++ [i]) = Some (FCode b)) by (cbn; pd).
      assert (Fo : forall y, y <> p -> y <> p ++ [i] -> s_f s' y = s_f s y) by (intros y H1 H2; cbn; pd).
      destruct Sb as [Sb1 Sb2].
      exists T, own. split; [|split; [constructor|]].
      * apply (core N s s' T own own p bs r Fill i k (set_r r i (mkwork (Some b) (w_q (r i)))) Inline i i (s_nw s)); auto.
        -- right. split; auto. right. exists b. auto.
        -- intros; lia.
        -- cbn. lia.
        -- intros j Hj Lj. rewrite set_r_other by auto. split; auto. unfold stat. nb.
        -- intros b' Hb. unfold stat. destruct (Nat.ltb_spec i (length bs - 1)); [lia|]. cbn [slotc]. congruence.
        -- exact Logic.I.
        -- cbn; intros; lia.
        -- intros q [H _]. unfold stat in H. rewrite Nat.ltb_irrefl in H. contradiction.
        -- eapply queue_same; [apply (i_queue N s T own I)|..]; auto; [intros; tauto|cbn; intros; lia].
      * apply (mu_frame s s' T own p bs r Fill i k _ Inline i I E E').
        -- intros y Hy. unfold Fc. destruct (path_dec y (p ++ [i])) as [->|Hn]; [|now rewrite Fo]. now rewrite Ec, Sb1.
        -- reflexivity.
        -- change (wm s') with (wm s). unfold fc. lia.
    + eapply (simple s T own p bs r Fill i k _ DqLock i (s_lock s) I E).
      * cbn. lia.
      * intros j Hj Lj. rewrite set_r_other by auto. split; auto. unfold stat. nb.
      * intros b' Hb. rewrite stat_cur by exact Logic.I. rewrite set_r_same. cbn. assert (b' = b) by congruence. subst. auto.
      * exact Logic.I.
      * left. auto.
      * intros q [H _]. unfold stat in H. rewrite Nat.ltb_irrefl in H. contradiction.
      * unfold fc. lia.
  (* DqLock *)
  - unfold lock. destruct (s_lock s) eqn:Lk; [exact Logic.I|]. rewrite stat_cur in Sb by exact Logic.I. cbn in Sb.
    eapply (simple s T own p bs r DqLock i k r DqRead i (Some (LPath p)) I E).
    + exact Pk.
    + intros j Hj Lj. split; auto. now apply stat_other.
    + intros b' Hb. rewrite stat_cur by exact Logic.I. cbn. assert (b' = b) by congruence. subst. auto.
    + exact Logic.I.
    + auto.
    + intros q [H _]. rewrite stat_cur in H by exact Logic.I. contradiction.
    + unfold fc. lia.
  (* DqRead *)
  - rewrite stat_cur in Sb by exact Logic.I. cbn in Sb.
    eapply (simple s T own p bs r DqRead i k r (DqPop (s_head s)) i (s_lock s) I E).
    + exact Pk.
    + intros j Hj Lj. split; auto. now apply stat_other.
    + intros b' Hb. rewrite stat_cur by exact Logic.I. cbn. assert (b' = b) by congruence. subst. auto.
    + reflexivity.
    + auto.
    + intros q [H _]. rewrite stat_cur in H by exact Logic.I. contradiction.
    + unfold fc. lia.
  (* DqPop *)
  - rewrite stat_cur in Sb by exact Logic.I. cbn in Sb. pose proof (sp_facts _ _ _ _ _ _ _ _ _ Sp0) as Pf. cbn in Pf.
    destruct qo as [q|].
    + destruct (i_queue N s T own I) as (l & ND & Ch & Hl). destruct l as [|q' l]; cbn in Ch; [congruence|]. destruct Ch as (Eh & c & Ec & Ch).
      assert (q' = q) by congruence. subst q'. destruct (proj1 (Hl q) (or_introl eq_refl)) as [Hq Oq].
      pose proof (i_role N s T own I q Hq) as R. unfold roleok in R. rewrite Oq in R. assert (R0 := R). destruct R as (_ & R1 & _).
      unfold with_worker. destruct (Nat.ltb_spec q (s_nw s)); [|lia]. rewrite R1. cbn [andb]. rewrite Ec.
      set (s' := set_f p _ _). set (own' := fun y => if Nat.eq_dec y q then Held p i else own y).
      assert (Oq' : own' q = Held p i) by (unfold own'; pd).
      assert (Oo : forall y, y <> q -> own' y = own y) by (intros; unfold own'; pd).
      exists T, own'. split; [|split; [constructor|]].
      * apply (core N s s' T own own' p bs r (DqPop (Some q)) i k r (DqUnlock (Some q)) i i q); auto.
        -- cbn. pd.
        -- intros y H1 H2. cbn. pd.
        -- left. cbn. pd; auto.
        -- intros j Hj Lj. split; auto. now apply stat_other.
        -- intros b' Hb. rewrite stat_cur by exact Logic.I. assert (b' = b) by congruence. subst. cbn. destruct Sb as ((Sb1 & Sb2) & Sb3 & _). split; [split; auto; cbn; pd; auto|]. split; auto. 
        -- exact Logic.I.
        -- right. apply (sp_lock _ _ _ _ _ _ _ _ _ Sp0). reflexivity.
        -- intros _. rewrite Oq'. split; auto. split; auto. split; [|exact Li]. now rewrite stat_cur.
        -- intros q' [H' _]. rewrite stat_cur in H' by exact Logic.I. contradiction.
        -- exists l. inversion ND; subst. split; auto. split; [cbn; eapply chain_ext; [|exact Ch]; auto|].
           intros y. change (s_nw s') with (s_nw s). destruct (Nat.eq_dec y q) as [->|Hy].
           ++ split; [intros; contradiction|]. intros [_ Z]. congruence.
           ++ rewrite Oo by auto. rewrite <- Hl. cbn. split; auto. intros [Z|Z]; congruence.
      * apply (mu_frame s s' T own p bs r (DqPop (Some q)) i k r (DqUnlock (Some q)) i I E).
        -- cbn. pd.
        -- intros y Hy. unfold Fc. cbn. pd.
        -- reflexivity.
        -- change (wm s') with (wm s). unfold fc. lia.
    + eapply (simple s T own p bs r (DqPop None) i k r (DqUnlock None) i (s_lock s) I E).
      * exact Pk.
      * intros j Hj Lj. split; auto. now apply stat_other.
      * intros b' Hb. rewrite stat_cur by exact Logic.I. cbn. assert (b' = b) by congruence. subst. auto.
      * reflexivity.
      * auto.
      * intros q [H _]. rewrite stat_cur in H by exact Logic.I. contradiction.
      * unfold fc. lia.
  (* DqUnlock *)
  - rewrite stat_cur in Sb by exact Logic.I. cbn in Sb. pose proof (sp_lock _ _ _ _ _ _ _ _ _ Sp0 eq_refl) as Lk.
    unfold unlock. rewrite Lk. destruct (path_dec p p); [|congruence].
    eapply (simple s T own p bs r (DqUnlock qo) i k r (DqMake qo) i None I E).
    + exact Pk.
    + intros j Hj Lj. split; auto. now apply stat_other.
    + intros b' Hb. rewrite stat_cur by exact Logic.I. cbn. assert (b' = b) by congruence. subst. auto.
    + exact Logic.I.
    + auto.
    + intros q. unfold holds. rewrite !stat_cur by exact Logic.I. auto.
    + unfold fc. lia.
  (* DqMake *)
  - rewrite stat_cur in Sb by exact Logic.I. cbn in Sb. destruct qo as [q|].
    + eapply (simple s T own p bs r (DqMake (Some q)) i k _ SetW i (s_lock s) I E).
      * exact Pk.
      * intros j Hj Lj. rewrite set_r_other by auto. split; auto. now apply stat_other.
      * intros b' Hb. rewrite stat_cur by exact Logic.I. rewrite set_r_same. cbn. assert (b' = b) by congruence. subst.
        destruct Sb as (S1 & S2 & S3 & S4). split; auto. split; auto. exists q. cbn. destruct S4 as (S4 & S5 & S6). unfold idleW. auto 7.
      * exact Logic.I.
      * left. auto.
      * intros q'. unfold holds. rewrite !stat_cur by exact Logic.I. rewrite set_r_same. cbn. intros [-> ?]. auto.
      * unfold fc. lia.
    + set (s' := set_f p _ _). set (q := s_nw s) in *. set (own' := fun y => if Nat.eq_dec y q then Held p i else own y).
      assert (Oq' : own' q = Held p i) by (unfold own'; pd).
      assert (Oo : forall y, y <> q -> own' y = own y) by (intros; unfold own'; pd).
      assert (Ew : s_w s' q = mkwk true 0 0 None None WDown) by (cbn; pd).
      assert (Ew' : forall y, y <> q -> s_w s' y = s_w s y) by (intros y Hy; cbn; pd).
      exists T, own'. split; [|split; [constructor|]].
      * apply (core N s s' T own own' p bs r (DqMake None) i k (set_r r i (mkwork (w_proc (r i)) (Some q))) SetW i i q); auto.
        -- cbn. pd.
        -- intros y H1 H2. cbn. pd.
        -- left. cbn. pd; auto.
        -- unfold q. intros; lia.
        -- cbn. unfold q. lia.
        -- cbn. unfold q. intros. lia.
        -- intros j Hj Lj. rewrite set_r_other by auto. split; auto. now apply stat_other.
        -- intros b' Hb. rewrite stat_cur by exact Logic.I. rewrite set_r_same. assert (b' = b) by congruence. subst. cbn. destruct Sb as ((Sb1 & Sb2) & Sb3 & _). split; [split; auto; cbn; pd; auto|]. split; auto.
           exists q. unfold idleW. rewrite Ew. cbn [w_alive w_ready w_done w_pos w_q]. change (s_nw s') with (S q). split; auto. split; auto. split; [lia|]. split; auto.
        -- exact Logic.I.
        -- intros _. rewrite Oq'. split; auto. split; auto. split; [|exact Li]. rewrite stat_cur by exact Logic.I. now rewrite set_r_same.
        -- intros q' [H _]. rewrite stat_cur in H by exact Logic.I. contradiction.
        -- eapply queue_same; [apply (i_queue N s T own I)|..]; auto.
           ++ cbn. unfold q. lia.
           ++ intros y Hy. rewrite Oo by (unfold q; lia). tauto.
           ++ intros y Hy Hy2 Oy. cbn in Hy2. assert (y = q) by (unfold q in *; lia). congruence.
           ++ intros y Hy Oy. rewrite Ew'; auto. unfold q. lia.
      * apply (mu_frame s s' T own p bs r (DqMake None) i k (set_r r i (mkwork (w_proc (r i)) (Some q))) SetW i I E).
        -- cbn. pd.
        -- intros y Hy. unfold Fc. cbn. pd.
        -- reflexivity.
        -- assert (W : wm s' = wm s + 12). { unfold wm. change (s_nw s') with (S q). cbn [nsum]. rewrite Ew. rewrite (nsum_ext _ (fun y => wcost (s_w s y))); [reflexivity|]. intros y Hy. rewrite Ew'; auto. lia. }
           rewrite W. unfold fc. lia.
  (* SetW *)
  - rewrite stat_cur in Sb by exact Logic.I. destruct Sb as (S1 & S2 & S3).
    apply (with_ok s T own p i (r i) (idleW s) (fgood s T) _ I S3). intros q Q1 Q2 Q3 Q4 (_ & _ & Q5 & Q6 & Q7).
    eapply (touch s T own p bs r SetW i k Up i q _ I E); auto.
    + intros j Hj Lj. now apply stat_other.
    + intros b' Hb. rewrite stat_cur by exact Logic.I. assert (b' = b) by congruence. subst. split; [split; [cbn; pd; apply S1|apply S1]|]. split; auto.
      exists q. unfold idleW. cbn. destruct (Nat.eq_dec q q); [|congruence]. cbn. auto 10.
    + exact Logic.I.
    + split; [|exact Li]. now rewrite stat_cur.
    + intros q' [H _]. rewrite stat_cur in H by exact Logic.I. congruence.
  (* Up *)
  - rewrite stat_cur in Sb by exact Logic.I. destruct Sb as (S1 & S2 & S3). cbn in Pk.
    apply (with_ok s T own p i (r i) _ (fgood s T) _ I S3). intros q Q1 Q2 Q3 Q4 ((_ & _ & Q5 & Q6 & Q7) & Q8).
    eapply (touch s T own p bs r Up i k Fill (S i) q _ I E); auto.
    + intros j Hj Lj. unfold stat. nb.
    + intros b' Hb. assert (b' = b) by congruence. subst. unfold stat. destruct (Nat.ltb_spec i (S i)); [|lia]. split; auto.
      exists q. cbn. destruct (Nat.eq_dec q q); [|congruence]. cbn. repeat (split; [now auto|]). left. cbn. rewrite Q5, Q6. repeat (split; [now auto|]). split; [cbn; pd; apply S1|apply S1].
    + exact Logic.I.
    + split; [|exact Li]. unfold stat. destruct (Nat.ltb_spec i (S i)); [|lia]. auto.
    + intros q' [H _]. rewrite stat_cur in H by exact Logic.I. congruence.
    + unfold fc, wcost. cbn [w_ready w_alive w_pos]. lia.
  (* Inline *)
  - cbn in Pk. destruct (s_f s (p ++ [i])) as [[[| |]|]|] eqn:Ec; try exact Logic.I.
    set (s' := set_f p _ _).
    assert (E' : s_f s' p = Some (FSpawn bs r Wait 0 k)) by (cbn; pd).
    assert (Ec' : s_f s' (p ++ [i]) = None) by (cbn; pd; auto).
    assert (Fo : forall y, y <> p -> y <> p ++ [i] -> s_f s' y = s_f s y) by (intros y H1 H2; cbn; pd).
    exists T, own. split; [|split; [constructor|]].
    * apply (core N s s' T own own p bs r Inline i k r Wait 0 i (s_nw s)); auto.
      -- right. split; eauto.
      -- intros; lia.
      -- cbn. lia.
      -- intros j Hj Lj. split; auto. unfold stat. nb.
      -- intros b' Hb. unfold stat. destruct (Nat.ltb_spec i (length bs - 1)); [lia|]. rewrite andb_false_r. cbn [orb]. cbn [slotc]. split; [exact Ec'|]. apply (i_code N s T own I _ _ Ec).
      -- exact Logic.I.
      -- cbn; intros; lia.
      -- intros q [H _]. unfold stat in H. destruct (Nat.ltb_spec i (length bs - 1)); [lia|]. contradiction.
      -- eapply queue_same; [apply (i_queue N s T own I)|..]; auto; [intros; tauto|cbn; intros; lia].
    * apply (mu_frame s s' T own p bs r Inline i k r Wait 0 I E E').
      -- intros y Hy. unfold Fc. destruct (path_dec y (p ++ [i])) as [->|Hn]; [|now rewrite Fo]. now rewrite Ec, Ec'.
      -- reflexivity.
      -- change (wm s') with (wm s). unfold fc. lia.
  (* Wait *)
  - destruct (Nat.ltb_spec i (length bs - 1)) as [Hi|Hi].
    + assert (Es : stat Wait i (length bs) i = SGiven) by (unfold stat; nb). rewrite Es in Sb. destruct Sb as (S2 & S3).
      apply (with_ok s T own p i (r i) _ (fgood s T) _ I S3). intros q Q1 Q2 Q3 Q4 (Q5 & Q6).
      assert (PH : w_done (s_w s q) = 0 \/ (w_pos (s_w s q) = WDown /\ w_ready (s_w s q) = 0 /\ w_done (s_w s q) = 1 /\ NS s T p i PEnd)) by (unfold phase in Q6; tauto).
      destruct PH as [->|(P1 & P2 & P3 & P4)]; [exact Logic.I|]. rewrite P3.
      eapply (touch s T own p bs r Wait i k EqLock i q _ I E); auto.
      * cbn. lia.
      * intros j Hj Lj. now apply stat_eother.
      * intros b' Hb. rewrite stat_enq by exact Logic.I. split; [split; [cbn; pd; apply P4|apply P4]|].
        exists q. unfold idleW. cbn. destruct (Nat.eq_dec q q); [|congruence]. cbn. auto 10.
      * exact Logic.I.
      * split; [|exact Li]. now rewrite stat_enq.
      * intros q' [H _]. rewrite Es in H. congruence.
      * unfold fc, wcost. cbn. lia.
    + cbn in Pk. assert (Ei : i = length bs - 1) by lia.
      assert (Sf : forall j, j < length bs -> NS s T p j PEnd).
      { intros j Lj. destruct (nth_error bs j) as [z|] eqn:Ez; [|apply nth_error_None in Ez; lia].
        pose proof (sp_slot _ _ _ _ _ _ _ _ _ Sp0 j z Ez) as Sz. assert (Es : stat Wait i (length bs) j = SFin) by (unfold stat; nb). now rewrite Es in Sz. }
      assert (Lf : forall j, s_f s (p ++ [j]) = None).
      { intros j. destruct (s_f s (p ++ [j])) eqn:F; auto. exfalso. destruct (i_link N s T own I p j) as [[-> _]|(? & ? & ? & ? & ? & E1 & L)]; [congruence|rewrite (i_nil N s T own I) in E; discriminate|].
        rewrite E in E1. injection E1 as <- <- <- <- <-. destruct (Sf j L). congruence. }
      destruct (sp_tree _ _ _ _ _ _ _ _ _ Sp0) as (ts & G & Lt).
      assert (Fa : Forall (fun t => t = TSeq PEnd) ts).
      { apply Forall_forall. intros t Ht. apply In_nth_error in Ht as (j & Hj). assert (j < length ts) by (apply nth_error_Some; congruence).
        destruct (Sf j ltac:(lia)) as [_ G2]. rewrite get_app, G in G2. cbn in G2. rewrite Hj in G2. congruence. }
      exists (put T p (TSeq k)), own. split; [|split].
      * eapply (core2 N s _ T own p _ (FCode k)); try exact E; auto; try reflexivity.
        -- cbn. pd.
        -- intros y Hy. cbn. pd.
        -- cbn. split; auto. intros q j Hq Oq. pose proof (i_role N s T own I q Hq) as R. unfold roleok in R. rewrite Oq in R.
           destruct R as (a & c & d & e & f & E1 & H & Lj). rewrite E in E1. injection E1 as <- <- <- <- <-.
           assert (Es : stat Wait i (length bs) j = SFin) by (unfold stat; nb). rewrite Es in H. contradiction.
      * cbn. eapply tss_snoc; [constructor|]. eapply tstep_at; [exact G|]. constructor. exact Fa.
      * unfold mu. assert (W := weight_put (Fc s) (Fc (set_f p (Some (FCode k)) s)) (TSeq k) p T [] _ G).
        cbn [app] in W. assert (W' := W ltac:(intros y Hr; unfold Fc; cbn; destruct (path_dec y p) as [->|]; [exfalso; apply Hr; exists []; now rewrite app_nil_r|reflexivity])). clear W.
        rewrite weight_par in W'. cbn [weight cost] in W'. assert (F1 : Fc s p = fc Wait i (length bs)) by (unfold Fc; now rewrite E). rewrite F1 in W'.
        unfold fc in W'. unfold wm in *. cbn [s_k s_w s_nw set_f set_mem] in *. lia.
  (* EqLock *)
  - unfold lock. destruct (s_lock s) eqn:Lk; [exact Logic.I|]. rewrite stat_enq in Sb by exact Logic.I. cbn in Sb.
    eapply (simple s T own p bs r EqLock i k r EqCdr i (Some (LPath p)) I E).
    + exact Pk.
    + intros j Hj Lj. split; auto. now apply stat_eother.
    + intros b' Hb. rewrite stat_enq by exact Logic.I. exact Sb.
    + exact Logic.I.
    + auto.
    + intros q. unfold holds. rewrite !stat_enq by exact Logic.I. auto.
    + unfold fc. lia.
  (* EqCdr *)
  - rewrite stat_enq in Sb by exact Logic.I. destruct Sb as (S1 & S3).
    apply (with_ok s T own p i (r i) (idleW s) (fgood s T) _ I S3). intros q Q1 Q2 Q3 Q4 (_ & _ & Q5 & Q6 & Q7).
    eapply (touch s T own p bs r EqCdr i k EqHead i q _ I E); auto.
    + intros j Hj Lj. now apply stat_eother.
    + intros b' Hb. rewrite stat_enq by exact Logic.I. split; [split; [cbn; pd; apply S1|apply S1]|].
      exists q. unfold idleW. cbn. destruct (Nat.eq_dec q q); [|congruence]. cbn. auto 10.
    + exists q. cbn. destruct (Nat.eq_dec q q); [|congruence]. auto.
    + split; [|exact Li]. now rewrite stat_enq.
    + intros q' [H _]. rewrite stat_enq in H by exact Logic.I. congruence.
    + unfold fc, wcost. cbn. lia.
  (* EqHead *)
  - rewrite stat_enq in Sb by exact Logic.I. destruct Sb as (S1 & q & Q1 & Q2 & Q3 & Q4 & Q5). rewrite Q1.
    destruct (sp_facts _ _ _ _ _ _ _ _ _ Sp0) as (q' & F1 & F2). assert (q' = q) by congruence. subst q'.
    set (s' := set_f p _ _). set (own' := fun y => if Nat.eq_dec y q then Idle else own y).
    assert (Oq' : own' q = Idle) by (unfold own'; pd).
    assert (Oo : forall y, y <> q -> own' y = own y) by (intros; unfold own'; pd).
    cbn in Pk.
    exists T, own'. split; [|split; [constructor|]].
    * apply (core N s s' T own own' p bs r EqHead i k r EqUnlock i i q); auto.
      -- cbn. pd.
      -- intros y H1 H2. cbn. pd.
      -- left. cbn. pd; auto.
      -- intros j Hj Lj. split; auto. now apply stat_eother.
      -- intros b' Hb. assert (Es : stat EqUnlock i (length bs) i = SFin) by (unfold stat; nb). rewrite Es. split; [cbn; pd; apply S1|apply S1].
      -- exact Logic.I.
      -- right. apply (sp_lock _ _ _ _ _ _ _ _ _ Sp0). reflexivity.
      -- intros _. rewrite Oq'. exact Q5.
      -- intros q' [H _]. rewrite stat_enq in H by exact Logic.I. left. congruence.
      -- destruct (i_queue N s T own I) as (l & ND & Ch & Hl). exists (q :: l). split; [|split].
         ++ constructor; auto. intros Z. apply Hl in Z as [_ Z]. congruence.
         ++ cbn. split; auto. exists (s_head s). split; auto. eapply chain_ext; [|exact Ch]. auto.
         ++ intros y. change (s_nw s') with (s_nw s). cbn [In]. destruct (Nat.eq_dec y q) as [->|Hy]; [tauto|]. rewrite Oo, <- Hl by auto. split; auto. intros [Z|Z]; congruence.
    * apply (mu_frame s s' T own p bs r EqHead i k r EqUnlock i I E).
      -- cbn. pd.
      -- intros y Hy. unfold Fc. cbn. pd.
      -- reflexivity.
      -- change (wm s') with (wm s). unfold fc. lia.
  (* EqUnlock *)
  - cbn in Pk. assert (Es : stat EqUnlock i (length bs) i = SFin) by (unfold stat; nb). rewrite Es in Sb. cbn in Sb. pose proof (sp_lock _ _ _ _ _ _ _ _ _ Sp0 eq_refl) as Lk.
    unfold unlock. rewrite Lk. destruct (path_dec p p); [|congruence].
    assert (Es' : stat Wait (S i) (length bs) i = SFin) by (unfold stat; nb).
    eapply (simple s T own p bs r EqUnlock i k r Wait (S i) None I E).
    + cbn. lia.
    + intros j Hj Lj. split; auto. unfold stat; nb.
    + intros b' Hb. rewrite Es'. exact Sb.
    + exact Logic.I.
    + auto.
    + intros q. unfold holds. rewrite Es. tauto.
    + unfold fc. lia.
Qed.

(** ** Worker threads and the clean-up *)
Lemma coreK s s' T own own' : Inv s T own -> quiet N s -> (forall y, s_f s' y = s_f s y) -> s_nw s' = s_nw s ->
  (forall p, s_lock s' <> Some (LPath p)) -> (s_lock s' = Some LKill <-> kcrit (s_k s') = true) ->
  (forall q, q < s_nw s -> match own' q with Held _ _ => False | _ => roleok s' own' q end) -> Queue s' own' ->
  (forall q, inhand s' = Some q -> q < s_nw s /\ own' q = Dying) ->
  (forall q, s_k s' = KCdr q -> s_head s' = Some q) -> (inhand s' = None -> s_term s' = 0) -> (s_k s' = KDone -> s_head s' = None) ->
  Inv s' T own'.
Proof.
  intros I Q Ef En L1 L2 R Qu Ih Kh Tm Kd. constructor.
  - apply (i_root N s T own I).
  - rewrite Ef. apply (i_nil N s T own I).
  - intros u Hu. rewrite Ef. now apply (i_user N s T own I).
  - intros p j. rewrite Ef. intros H. destruct (i_link N s T own I p j H) as [L|(a & b & c & d & e & E & L)]; [left; exact L|]. right. exists a, b, c, d, e. rewrite Ef. auto.
  - intros p b. rewrite Ef. apply (i_code N s T own I).
  - intros p a b c d e. rewrite Ef. intros H. exfalso. now apply (quiet_nospawn N s T own I Q _ _ _ _ _ _ H).
  - intros p H. exfalso. now apply (L1 p).
  - exact L2.
  - intros q Hq. rewrite En in Hq. specialize (R q Hq). unfold roleok in *. destruct (own' q); auto. contradiction.
  - exact Qu.
  - intros _ u Hu. rewrite Ef. auto.
  - intros q H. rewrite En. auto.
  - exact Kh.
  - exact Tm.
  - exact Kd.
Qed.
Lemma weight_same s s' (T : tree) : (forall y, s_f s' y = s_f s y) -> weight (Fc s') [] T = weight (Fc s) [] T.
Proof. intros H. apply weight_ext. intros y. unfold Fc. now rewrite H. Qed.

(** in the clean-up phase a worker is idle, dead, or the one in hand *)
Lemma krole s T own : Inv s T own -> quiet N s -> forall q, q < s_nw s ->
  (own q = Idle /\ idleW s q) \/ (own q = Dead /\ w_alive (s_w s q) = false /\ w_pos (s_w s q) = WExit /\ w_ready (s_w s q) = 0) \/ (own q = Dying /\ dying s q).
Proof.
  intros I Q q Hq. pose proof (i_role N s T own I q Hq) as R. unfold roleok in R. destruct (own q) as [|p j| |]; auto.
  exfalso. destruct R as (a & b & c & d & e & E & _). now apply (quiet_nospawn N s T own I Q _ _ _ _ _ _ E).
Qed.
Lemma dying_hand (s : st) q : dying s q -> inhand s = Some q.
Proof. unfold dying, inhand. destruct (s_k s); cbn; intros (_ & _ & H); try contradiction; destruct H as [-> _]; auto. Qed.
Lemma nolockp s T own : Inv s T own -> quiet N s -> forall p, s_lock s <> Some (LPath p).
Proof. intros I Q p H. destruct (i_lock N s T own I p H) as (a & b & c & d & e & E & _). now apply (quiet_nospawn N s T own I Q _ _ _ _ _ _ E). Qed.

(** one step of the clean-up phase that changes at most worker [q0], the one in hand after it *)
Lemma kstep s s' T own own' q0 : Inv s T own -> quiet N s -> (forall y, s_f s' y = s_f s y) -> s_nw s' = s_nw s -> s_mem s' = s_mem s ->
  (forall q, q <> q0 -> own' q = own q /\ s_w s' q = s_w s q) ->
  (forall q, q <> q0 -> q < s_nw s -> own q <> Dying) ->
  (forall p, s_lock s' <> Some (LPath p)) -> (s_lock s' = Some LKill <-> kcrit (s_k s') = true) ->
  (q0 < s_nw s -> match own' q0 with Held _ _ => False | _ => roleok s' own' q0 end) -> Queue s' own' ->
  (forall q, inhand s' = Some q -> q < s_nw s /\ own' q = Dying) ->
  (forall q, s_k s' = KCdr q -> s_head s' = Some q) -> (inhand s' = None -> s_term s' = 0) -> (s_k s' = KDone -> s_head s' = None) ->
  wm s' + kc (s_k s') < wm s + kc (s_k s) -> good s T s'.
Proof.
  intros I Q Ef En Em OW Nd L1 L2 R0 Qu Ih Kh Tm Kd Hm. exists T, own'. split; [|split].
  - apply (coreK s s' T own own'); auto. intros q Hq. destruct (Nat.eq_dec q q0) as [Eq|Hn]; [subst q; exact (R0 Hq)|].
    destruct (OW q Hn) as [O W]. destruct (krole s T own I Q q Hq) as [[O1 R]|[[O1 R]|[O1 R]]].
    + rewrite O, O1. unfold roleok. rewrite O, O1. unfold idleW in *. now rewrite W, En.
    + rewrite O, O1. unfold roleok. rewrite O, O1. now rewrite W.
    + exfalso. now apply (Nd q).
  - rewrite Em. constructor.
  - unfold mu. rewrite (weight_same s s' T Ef). lia.
Qed.

Lemma kexec_ok s T own : Inv s T own -> (s_k s = KNone -> quiet N s) -> fgood s T (kexec s).
Proof.
  intros I Q0. assert (Q : quiet N s). { destruct (s_k s) eqn:K; auto; apply (i_kill N s T own I); congruence. }
  pose proof (i_queue N s T own I) as Qu. pose proof (i_lockk N s T own I) as Lk. pose proof (nolockp s T own I Q) as Lp.
  assert (Nd : inhand s = None -> forall q, q < s_nw s -> own q <> Dying).
  { intros Ih q Hq Oq. destruct (krole s T own I Q q Hq) as [[O1 _]|[[O1 _]|[_ R]]]; [congruence|congruence|]. apply dying_hand in R. congruence. }
  assert (Nh : forall q0, inhand s = Some q0 -> forall q, q <> q0 -> q < s_nw s -> own q <> Dying).
  { intros q0 Ih q Hn Hq Oq. destruct (krole s T own I Q q Hq) as [[O1 _]|[[O1 _]|[_ R]]]; [congruence|congruence|]. apply dying_hand in R. congruence. }
  assert (Hd : forall q, inhand s = Some q -> q < s_nw s /\ own q = Dying /\ dying s q).
  { intros q Ih. destruct (i_hand N s T own I q Ih) as [H1 H2]. split; auto. split; auto. pose proof (i_role N s T own I q H1) as R. unfold roleok in R. now rewrite H2 in R. }
  assert (Tm := i_term N s T own I).
  assert (Qs : forall (s' : st) own', s_head s' = s_head s -> s_nw s' = s_nw s -> (forall q, q < s_nw s -> (own' q = Idle <-> own q = Idle)) ->
     (forall q, q < s_nw s -> own q = Idle -> w_cdr (s_w s' q) = w_cdr (s_w s q)) -> Queue s' own').
  { intros s' own' E1 E2 E3 E4. eapply queue_same; [exact Qu|..]; auto; [lia|]. intros; lia. }
  unfold kexec. destruct (s_k s) as [| | |q|q|q|q|q|] eqn:K; cbn [kcrit] in Lk.
  - apply (kstep s _ T own own (s_nw s) I Q); cbn; auto; try discriminate; try (intros; lia); try tauto.
    + intros. apply Nd; auto. unfold inhand; now rewrite K.
    + apply Qs; auto. tauto.
    + intros _. apply Tm. unfold inhand; now rewrite K.
    + unfold wm. cbn. rewrite K. cbn. lia.
  - unfold lock. destruct (s_lock s) eqn:L; [exact Logic.I|].
    apply (kstep s _ T own own (s_nw s) I Q); cbn; auto; try discriminate; try (intros; lia); try tauto.
    + intros. apply Nd; auto. unfold inhand; now rewrite K.
    + apply Qs; auto. tauto.
    + intros _. apply Tm. unfold inhand; now rewrite K.
    + unfold wm. cbn. rewrite K. cbn. lia.
  - destruct (s_head s) as [q|] eqn:H.
    + apply (kstep s _ T own own (s_nw s) I Q); cbn; auto; try discriminate; try (intros; lia); try tauto.
      * intros. apply Nd; auto. unfold inhand; now rewrite K.
      * apply Qs; auto; tauto.
      * congruence.
      * intros _. apply Tm. unfold inhand; now rewrite K.
      * unfold wm. cbn. rewrite K. cbn. lia.
    + unfold unlock. rewrite (proj2 Lk eq_refl).
      apply (kstep s _ T own own (s_nw s) I Q); cbn; auto; try discriminate; try (intros; lia); try tauto.
      * intros. apply Nd; auto. unfold inhand; now rewrite K.
      * split; discriminate.
      * apply Qs; auto; tauto.
      * intros _. apply Tm. unfold inhand; now rewrite K.
      * unfold wm. cbn. rewrite K. cbn. lia.
  - destruct Qu as (l & ND & Ch & Hl). pose proof (i_khead N s T own I q K) as Eh. destruct l as [|q' l]; cbn in Ch; [congruence|]. destruct Ch as (Eh' & c & Ec & Ch).
    assert (q' = q) by congruence. subst q'. destruct (proj1 (Hl q) (or_introl eq_refl)) as [Hq Oq].
    pose proof (i_role N s T own I q Hq) as R. unfold roleok in R. rewrite Oq in R. destruct R as (_ & R1 & R2 & R3 & R4).
    unfold with_worker. destruct (Nat.ltb_spec q (s_nw s)); [|lia]. rewrite R1. cbn [andb]. rewrite Ec.
    set (own' := fun y => if Nat.eq_dec y q then Dying else own y).
    assert (Oq' : own' q = Dying) by (unfold own'; pd).
    assert (Oo : forall y, y <> q -> own' y = own y) by (intros; unfold own'; pd).
    assert (Ih : inhand s = None) by (unfold inhand; now rewrite K).
    apply (kstep s _ T own own' q I Q); cbn; auto; try discriminate; try tauto.
    + intros _. rewrite Oq'. unfold roleok. rewrite Oq'. unfold dying. cbn. auto 7.
    + inversion ND; subst. exists l. split; auto. split; [cbn; eapply chain_ext; [|exact Ch]; auto|]. cbn [s_nw set_k set_head].
      intros y. destruct (Nat.eq_dec y q) as [->|Hy]; [split; [intros; contradiction|intros [_ Z]; congruence]|].
      rewrite Oo by auto. rewrite <- Hl. cbn. split; auto. intros [Z|Z]; congruence.
    + intros y Hy. injection Hy as <-. auto.
    + unfold wm. cbn. rewrite K. cbn. lia.
  - destruct (Hd q) as (Hq & Oq & D); [unfold inhand; now rewrite K|]. unfold dying in D. rewrite K in D. destruct D as (D1 & D2 & _ & D3 & D4 & D5).
    unfold with_worker. destruct (Nat.ltb_spec q (s_nw s)); [|lia]. rewrite D1. cbn [andb].
    set (s' := set_k _ _).
    assert (Ew' : forall y, y <> q -> s_w s' y = s_w s y) by (intros y Hy; cbn; pd).
    assert (Ew : s_w s' q = mkwk true (w_ready (s_w s q)) (w_done (s_w s q)) (Some WKill) (w_cdr (s_w s q)) (w_pos (s_w s q))) by (cbn; pd).
    assert (Hm : wm s' + kc (s_k s') < wm s + kc (s_k s)).
    { pose proof (wm_upd s s' q Hq eq_refl Ew') as W. rewrite Ew in W. unfold wcost in W. cbn [w_ready w_pos w_alive] in W. rewrite D1 in W. unfold s' at 2. cbn [s_k set_k]. rewrite K. cbn [kc]. lia. }
    apply (kstep s s' T own own q I Q); auto; cbn; auto; try discriminate; try tauto.
    + intros. apply (Nh q); auto. unfold inhand; now rewrite K.
    + intros _. rewrite Oq. unfold roleok. rewrite Oq. unfold dying. rewrite Ew. cbn. auto 7.
    + apply Qs; auto; [tauto|]. intros y Hy Oy. rewrite Ew'; auto. congruence.
    + intros y Hy. injection Hy as <-. auto.
  - destruct (Hd q) as (Hq & Oq & D); [unfold inhand; now rewrite K|]. unfold dying in D. rewrite K in D. destruct D as (D1 & D2 & _ & D3 & D4 & D5 & D6).
    unfold with_worker. destruct (Nat.ltb_spec q (s_nw s)); [|lia]. rewrite D1. cbn [andb].
    set (s' := set_k _ _).
    assert (Ew' : forall y, y <> q -> s_w s' y = s_w s y) by (intros y Hy; cbn; pd).
    assert (Ew : s_w s' q = mkwk true 1 (w_done (s_w s q)) (w_w (s_w s q)) (w_cdr (s_w s q)) (w_pos (s_w s q))) by (cbn; pd).
    assert (Hm : wm s' + kc (s_k s') < wm s + kc (s_k s)).
    { pose proof (wm_upd s s' q Hq eq_refl Ew') as W. rewrite Ew in W. unfold wcost in W. cbn [w_ready w_pos w_alive] in W. rewrite D1, D3 in W. unfold s' at 2. cbn [s_k set_k]. rewrite K. cbn [kc]. lia. }
    apply (kstep s s' T own own q I Q); auto; cbn; auto; try discriminate; try tauto.
    + intros. apply (Nh q); auto. unfold inhand; now rewrite K.
    + intros _. rewrite Oq. unfold roleok. rewrite Oq. unfold dying. rewrite Ew. cbn. auto 10.
    + apply Qs; auto; [tauto|]. intros y Hy Oy. rewrite Ew'; auto. congruence.
    + intros y Hy. injection Hy as <-. auto.
  - destruct (Hd q) as (Hq & Oq & D); [unfold inhand; now rewrite K|]. unfold dying in D. rewrite K in D. destruct D as (D1 & D2 & _ & D3 & D4).
    destruct (s_term s) as [|n] eqn:Et; [exact Logic.I|]. assert (D5 : w_ready (s_w s q) = 0 /\ w_pos (s_w s q) = WExit /\ n = 0) by (destruct D4 as [D4|[D4|D4]]; [destruct D4 as (_ & _ & D4); discriminate|destruct D4 as (_ & _ & D4); discriminate|destruct D4 as (D4 & D5 & D6); split; auto; split; auto; lia]).
    destruct D5 as (D5 & D6 & ->).
    apply (kstep s _ T own own q I Q); cbn; auto; try discriminate; try tauto.
    + intros. apply (Nh q); auto. unfold inhand; now rewrite K.
    + intros _. rewrite Oq. unfold roleok. rewrite Oq. unfold dying. cbn. auto 7.
    + apply Qs; auto; tauto.
    + intros y Hy. injection Hy as <-. auto.
    + unfold wm. cbn. rewrite K. cbn. lia.
  - destruct (Hd q) as (Hq & Oq & D); [unfold inhand; now rewrite K|]. unfold dying in D. rewrite K in D. destruct D as (D1 & D2 & _ & D3 & D4 & D5).
    unfold with_worker. destruct (Nat.ltb_spec q (s_nw s)); [|lia]. rewrite D1. cbn [andb].
    set (s' := set_k _ _). set (own' := fun y => if Nat.eq_dec y q then Dead else own y).
    assert (Oq' : own' q = Dead) by (unfold own'; pd).
    assert (Oo : forall y, y <> q -> own' y = own y) by (intros; unfold own'; pd).
    assert (Ew' : forall y, y <> q -> s_w s' y = s_w s y) by (intros y Hy; cbn; pd).
    assert (Ew : s_w s' q = mkwk false (w_ready (s_w s q)) (w_done (s_w s q)) (w_w (s_w s q)) (w_cdr (s_w s q)) (w_pos (s_w s q))) by (cbn; pd).
    assert (Hm : wm s' + kc (s_k s') < wm s + kc (s_k s)).
    { pose proof (wm_upd s s' q Hq eq_refl Ew') as W. rewrite Ew in W. unfold wcost in W. cbn [w_ready w_pos w_alive] in W. rewrite D1 in W. unfold s' at 2. cbn [s_k set_k]. rewrite K. cbn [kc]. lia. }
    apply (kstep s s' T own own' q I Q); auto; cbn; auto; try discriminate; try tauto.
    + intros. apply (Nh q); auto. unfold inhand; now rewrite K.
    + intros _. rewrite Oq'. unfold roleok. rewrite Oq', Ew. cbn. auto.
    + apply Qs; auto.
      * intros y Hy. destruct (Nat.eq_dec y q) as [->|Hn]; [rewrite Oq, Oq'; split; discriminate|]. rewrite Oo by auto. tauto.
      * intros y Hy Oy. rewrite Ew'; auto. congruence.
  - exact Logic.I.
Qed.

Lemma wexec_ok s T own q : Inv s T own -> fgood s T (wexec s q).
Proof.
  intros I. unfold wexec. destruct (Nat.ltb_spec q (s_nw s)) as [Hq|Hq]; [|exact Logic.I].
  assert (Ww : w_alive (s_w s q) = true -> forall f, with_worker s q f = f (s_w s q)).
  { intros Ha f. unfold with_worker. destruct (Nat.ltb_spec q (s_nw s)); [|lia]. now rewrite Ha. }
  assert (IdB : idleW s q -> w_pos (s_w s q) = WDown /\ w_alive (s_w s q) = true /\ w_ready (s_w s q) = 0) by (unfold idleW; tauto).
  assert (R0 := i_role N s T own I q Hq). assert (R := R0). unfold roleok in R. destruct (own q) as [|p j| |] eqn:Oq.
  - destruct (IdB R) as (-> & I2 & I3). rewrite Ww, I3 by auto. exact Logic.I.
  - destruct R as (bs & r & pc & i & k & E & H & Lj). assert (Sp0 := i_spawn N s T own I _ _ _ _ _ _ E).
    destruct (nth_error bs j) as [b|] eqn:Eb; [|apply nth_error_None in Eb; lia].
    pose proof (sp_slot _ _ _ _ _ _ _ _ _ Sp0 j b Eb) as Sb.
    assert (Bl : idleW s q -> fgood s T match w_pos (s_w s q) with
       | WDown => with_worker s q (fun w => match w_ready w with 0 => Blocked | S n => Ok (set_w q (mkwk (w_alive w) n (w_done w) (w_w w) (w_cdr w) WLoad) s) end)
       | _ => Err end).
    { intros Hi. destruct (IdB Hi) as (-> & I2 & I3). rewrite Ww, I3 by auto. exact Logic.I. }
    assert (Bl' : idleW s q -> fgood s T (wexec s q)).
    { intros Hi. unfold wexec. destruct (Nat.ltb_spec q (s_nw s)); [|lia]. destruct (IdB Hi) as (-> & I2 & I3). rewrite Ww, I3 by auto. exact Logic.I. }
    clear Bl. unfold wexec in Bl'. destruct (Nat.ltb_spec q (s_nw s)) as [_|]; [|lia].
    destruct (stat pc i (length bs) j) as [|pc1| | | |pc1] eqn:Es; try contradiction.
    + apply Bl'. destruct Sb as (_ & _ & Sb). destruct pc1 as [| | |[q'|]|[q'|]|[q'|]| | | | | | | |]; try contradiction; subst; try apply Sb.
      * destruct Sb as (y & Y1 & Y2 & Y3 & Y4 & Y5). assert (y = q) by congruence. subst. exact Y5.
      * destruct Sb as (y & Y1 & Y2 & Y3 & Y4 & Y5 & _). assert (y = q) by congruence. subst. exact Y5.
    + assert (Sb0 := Sb). destruct Sb as (S2 & y & Y1 & Y2 & Y3 & Y4 & Y5 & Y6). assert (y = q) by congruence. subst y. clear Bl' Y1 Y2 Y3. rewrite Y4.
      assert (Cn : p ++ [j] <> p) by apply app_neq_self.
      destruct Y6 as [(P1 & P2 & P3 & P4)|[(P1 & P2 & P3 & P4)|[(P1 & P2 & P3 & P4)|[(P1 & P2 & P3 & P4)|[(P1 & P2 & P3 & P4)|(P1 & P2 & P3 & P4)]]]]]; rewrite P1.
      * rewrite Ww, P2 by auto. eapply (wkstep s T own p bs r pc i k q j _ None I E); auto.
        -- intros b' Hb _. assert (b' = b) by congruence. subst b'. split; [exact S2|]. exists q. cbn. destruct (Nat.eq_dec q q); [|congruence]. cbn. repeat (split; [now auto|]).
           right; left. auto.
        -- unfold wcost. cbn [w_ready w_pos w_alive]. rewrite P1, P2. cbn. lia.
      * rewrite Ww, Y5 by auto. eapply (wkstep s T own p bs r pc i k q j _ None I E); auto.
        -- intros b' Hb _. assert (b' = b) by congruence. subst b'. split; [exact S2|]. exists q. cbn. destruct (Nat.eq_dec q q); [|congruence]. cbn. repeat (split; [now auto|]).
           right; right; left. auto.
        -- unfold wcost. cbn [w_ready w_pos w_alive]. rewrite P1, P2, Y4. cbn. lia.
      * rewrite E. destruct (Nat.ltb_spec j (length bs)); [|lia]. rewrite S2. eapply (wkstep s T own p bs r pc i k q j _ (Some (Some (FCode b))) I E); auto.
        -- destruct P4 as [P4 P5]. split; auto. right. exists b. auto.
        -- intros b' Hb _. assert (b' = b) by congruence. subst b'. split; [exact S2|]. exists q. cbn. destruct (Nat.eq_dec q q); [|congruence]. cbn. repeat (split; [now auto|]).
           right; right; right; left. cbn. repeat (split; [now auto|]). pd.
        -- unfold wcost. cbn [w_ready w_pos w_alive]. rewrite P1, P2, Y4. cbn. lia.
      * destruct (s_f s (p ++ [j])) as [[[| |]|]|] eqn:Ec; try exact Logic.I.
        eapply (wkstep s T own p bs r pc i k q j _ (Some None) I E); auto.
        -- rewrite Ec. split; eauto.
        -- intros b' Hb _. assert (b' = b) by congruence. subst b'. split; [exact S2|]. exists q. cbn. destruct (Nat.eq_dec q q); [|congruence]. cbn. repeat (split; [now auto|]).
           right; right; right; right; left. cbn. repeat (split; [now auto|]). split; [cbn; pd|]. apply (i_code N s T own I _ _ Ec).
        -- unfold wcost. cbn [w_ready w_pos w_alive]. rewrite P1, P2, Y4. cbn. lia.
      * rewrite Ww by auto. eapply (wkstep s T own p bs r pc i k q j _ None I E); auto.
        -- intros b' Hb _. assert (b' = b) by congruence. subst b'. split; [exact S2|]. exists q. cbn. destruct (Nat.eq_dec q q); [|congruence]. cbn. repeat (split; [now auto|]).
           right; right; right; right; right. cbn. rewrite P3. auto.
        -- unfold wcost. cbn [w_ready w_pos w_alive]. rewrite P1, P2, Y4. cbn. lia.
      * rewrite Ww, P2 by auto. exact Logic.I.
    + apply Bl'. destruct Sb as (_ & y & Y1 & Y2 & Y3 & Y4 & Y5). assert (y = q) by congruence. subst. exact Y5.
  - assert (Ih := dying_hand s q R). assert (Q : quiet N s). { apply (i_kill N s T own I). intros K. unfold inhand in Ih. rewrite K in Ih. discriminate. }
    pose proof (i_lockk N s T own I) as Lk. pose proof (nolockp s T own I Q) as Lp.
    assert (Nh : forall y, y <> q -> y < s_nw s -> own y <> Dying).
    { intros y Hn Hy Oy. destruct (krole s T own I Q y Hy) as [[O1 _]|[[O1 _]|[_ Z]]]; [congruence|congruence|]. apply dying_hand in Z. congruence. }
    assert (KS : forall w' t, w_alive w' = true -> w_done w' = 0 -> w_cdr w' = w_cdr (s_w s q) -> s_k s = KDown q -> w_w w' = Some WKill ->
       ((w_ready w' = 1 /\ w_pos w' = WDown /\ t = 0) \/ (w_ready w' = 0 /\ (w_pos w' = WLoad \/ w_pos w' = WTest WKill \/ w_pos w' = WTerm) /\ t = 0) \/ (w_ready w' = 0 /\ w_pos w' = WExit /\ t = 1)) ->
       wcost w' < wcost (s_w s q) -> good s T (set_w q w' (set_term t s))).
    { intros w' t A1 A2 A3 A4 A5 A6 A7. set (s' := set_w q w' _).
      assert (Ew' : forall y, y <> q -> s_w s' y = s_w s y) by (intros y Hy; cbn; pd).
      assert (Ew : s_w s' q = w') by (cbn; pd).
      apply (kstep s s' T own own q I Q); auto.
      - intros _. rewrite Oq. unfold roleok. rewrite Oq. unfold dying. rewrite Ew. cbn. rewrite A4. auto 7.
      - eapply queue_same; [apply (i_queue N s T own I)|..]; auto; [intros; tauto|cbn; intros; lia|]. intros y Hy Oy. rewrite Ew'; auto. congruence.
      - intros y Hy. now apply (i_hand N s T own I).
      - intros y Hy. now apply (i_khead N s T own I).
      - cbn. unfold inhand. cbn. rewrite A4. discriminate.
      - cbn. rewrite A4. discriminate.
      - pose proof (wm_upd s s' q Hq eq_refl Ew') as W. rewrite Ew in W. change (s_k s') with (s_k s). lia. }
    unfold dying in R. destruct R as (D1 & D2 & D). destruct (s_k s) as [| | |q'|q'|q'|q'|q'|] eqn:K; try contradiction.
    + destruct D as (_ & D3 & D4 & _). rewrite D4, Ww, D3 by auto. exact Logic.I.
    + destruct D as (_ & D3 & D4 & _). rewrite D4, Ww, D3 by auto. exact Logic.I.
    + destruct D as (-> & D3 & D4).
      assert (Sx : forall w', set_w q w' s = set_w q w' (set_term (s_term s) s)) by reflexivity.
      destruct D4 as [(D5 & D6 & D7)|[(D5 & D6 & D7)|(D5 & D6 & D7)]].
      * rewrite D6. rewrite Ww, D5 by auto. cbn. rewrite Sx. apply KS; cbn; auto.
        -- rewrite D7. auto 10.
        -- unfold wcost. cbn [w_ready w_pos w_alive]. rewrite D1, D5, D6. cbn. lia.
      * destruct D6 as [D6|[D6|D6]]; rewrite D6.
        -- rewrite Ww, D3 by auto. cbn. rewrite Sx. apply KS; cbn; auto.
           ++ rewrite ?D7. right; left. split; [auto|]. split; auto 10.
           ++ unfold wcost. cbn [w_ready w_pos w_alive]. rewrite D1, D5, D6. cbn. lia.
        -- cbn. rewrite Sx. apply KS; cbn; auto.
           ++ rewrite ?D7. right; left. split; [auto|]. split; auto 10.
           ++ unfold wcost. cbn [w_ready w_pos w_alive]. rewrite D1, D5, D6. cbn. lia.
        -- cbn. rewrite D7. apply KS; cbn; auto.
           unfold wcost. cbn [w_ready w_pos w_alive]. rewrite D1, D5, D6. cbn. lia.
      * rewrite D6. exact Logic.I.
    + destruct D as (_ & _ & -> & _). exact Logic.I.
  - destruct R as (_ & -> & _). exact Logic.I.
Qed.

(** ** Somebody can always make a step *)
Definition enabled (s : st) : Prop := exists l s', can act N s l (Ok s').
Lemma enabled_f s T own p : Inv s T own -> fexec act s p <> Blocked -> enabled s.
Proof. intros I H. pose proof (fexec_ok s T own p I) as G. destruct (fexec act s p) as [s'| |] eqn:E; [|congruence|contradiction]. exists (Frame p), s'. rewrite <- E. constructor. Qed.
Lemma enabled_w s T own q : Inv s T own -> wexec s q <> Blocked -> enabled s.
Proof. intros I H. pose proof (wexec_ok s T own q I) as G. destruct (wexec s q) as [s'| |] eqn:E; [|congruence|contradiction]. exists (Worker q), s'. rewrite <- E. constructor. Qed.
Lemma enabled_k s T own : Inv s T own -> (s_k s = KNone -> quiet N s) -> kexec s <> Blocked -> enabled s.
Proof. intros I Q H. pose proof (kexec_ok s T own I Q) as G. destruct (kexec s) as [s'| |] eqn:E; [|congruence|contradiction]. exists Killer, s'. rewrite <- E. now constructor. Qed.

Lemma frame_get s T own p f : Inv s T own -> s_f s p = Some f -> exists T0, get T p = Some T0.
Proof.
  intros I E. destruct f as [b|a b c d e]; [eexists; eapply (i_code N s T own I); eauto|].
  destruct (sp_tree _ _ _ _ _ _ _ _ _ (i_spawn N s T own I _ _ _ _ _ _ E)) as (ts & G & _). eauto.
Qed.
Lemma ww s q : q < s_nw s -> w_alive (s_w s q) = true -> forall f : worker -> @res A M, with_worker s q f = f (s_w s q).
Proof. intros Hq Ha f. unfold with_worker. destruct (Nat.ltb_spec q (s_nw s)); [|lia]. now rewrite Ha. Qed.

Lemma frame_progress s T own : Inv s T own -> s_lock s = None -> forall T0 p f, get T p = Some T0 -> s_f s p = Some f -> f <> FCode PEnd -> enabled s.
Proof.
  intros I Lk T0. induction T0 as [b|ts k IH] using tree_nind; intros p f G E Hf.
  - destruct f as [c|bs r pc i k].
    + apply (enabled_f s T own p I). unfold fexec. rewrite E. destruct c as [| |[|? ?]]; congruence.
    + destruct (sp_tree _ _ _ _ _ _ _ _ _ (i_spawn N s T own I _ _ _ _ _ _ E)) as (ts & G' & _). congruence.
  - destruct f as [c|bs r pc i k'].
    + pose proof (i_code N s T own I _ _ E). congruence.
    + assert (Sp0 := i_spawn N s T own I _ _ _ _ _ _ E). pose proof (sp_pc _ _ _ _ _ _ _ _ _ Sp0) as Pk.
      destruct (sp_tree _ _ _ _ _ _ _ _ _ Sp0) as (ts' & G' & Lt). assert (ts' = ts /\ k' = k) as [-> ->] by (split; congruence). clear G'.
      assert (Ch : forall j f, s_f s (p ++ [j]) = Some f -> f <> FCode PEnd -> enabled s).
      { intros j f Ef Hf'. destruct (frame_get s T own _ _ I Ef) as (T1 & G1). assert (G2 := G1). rewrite get_app, G in G2. cbn in G2.
        destruct (nth_error ts j) as [t|] eqn:Et; [|discriminate]. apply nth_error_In in Et. rewrite Forall_forall in IH. eapply (IH t Et (p ++ [j]) f); auto. congruence. }
      assert (Li : i < length bs) by (destruct pc; cbn in Pk; lia).
      destruct (slot_at _ _ _ _ _ _ _ _ _ Sp0 Li) as (b & Eb & Sb).
      assert (Cr : crit pc = false). { destruct (crit pc) eqn:C; auto. pose proof (sp_lock _ _ _ _ _ _ _ _ _ Sp0 C). congruence. }
      destruct pc as [| | |qo|qo|qo| | | | | | | |]; try discriminate Cr.
      * apply (enabled_f s T own p I). unfold fexec. rewrite E, Eb. destruct (_ =? _); congruence.
      * apply (enabled_f s T own p I). unfold fexec, lock. rewrite E, Lk. congruence.
      * apply (enabled_f s T own p I). unfold fexec. rewrite E. destruct qo; congruence.
      * apply (enabled_f s T own p I). unfold fexec. rewrite E. rewrite stat_cur in Sb by exact Logic.I. destruct Sb as (_ & _ & q & Q1 & _ & Q2 & Q3 & _). rewrite Q1, ww by auto. congruence.
      * apply (enabled_f s T own p I). unfold fexec. rewrite E. rewrite stat_cur in Sb by exact Logic.I. destruct Sb as (_ & _ & q & Q1 & _ & Q2 & Q3 & _). rewrite Q1, ww by auto. congruence.
      * cbn in Pk. unfold stat in Sb. destruct (Nat.ltb_spec i (length bs - 1)); [lia|]. cbn in Sb. destruct (s_f s (p ++ [i])) as [f|] eqn:Ef; [|congruence].
        assert (Df : f = FCode PEnd \/ f <> FCode PEnd) by (destruct f as [[| |]|]; auto; right; discriminate).
        destruct Df as [->|Df]; [|apply (Ch i f Ef Df)]. apply (enabled_f s T own p I). unfold fexec. rewrite E, Ef. congruence.
      * destruct (Nat.ltb_spec i (length bs - 1)) as [Hi|Hi].
        -- assert (Es : stat Wait i (length bs) i = SGiven) by (unfold stat; nb). rewrite Es in Sb. destruct Sb as (S2 & q & Q1 & Q2 & Q3 & Q4 & Q5 & Q6).
           assert (Lq : q <? s_nw s = true) by (apply Nat.ltb_lt; auto).
           destruct Q6 as [(P1 & P2 & P3 & P4)|[(P1 & P2 & P3 & P4)|[(P1 & P2 & P3 & P4)|[(P1 & P2 & P3 & P4)|[(P1 & P2 & P3 & P4)|(P1 & P2 & P3 & P4)]]]]].
           ++ apply (enabled_w s T own q I). unfold wexec. rewrite Lq, P1, ww, P2 by auto. congruence.
           ++ apply (enabled_w s T own q I). unfold wexec. rewrite Lq, P1, ww, Q5 by auto. congruence.
           ++ apply (enabled_w s T own q I). unfold wexec. rewrite Lq, P1, E. destruct (i <? length bs); [|congruence]. destruct (w_proc (r i)); congruence.
           ++ destruct (s_f s (p ++ [i])) as [f|] eqn:Ef; [|congruence].
              assert (Df : f = FCode PEnd \/ f <> FCode PEnd) by (destruct f as [[| |]|]; auto; right; discriminate).
              destruct Df as [->|Df]; [|apply (Ch i f Ef Df)]. apply (enabled_w s T own q I). unfold wexec. rewrite Lq, P1, Ef. congruence.
           ++ apply (enabled_w s T own q I). unfold wexec. rewrite Lq, P1, ww by auto. congruence.
           ++ apply (enabled_f s T own p I). unfold fexec. rewrite E. destruct (Nat.ltb_spec i (length bs - 1)); [|lia]. rewrite Q1, ww, P3 by auto. congruence.
        -- apply (enabled_f s T own p I). unfold fexec. rewrite E. destruct (Nat.ltb_spec i (length bs - 1)); [lia|]. congruence.
      * apply (enabled_f s T own p I). unfold fexec, lock. rewrite E, Lk. congruence.
Qed.

Lemma progress s T own : Inv s T own -> s_k s = KDone \/ enabled s.
Proof.
  intros I. destruct (s_lock s) as [[p|]|] eqn:Lk.
  - right. destruct (i_lock N s T own I p Lk) as (bs & r & pc & i & k & E & C).
    assert (Sp0 := i_spawn N s T own I _ _ _ _ _ _ E). pose proof (sp_pc _ _ _ _ _ _ _ _ _ Sp0) as Pk.
    assert (Li : i < length bs) by (destruct pc; cbn in Pk; lia).
    destruct (slot_at _ _ _ _ _ _ _ _ _ Sp0 Li) as (b & Eb & Sb).
    apply (enabled_f s T own p I). unfold fexec. rewrite E. destruct pc as [| | |qo|qo|qo| | | | | | | |]; try discriminate C.
    + congruence.
    + destruct qo; [|congruence]. unfold with_worker. destruct (_ && _); [|congruence]. destruct (w_cdr _); congruence.
    + unfold unlock. rewrite Lk. destruct (path_dec p p); congruence.
    + destruct (w_q (r i)); [|congruence]. unfold with_worker. destruct (_ && _); congruence.
    + destruct (w_q (r i)); congruence.
    + unfold unlock. rewrite Lk. destruct (path_dec p p); congruence.
  - right. assert (C := proj1 (i_lockk N s T own I) Lk).
    assert (NK : s_k s = KNone -> quiet N s) by (intros K; rewrite K in C; discriminate).
    destruct (s_k s) as [| | |q|q|q|q|q|] eqn:K; try discriminate C.
    + apply (enabled_k s T own I); [congruence|]. unfold kexec. rewrite K. destruct (s_head s); [congruence|]. unfold unlock. rewrite Lk. congruence.
    + apply (enabled_k s T own I); [congruence|]. unfold kexec. rewrite K. unfold with_worker. destruct (_ && _); [|congruence]. destruct (w_cdr _); congruence.
    + apply (enabled_k s T own I); [congruence|]. unfold kexec. rewrite K. unfold with_worker. destruct (_ && _); congruence.
    + apply (enabled_k s T own I); [congruence|]. unfold kexec. rewrite K. unfold with_worker. destruct (_ && _); congruence.
    + destruct (i_hand N s T own I q) as [Hq Oq]; [unfold inhand; now rewrite K|]. pose proof (i_role N s T own I q Hq) as R. unfold roleok in R. rewrite Oq in R.
      unfold dying in R. rewrite K in R. destruct R as (D1 & D2 & _ & D3 & D4). assert (Lq : q <? s_nw s = true) by (apply Nat.ltb_lt; auto).
      destruct D4 as [(D5 & D6 & D7)|[(D5 & D6 & D7)|(D5 & D6 & D7)]].
      * apply (enabled_w s T own q I). unfold wexec. rewrite Lq, D6, ww, D5 by auto. congruence.
      * apply (enabled_w s T own q I). unfold wexec. rewrite Lq. destruct D6 as [D6|[D6|D6]]; rewrite D6.
        -- rewrite ww, D3 by auto. congruence.
        -- rewrite K. congruence.
        -- congruence.
      * apply (enabled_k s T own I); [congruence|]. unfold kexec. rewrite K, D7. congruence.
    + apply (enabled_k s T own I); [congruence|]. unfold kexec. rewrite K. unfold with_worker. destruct (_ && _); congruence.
  - assert (Dk : s_k s = KNone \/ s_k s <> KNone) by (destruct (s_k s); auto; right; discriminate).
    destruct Dk as [K|K].
    + assert (D : quiet N s \/ exists k f, s_f s [k] = Some f /\ f <> FCode PEnd).
      { assert (D : forall n, n <= N -> (forall k, k < n -> s_f s [k] = Some (FCode PEnd)) \/ exists k f, s_f s [k] = Some f /\ f <> FCode PEnd).
        { induction n as [|n IH]; intros Hn; [left; intros; lia|]. destruct IH as [IH|IH]; [lia| |auto].
          destruct (s_f s [n]) as [f|] eqn:Ef; [|exfalso; apply (i_user N s T own I n); [lia|auto]].
          assert (Df : f = FCode PEnd \/ f <> FCode PEnd) by (destruct f as [[| |]|]; auto; right; discriminate).
          destruct Df as [->|Df]; [|right; eauto]. left. intros k Hk. destruct (Nat.eq_dec k n) as [->|]; [auto|apply IH; lia]. }
        apply (D N). lia. }
      right. destruct D as [Q|(k & f & Ef & Hf)].
      * apply (enabled_k s T own I); auto. unfold kexec. rewrite K. congruence.
      * destruct (frame_get s T own _ _ I Ef) as (T0 & G). eapply (frame_progress s T own I Lk); eauto.
    + destruct (s_k s) as [| | |q|q|q|q|q|] eqn:Ks; [congruence|..|left; reflexivity]; right;
        try (exfalso; assert (C := proj2 (i_lockk N s T own I)); rewrite Ks in C; specialize (C eq_refl); congruence).
      apply (enabled_k s T own I); [congruence|]. unfold kexec, lock. rewrite Ks, Lk. congruence.
Qed.

Lemma can_ok s T own l x : Inv s T own -> can act N s l x -> fgood s T x.
Proof. intros I C. destruct C; [now apply (fexec_ok s T own)|now apply (wexec_ok s T own)|now apply (kexec_ok s T own)]. Qed.

Lemma tsteps_trans T1 m1 T2 m2 T3 m3 : tsteps act T1 m1 T2 m2 -> tsteps act T2 m2 T3 m3 -> tsteps act T1 m1 T3 m3.
Proof. intros H1 H2. revert H1. induction H2 as [|t m t1 m1' t2 m2' H IH S]; intros H1; [exact H1|]. eapply tss_snoc; [apply IH, H1|exact S]. Qed.

Lemma init_inv ps m : length ps = N -> Inv (init ps m) (TPar (map TSeq ps) PEnd) (fun _ => Idle).
Proof.
  intros HN. assert (F : forall p f, s_f (init ps m) p = Some f -> exists k b, p = [k] /\ nth_error ps k = Some b /\ f = FCode b).
  { intros p f. cbn. destruct p as [|k [|]]; try discriminate. destruct (nth_error ps k) eqn:E; [|discriminate]. intros H. injection H as <-. eauto. }
  constructor; try (cbn; intros; (discriminate || congruence || lia)).
  - exists (map TSeq ps). rewrite map_length. auto.
  - intros k Hk. cbn. destruct (nth_error ps k) eqn:E; [discriminate|]. apply nth_error_None in E. lia.
  - intros p j H. left. destruct (s_f (init ps m) (p ++ [j])) as [f|] eqn:E; [|congruence]. apply F in E as (k & b & E1 & E2 & _).
    destruct p as [|x p]; [|destruct p; discriminate]. injection E1 as ->. split; auto. rewrite <- HN. apply nth_error_Some. congruence.
  - intros p b H. apply F in H as (k & b' & -> & E2 & E3). injection E3 as ->. cbn. now rewrite nth_error_map, E2.
  - intros p a b c d e H. apply F in H as (k & b' & -> & E2 & E3). discriminate.
  - cbn. split; discriminate.
  - exists []. split; [constructor|]. split; [reflexivity|]. cbn. intros. split; [contradiction|lia].
Qed.

Lemma reach ps m c s : length ps = N -> steps act N c (init ps m) s ->
  exists T own, Inv s T own /\ tsteps act (TPar (map TSeq ps) PEnd) m T (s_mem s) /\ c + mu s T <= mu (init ps m) (TPar (map TSeq ps) PEnd).
Proof.
  intros HN H. remember (init ps m) as s0 eqn:E0. induction H as [s|c s t u l H IH C].
  - subst s. exists (TPar (map TSeq ps) PEnd), (fun _ => Idle). split; [now apply init_inv|]. split; [constructor|lia].
  - destruct (IH E0) as (T & own & I & R & B). destruct (can_ok t T own l _ I C) as (T' & own' & I' & R' & B').
    exists T', own'. split; auto. split; [eapply tsteps_trans; eauto|]. lia.
Qed.
Lemma mu_init ps m : mu (init ps m) (TPar (map TSeq ps) PEnd) = list_sum (map cost ps) + 22.
Proof.
  unfold mu, wm. rewrite weight_par. cbn [init s_nw nsum s_k kc cost]. unfold Fc at 1. cbn [init s_f].
  assert (Ws : forall (l : list prog) n, wsum (fun j t => weight (Fc (init ps m)) ([] ++ [j]) t) n (map TSeq l) = list_sum (map cost l)).
  { induction l as [|x l IH]; intros n; cbn; auto. }
  rewrite Ws. lia.
Qed.
End Step.
