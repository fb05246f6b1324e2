(** * The invariant of the worker pool (proof library) *)
From Coq Require Import ZArith List Lia Bool PeanoNat.
From Verif Require Import Base SpecThreads ThreadModel ThreadTree.
Import ListNotations.
Open Scope nat_scope.

Inductive role := Idle | Held (p : path) (j : nat) | Dying | Dead.
Definition crit (pc : spc) : bool :=
  match pc with DqRead | DqPop _ | DqUnlock _ | EqCdr | EqHead | EqUnlock => true | _ => false end.
Definition kcrit (k : kpos) : bool :=
  match k with KHead | KCdr _ | KSetW _ | KUp _ | KDown _ | KFree _ => true | _ => false end.
Inductive sstat := SNot | SCur (pc : spc) | SGiven | SInl | SFin | SEnq (pc : spc).
Definition stat (pc : spc) (i n j : nat) : sstat :=
  match pc with
  | Inline => if j <? n - 1 then SGiven else SInl
  | Wait | EqUnlock => if (j <? i) || ((j =? i) && match pc with EqUnlock => true | _ => false end) then SFin else if j <? n - 1 then SGiven else SFin
  | EqLock | EqCdr | EqHead => if j <? i then SFin else if j =? i then SEnq pc else if j <? n - 1 then SGiven else SFin
  | Fill => if j <? i then SGiven else SNot
  | _ => if j <? i then SGiven else if j =? i then SCur pc else SNot
  end.
Definition pcok (pc : spc) (i n : nat) : Prop :=
  match pc with Fill | Wait => i < n | Inline => S i = n | _ => S i < n end.

Lemma app_inj_last {B} (a b : list B) x y : a ++ [x] = b ++ [y] -> a = b /\ x = y.
Proof. intros H. apply app_inj_tail in H. exact H. Qed.
Lemma app_neq_nil {B} (a : list B) x : a ++ [x] <> [].
Proof. destruct a; discriminate. Qed.
Lemma app_neq_self {B} (a : list B) x : a ++ [x] <> a.
Proof. intros H. apply (f_equal (@length B)) in H. rewrite app_length in H. cbn in H. lia. Qed.

Section Inv.
Context {A M : Type}.
Variable N : nat.
Notation prog := (prog A).
Notation tree := (tree A).
Notation st := (@st A M).
Notation work := (@work A).

Definition idleW (s : st) (q : nat) : Prop :=
  q < s_nw s /\ w_alive (s_w s q) = true /\ w_ready (s_w s q) = 0 /\ w_done (s_w s q) = 0 /\ w_pos (s_w s q) = WDown.
Definition NS (s : st) (T : tree) (p : path) (j : nat) (b : prog) : Prop :=
  s_f s (p ++ [j]) = None /\ get T (p ++ [j]) = Some (TSeq b).
Definition phase (s : st) (T : tree) (p : path) (j : nat) (b : prog) (w : worker) : Prop :=
  (w_pos w = WDown /\ w_ready w = 1 /\ w_done w = 0 /\ NS s T p j b) \/
  (w_pos w = WLoad /\ w_ready w = 0 /\ w_done w = 0 /\ NS s T p j b) \/
  (w_pos w = WTest (WP p j) /\ w_ready w = 0 /\ w_done w = 0 /\ NS s T p j b) \/
  (w_pos w = WBusy (WP p j) /\ w_ready w = 0 /\ w_done w = 0 /\ s_f s (p ++ [j]) <> None) \/
  (w_pos w = WUp /\ w_ready w = 0 /\ w_done w = 0 /\ NS s T p j PEnd) \/
  (w_pos w = WDown /\ w_ready w = 0 /\ w_done w = 1 /\ NS s T p j PEnd).
Definition hasq (s : st) (own : nat -> role) (p : path) (j : nat) (w : work) (Q : nat -> Prop) : Prop :=
  exists q, w_q w = Some q /\ own q = Held p j /\ q < s_nw s /\ w_alive (s_w s q) = true /\ Q q.
Definition slotc (s : st) (T : tree) (own : nat -> role) (p : path) (b : prog) (w : work) (x : sstat) (j : nat) : Prop :=
  match x with
  | SNot => NS s T p j b
  | SCur pc => NS s T p j b /\ w_proc w = Some b /\
      match pc with
      | DqUnlock (Some q) | DqMake (Some q) => own q = Held p j /\ idleW s q
      | SetW => hasq s own p j w (idleW s)
      | Up => hasq s own p j w (fun q => idleW s q /\ w_w (s_w s q) = Some (WP p j))
      | _ => True
      end
  | SGiven => w_proc w = Some b /\ hasq s own p j w (fun q => w_w (s_w s q) = Some (WP p j) /\ phase s T p j b (s_w s q))
  | SInl => s_f s (p ++ [j]) <> None
  | SFin => NS s T p j PEnd
  | SEnq _ => NS s T p j PEnd /\ hasq s own p j w (idleW s)
  end.
Definition holds (pc : spc) (i n : nat) (r : nat -> work) (j q : nat) : Prop :=
  match stat pc i n j with
  | SCur (DqUnlock (Some q')) | SCur (DqMake (Some q')) => q' = q
  | SCur SetW | SCur Up | SGiven | SEnq _ => w_q (r j) = Some q
  | _ => False
  end /\ j < n.
Definition pcfacts (s : st) (r : nat -> work) (pc : spc) (i : nat) : Prop :=
  match pc with
  | DqPop q => q = s_head s
  | EqHead => exists q, w_q (r i) = Some q /\ w_cdr (s_w s q) = Some (s_head s)
  | _ => True
  end.
Record Sp (s : st) (T : tree) (own : nat -> role) (p : path) (bs : list prog) (r : nat -> work) (pc : spc) (i : nat) (k : prog) : Prop := {
  sp_tree : exists ts, get T p = Some (TPar ts k) /\ length ts = length bs;
  sp_pc : pcok pc i (length bs);
  sp_slot : forall j b, nth_error bs j = Some b -> slotc s T own p b (r j) (stat pc i (length bs) j) j;
  sp_facts : pcfacts s r pc i;
  sp_lock : crit pc = true -> s_lock s = Some (LPath p) }.

Fixpoint chain (s : st) (h : option nat) (l : list nat) : Prop :=
  match l with
  | [] => h = None
  | q :: t => h = Some q /\ exists c, w_cdr (s_w s q) = Some c /\ chain s c t
  end.
Definition Queue (s : st) (own : nat -> role) : Prop :=
  exists l, NoDup l /\ chain s (s_head s) l /\ (forall q, In q l <-> q < s_nw s /\ own q = Idle).

Definition dying (s : st) (q : nat) : Prop :=
  let w := s_w s q in
  w_alive w = true /\ w_done w = 0 /\
  match s_k s with
  | KSetW q' => q' = q /\ w_ready w = 0 /\ w_pos w = WDown /\ s_term s = 0
  | KUp q' => q' = q /\ w_ready w = 0 /\ w_pos w = WDown /\ s_term s = 0 /\ w_w w = Some WKill
  | KDown q' => q' = q /\ w_w w = Some WKill /\
      ((w_ready w = 1 /\ w_pos w = WDown /\ s_term s = 0) \/
       (w_ready w = 0 /\ (w_pos w = WLoad \/ w_pos w = WTest WKill \/ w_pos w = WTerm) /\ s_term s = 0) \/
       (w_ready w = 0 /\ w_pos w = WExit /\ s_term s = 1))
  | KFree q' => q' = q /\ w_ready w = 0 /\ w_pos w = WExit /\ s_term s = 0
  | _ => False
  end.
Definition roleok (s : st) (own : nat -> role) (q : nat) : Prop :=
  match own q with
  | Idle => idleW s q
  | Held p j => exists bs r pc i k, s_f s p = Some (FSpawn bs r pc i k) /\ holds pc i (length bs) r j q
  | Dying => dying s q
  | Dead => w_alive (s_w s q) = false /\ w_pos (s_w s q) = WExit /\ w_ready (s_w s q) = 0
  end.
Definition inhand (s : st) : option nat := match s_k s with KSetW q | KUp q | KDown q | KFree q => Some q | _ => None end.

Record Inv (s : st) (T : tree) (own : nat -> role) : Prop := {
  i_root : exists ts, T = TPar ts PEnd /\ length ts = N;
  i_nil : s_f s [] = None;
  i_user : forall k, k < N -> s_f s [k] <> None;
  i_link : forall p j, s_f s (p ++ [j]) <> None ->
    (p = [] /\ j < N) \/ exists bs r pc i k, s_f s p = Some (FSpawn bs r pc i k) /\ j < length bs;
  i_code : forall p b, s_f s p = Some (FCode b) -> get T p = Some (TSeq b);
  i_spawn : forall p bs r pc i k, s_f s p = Some (FSpawn bs r pc i k) -> Sp s T own p bs r pc i k;
  i_lock : forall p, s_lock s = Some (LPath p) -> exists bs r pc i k, s_f s p = Some (FSpawn bs r pc i k) /\ crit pc = true;
  i_lockk : s_lock s = Some LKill <-> kcrit (s_k s) = true;
  i_role : forall q, q < s_nw s -> roleok s own q;
  i_queue : Queue s own;
  i_kill : s_k s <> KNone -> quiet N s;
  i_hand : forall q, inhand s = Some q -> q < s_nw s /\ own q = Dying;
  i_khead : forall q, s_k s = KCdr q -> s_head s = Some q;
  i_term : inhand s = None -> s_term s = 0;
  i_kdone : s_k s = KDone -> s_head s = None }.

(** ** Consequences *)
Lemma anc s T own : Inv s T own -> forall x p, p <> [] -> s_f s (p ++ x) <> None -> s_f s p <> None.
Proof.
  intros I. induction x as [|j x IH] using rev_ind; intros p Hp H; [now rewrite app_nil_r in H|].
  rewrite app_assoc in H. apply (i_link s T own I) in H as [[E _]|(bs & r & pc & i & k & E & _)].
  - destruct p; [congruence|discriminate].
  - apply IH; auto. congruence.
Qed.
Lemma leaf_below s T own p : Inv s T own -> (forall j, s_f s (p ++ [j]) = None) -> forall x, x <> [] -> s_f s (p ++ x) = None.
Proof.
  intros I L x Hx. destruct x as [|j x]; [congruence|]. destruct (s_f s (p ++ j :: x)) eqn:E; auto.
  exfalso. replace (p ++ j :: x) with ((p ++ [j]) ++ x) in E by (now rewrite <- app_assoc).
  apply (anc s T own I x (p ++ [j])); [apply app_neq_nil|congruence|apply L].
Qed.
Lemma code_leaf s T own p b : Inv s T own -> s_f s p = Some (FCode b) -> forall j, s_f s (p ++ [j]) = None.
Proof.
  intros I E j. destruct (s_f s (p ++ [j])) eqn:F; auto. exfalso.
  destruct (i_link s T own I p j) as [[-> _]|(bs & r & pc & i & k & E' & _)]; [congruence| |congruence].
  rewrite (i_nil s T own I) in E. discriminate.
Qed.
Lemma quiet_nospawn s T own : Inv s T own -> quiet N s -> forall p bs r pc i k, s_f s p <> Some (FSpawn bs r pc i k).
Proof.
  intros I Q p bs r pc i k E. destruct p as [|u p]; [rewrite (i_nil s T own I) in E; discriminate|].
  assert (H : s_f s [u] <> None) by (apply (anc s T own I p [u]); [discriminate|cbn; congruence]).
  destruct (i_link s T own I [] u) as [[_ Hu]|(? & ? & ? & ? & ? & E' & _)]; [exact H| |rewrite (i_nil s T own I) in E'; discriminate].
  pose proof (Q u Hu) as Eu. destruct p as [|j p]; [congruence|].
  pose proof (code_leaf s T own [u] _ I Eu) as L. change (u :: j :: p) with ([u] ++ j :: p) in E. rewrite (leaf_below s T own [u] I L (j :: p)) in E by discriminate. discriminate.
Qed.

(** ** Stability *)
Lemma NS_stable s s' T T' p j b : NS s T p j b -> (s_f s (p ++ [j]) = None -> s_f s' (p ++ [j]) = None /\ get T' (p ++ [j]) = get T (p ++ [j])) -> NS s' T' p j b.
Proof. intros [E1 E2] H. destruct (H E1) as [E3 E4]. split; congruence. Qed.
Lemma slotc_stable s s' T T' own own' p b w x j : slotc s T own p b w x j ->
  (s_f s (p ++ [j]) = None -> s_f s' (p ++ [j]) = None /\ get T' (p ++ [j]) = get T (p ++ [j])) ->
  (s_f s (p ++ [j]) <> None -> s_f s' (p ++ [j]) <> None) ->
  (forall q, q < s_nw s -> own q = Held p j -> own' q = Held p j /\ s_w s' q = s_w s q) ->
  s_nw s <= s_nw s' ->
  slotc s' T' own' p b w x j.
Proof.
  intros H F1 F2 OW Hn.
  assert (IW : forall q, idleW s q -> own q = Held p j -> idleW s' q).
  { intros q (Q0 & Q) O. destruct (OW q Q0 O) as [_ E]. unfold idleW. rewrite E. split; [lia|exact Q]. }
  assert (HQ : forall Q Q' : nat -> Prop, (forall q, q < s_nw s -> own q = Held p j -> Q q -> Q' q) -> hasq s own p j w Q -> hasq s' own' p j w Q').
  { intros Q Q' QQ (q & E1 & E2 & E3 & E4 & E5). destruct (OW q E3 E2) as [O W]. exists q. rewrite W.
    split; [exact E1|]. split; [exact O|]. split; [lia|]. split; [exact E4|]. apply QQ; auto. }
  destruct x as [|pc| | | |pc]; cbn [slotc] in *.
  - eapply NS_stable; eauto.
  - destruct H as (H1 & H2 & H3). split; [eapply NS_stable; eauto|]. split; [exact H2|].
    destruct pc as [| | |qo|qo|qo| | | | | | | |]; auto.
    + destruct qo as [q|]; auto. destruct H3 as [H3 H4]. split; [|now apply IW]. apply (OW q); auto. apply H4.
    + destruct qo as [q|]; auto. destruct H3 as [H3 H4]. split; [|now apply IW]. apply (OW q); auto. apply H4.
    + eapply HQ; [|exact H3]. intros q _ O Hq. now apply IW.
    + eapply HQ; [|exact H3]. intros q Hq O [Q1 Q2]. split; [now apply IW|]. destruct (OW q Hq O) as [_ ->]. exact Q2.
  - destruct H as (H1 & H2). split; auto. eapply HQ; [|exact H2]. intros q Hq O [Q1 Q2]. destruct (OW q Hq O) as [_ ->]. split; auto.
    unfold phase in *. destruct Q2 as [Q|[Q|[Q|[Q|[Q|Q]]]]]; [left|right; left|right; right; left|right; right; right; left|right; right; right; right; left|right; right; right; right; right];
      destruct Q as (Qa & Qb & Qc & Qd); (split; [exact Qa|]; split; [exact Qb|]; split; [exact Qc|]);
      [eapply NS_stable; eauto|eapply NS_stable; eauto|eapply NS_stable; eauto|now apply F2|eapply NS_stable; eauto|eapply NS_stable; eauto].
  - now apply F2.
  - eapply NS_stable; eauto.
  - destruct H as [H1 H2]. split; [eapply NS_stable; eauto|]. eapply HQ; [|exact H2]. intros q _ O Hq. now apply IW.
Qed.
Lemma facts_stable s s' r pc i : pcfacts s r pc i ->
  (crit pc = true -> s_head s' = s_head s /\ forall q, w_q (r i) = Some q -> pc = EqHead -> s_w s' q = s_w s q) -> pcfacts s' r pc i.
Proof.
  destruct pc; cbn; auto.
  - intros -> H. destruct (H eq_refl) as [-> _]. auto.
  - intros (q & E1 & E2) H. destruct (H eq_refl) as [-> H2]. exists q. rewrite (H2 q E1 eq_refl). auto.
Qed.
Lemma chain_ext s s' l : forall h, (forall q, In q l -> w_cdr (s_w s' q) = w_cdr (s_w s q)) -> chain s h l -> chain s' h l.
Proof.
  induction l as [|q l IH]; intros h E C; cbn in *; auto. destruct C as (-> & c & Ec & C). split; auto. exists c. rewrite E by auto. auto.
Qed.

Lemma path_ne_child (p : path) (j : nat) : p <> p ++ [j].
Proof. intros E. symmetry in E. revert E. apply app_neq_self. Qed.

(** ** A step of an activation of spawn_loop, or of a worker it has engaged *)
Lemma core s s' T own own' p bs r pc i k r' pc' i' j0 q0 :
  Inv s T own ->
  s_f s p = Some (FSpawn bs r pc i k) ->
  s_f s' p = Some (FSpawn bs r' pc' i' k) ->
  (forall y, y <> p -> y <> p ++ [j0] -> s_f s' y = s_f s y) ->
  (s_f s' (p ++ [j0]) = s_f s (p ++ [j0]) \/
   ((s_f s (p ++ [j0]) = None \/ exists b, s_f s (p ++ [j0]) = Some (FCode b)) /\
    (s_f s' (p ++ [j0]) = None \/ exists b, s_f s' (p ++ [j0]) = Some (FCode b) /\ get T (p ++ [j0]) = Some (TSeq b) /\ j0 < length bs))) ->
  (forall q, q <> q0 -> own' q = own q /\ s_w s' q = s_w s q) ->
  (q0 < s_nw s -> own q0 = Idle \/ own q0 = Held p j0) ->
  s_nw s <= s_nw s' -> (forall q, q < s_nw s' -> q <> q0 -> q < s_nw s) ->
  pcok pc' i' (length bs) ->
  (forall j, j <> j0 -> j < length bs -> stat pc' i' (length bs) j = stat pc i (length bs) j /\ r' j = r j) ->
  (forall b, nth_error bs j0 = Some b -> slotc s' T own' p b (r' j0) (stat pc' i' (length bs) j0) j0) ->
  pcfacts s' r' pc' i' ->
  ((s_lock s' = s_lock s /\ crit pc' = crit pc) \/ (s_lock s = None /\ s_lock s' = Some (LPath p) /\ crit pc' = true) \/
   (s_lock s = Some (LPath p) /\ s_lock s' = None /\ crit pc' = false)) ->
  (s_head s' = s_head s \/ s_lock s = Some (LPath p)) ->
  (q0 < s_nw s' -> match own' q0 with Idle => idleW s' q0 | Held p' j => p' = p /\ j = j0 /\ holds pc' i' (length bs) r' j0 q0 | _ => False end) ->
  (forall q, holds pc i (length bs) r j0 q -> q = q0 \/ holds pc' i' (length bs) r' j0 q) ->
  (q0 < s_nw s -> q0 < s_nw s') ->
  s_k s' = s_k s -> s_term s' = s_term s ->
  Queue s' own' ->
  Inv s' T own'.
Proof.
  intros I E0 E0' Fo Fc OW O0 Hn Hn' Pc St S0 Pf Lk Hd R0 Hh Hq0 Ek Et Qu.
  assert (Kn : s_k s = KNone).
  { destruct (s_k s) eqn:K; auto; exfalso; eapply (quiet_nospawn s T own I); eauto; apply (i_kill s T own I); congruence. }
  assert (Sp0 := i_spawn s T own I _ _ _ _ _ _ E0).
  assert (Pp : p <> p ++ [j0]) by apply path_ne_child.
  assert (Fs : forall y a b c d e, y <> p -> s_f s' y = Some (FSpawn a b c d e) <-> s_f s y = Some (FSpawn a b c d e)).
  { intros y a b c d e Hy. destruct (path_dec y (p ++ [j0])) as [->|Hn1]; [|now rewrite Fo].
    destruct Fc as [->|[[F1|(x & F1)] [F2|(z & F2 & _)]]]; [tauto|..]; rewrite F1, F2; split; discriminate. }
  assert (Fn : forall y, y <> p ++ [j0] -> s_f s' y = None <-> s_f s y = None).
  { intros y Hy. destruct (path_dec y p) as [->|H]; [rewrite E0, E0'; split; discriminate|now rewrite Fo]. }
  constructor.
  - apply (i_root s T own I).
  - rewrite Fn; [apply (i_nil s T own I)|]. intros E. symmetry in E. revert E. apply app_neq_nil.
  - intros u Hu. intros E. pose proof (i_user s T own I u Hu) as Q. destruct (path_dec [u] (p ++ [j0])) as [E1|E1].
    + destruct p as [|a p']; [rewrite (i_nil s T own I) in E0; discriminate|]. apply (f_equal (@length nat)) in E1. rewrite app_length in E1. cbn in E1. lia.
    + apply Fn in E; auto.
  - intros y j H. destruct (path_dec y p) as [->|Hy].
    + right. exists bs, r', pc', i', k. split; auto. destruct (Nat.eq_dec j j0) as [->|Hj].
      * destruct Fc as [E|[_ [E|(b & _ & _ & L)]]]; [|congruence|exact L]. rewrite E in H.
        destruct (i_link s T own I p j0 H) as [[-> _]|(? & ? & ? & ? & ? & E1 & L)]; [rewrite (i_nil s T own I) in E0; discriminate|]. rewrite E0 in E1. injection E1 as <- <- <- <- <-. exact L.
      * assert (H1 : s_f s (p ++ [j]) <> None). { rewrite <- Fo; auto; [apply app_neq_self|]. intros E. apply app_inj_last in E as [_ E]. congruence. }
        destruct (i_link s T own I p j H1) as [[-> _]|(? & ? & ? & ? & ? & E1 & L)]; [rewrite (i_nil s T own I) in E0; discriminate|]. rewrite E0 in E1. injection E1 as <- <- <- <- <-. exact L.
    + assert (H1 : s_f s (y ++ [j]) <> None).
      { destruct (path_dec (y ++ [j]) p) as [Ep|Hp]; [rewrite Ep, E0; discriminate|]. rewrite <- Fo; auto.
        intros E. apply app_inj_last in E as [E _]. congruence. }
      destruct (i_link s T own I y j H1) as [L|(a & b & c & d & e & E1 & L)]; [left; exact L|].
      right. exists a, b, c, d, e. split; auto. apply Fs; auto.
  - intros y b H. destruct (path_dec y p) as [->|Hy]; [congruence|].
    destruct (path_dec y (p ++ [j0])) as [->|Hc].
    + destruct Fc as [E|[_ [E|(z & E & G & _)]]]; [|congruence|congruence]. rewrite E in H. apply (i_code s T own I); auto.
    + rewrite Fo in H by auto. apply (i_code s T own I); auto.
  - intros y a b c d e H. destruct (path_dec y p) as [->|Hy].
    + rewrite E0' in H. injection H as <- <- <- <- <-. constructor; auto.
      * apply Sp0.
      * intros j z Hz. destruct (Nat.eq_dec j j0) as [->|Hj]; [auto|].
        assert (Lj : j < length bs) by (apply nth_error_Some; congruence). destruct (St j Hj Lj) as [-> ->].
        assert (Cj : p ++ [j] <> p ++ [j0]) by (intros E; apply app_inj_last in E as [_ E]; congruence).
        eapply slotc_stable; [apply (sp_slot _ _ _ _ _ _ _ _ _ Sp0 j z Hz)|..]; auto.
        -- intros E. split; auto. now apply Fn.
        -- intros E E'. apply E. now apply Fn.
        -- intros q Hq O. destruct (Nat.eq_dec q q0) as [->|Hne]; [|destruct (OW q Hne) as [-> ->]; auto].
           exfalso. destruct (O0 Hq) as [O1|O1]; rewrite O1 in O; [discriminate|injection O as O]; congruence.
      * intros C. destruct Lk as [[L1 L2]|[(L1 & L2 & L3)|(L1 & L2 & L3)]]; [|exact L2|congruence]. rewrite L1. apply (sp_lock _ _ _ _ _ _ _ _ _ Sp0). congruence.
    + pose proof (proj1 (Fs y a b c d e Hy) H) as Hs. pose proof (i_spawn s T own I _ _ _ _ _ _ Hs) as Sy. constructor.
      * apply Sy.
      * apply Sy.
      * intros j z Hz. eapply slotc_stable; [apply (sp_slot _ _ _ _ _ _ _ _ _ Sy j z Hz)|..]; auto.
        -- intros E. split; auto. apply Fn; auto. intros E1. apply app_inj_last in E1 as [E1 _]. congruence.
        -- intros E E'. apply E. apply Fn; auto. intros E1. apply app_inj_last in E1 as [E1 _]. congruence.
        -- intros q Hq O. destruct (Nat.eq_dec q q0) as [->|Hne]; [|destruct (OW q Hne) as [-> ->]; auto].
           exfalso. destruct (O0 Hq) as [O1|O1]; rewrite O1 in O; [discriminate|injection O as O]; congruence.
      * eapply facts_stable; [apply Sy|]. intros C. pose proof (sp_lock _ _ _ _ _ _ _ _ _ Sy C) as Ly.
        split; [destruct Hd as [Hd|Hd]; [exact Hd|rewrite Ly in Hd; congruence]|].
        intros q Eq ->. pose proof (sp_pc _ _ _ _ _ _ _ _ _ Sy) as Pk. cbn in Pk.
        destruct (nth_error a d) as [z|] eqn:Ez; [|apply nth_error_None in Ez; lia].
        pose proof (sp_slot _ _ _ _ _ _ _ _ _ Sy d z Ez) as Sd. unfold stat in Sd. rewrite Nat.ltb_irrefl, Nat.eqb_refl in Sd. destruct Sd as [_ (q' & Q1 & Q2 & Q3 & _)].
        assert (q' = q) by congruence. subst q'. destruct (Nat.eq_dec q q0) as [->|Hne]; [|now destruct (OW q Hne)].
        exfalso. destruct (O0 Q3) as [O1|O1]; rewrite O1 in Q2; [discriminate|injection Q2 as O]; congruence.
      * intros C. pose proof (sp_lock _ _ _ _ _ _ _ _ _ Sy C) as Ly. destruct Lk as [[L1 L2]|[(L1 & L2 & L3)|(L1 & L2 & L3)]]; congruence.
  - intros y H. destruct Lk as [[L1 L2]|[(L1 & L2 & L3)|(L1 & L2 & L3)]].
    + rewrite L1 in H. destruct (i_lock s T own I y H) as (a & b & c & d & e & E & C). destruct (path_dec y p) as [->|Hy].
      * rewrite E0 in E. injection E as <- <- <- <- <-. exists bs, r', pc', i', k. split; auto. congruence.
      * exists a, b, c, d, e. split; auto. now apply Fs.
    + assert (y = p) by congruence. subst y. exists bs, r', pc', i', k. auto.
    + congruence.
  - rewrite Ek, Kn. cbn. split; [|discriminate]. intros H. exfalso. destruct Lk as [[L1 L2]|[(L1 & L2 & L3)|(L1 & L2 & L3)]]; [|congruence|congruence].
    rewrite L1 in H. apply (i_lockk s T own I) in H. rewrite Kn in H. discriminate.
  - intros q Hq. unfold roleok. destruct (Nat.eq_dec q q0) as [->|Hne].
    + specialize (R0 Hq). destruct (own' q0) as [|p' j| |]; auto; try contradiction. destruct R0 as (-> & -> & R0). exists bs, r', pc', i', k. auto.
    + destruct (OW q Hne) as [-> Ew]. pose proof (i_role s T own I q (Hn' q Hq Hne)) as R. unfold roleok in R. destruct (own q) as [|p' j| |] eqn:Oq.
      * unfold idleW in *. rewrite Ew. tauto.
      * destruct R as (a & b & c & d & e & E & Hl). destruct (path_dec p' p) as [->|Hp].
        -- rewrite E0 in E. injection E as <- <- <- <- <-. exists bs, r', pc', i', k. split; auto.
           destruct (Nat.eq_dec j j0) as [->|Hj]; [destruct (Hh q Hl); [congruence|auto]|].
           destruct Hl as [Hl Lj]. destruct (St j Hj Lj) as [S1 S2]. unfold holds. rewrite S1, S2. auto.
        -- exists a, b, c, d, e. split; auto. now apply Fs.
      * exfalso. unfold dying in R. rewrite Kn in R. tauto.
      * rewrite Ew. auto.
  - exact Qu.
  - rewrite Ek, Kn. congruence.
  - unfold inhand. rewrite Ek, Kn. discriminate.
  - rewrite Ek, Kn. discriminate.
  - intros _. rewrite Et. apply (i_term s T own I). unfold inhand. now rewrite Kn.
  - rewrite Ek, Kn. discriminate.
Qed.

(** ** A step that changes the tree *)
Lemma core2 s s' T own p f f' X :
  Inv s T own -> s_f s p = Some f -> (forall j, s_f s (p ++ [j]) = None) ->
  s_f s' p = Some f' -> (forall y, y <> p -> s_f s' y = s_f s y) ->
  (forall q, s_w s' q = s_w s q) -> s_nw s' = s_nw s -> s_head s' = s_head s -> s_lock s' = s_lock s -> s_k s' = s_k s -> s_term s' = s_term s ->
  (match f with FSpawn _ _ pc _ _ => crit pc = false /\ (forall q j, q < s_nw s -> own q <> Held p j) | FCode b => b <> PEnd end) ->
  match f' with FCode b => X = TSeq b | FSpawn bs r pc i k => Sp s' (put T p X) own p bs r pc i k /\ crit pc = false end ->
  Inv s' (put T p X) own.
Proof.
  intros I E0 L E0' Fo W Nw Hd Lk Ek Et Hf Hf'.
  assert (Kn : s_k s = KNone).
  { destruct (s_k s) eqn:K; auto; exfalso; destruct f as [b|a b c d e]; try (eapply (quiet_nospawn s T own I); eauto; apply (i_kill s T own I); congruence);
      (assert (Q : quiet N s) by (apply (i_kill s T own I); congruence);
       destruct p as [|u p]; [rewrite (i_nil s T own I) in E0; discriminate|];
       assert (H : s_f s [u] <> None) by (apply (anc s T own I p [u]); [discriminate|cbn; congruence]);
       destruct (i_link s T own I [] u) as [[_ Hu]|(? & ? & ? & ? & ? & E' & _)]; [exact H| |rewrite (i_nil s T own I) in E'; discriminate];
       pose proof (Q u Hu) as Eu; destruct p as [|j p]; [congruence|];
       pose proof (code_leaf s T own [u] _ I Eu) as L1; change (u :: j :: p) with ([u] ++ j :: p) in E0;
       rewrite (leaf_below s T own [u] I L1 (j :: p)) in E0 by discriminate; discriminate). }
  assert (Pn : p <> []) by (intros ->; rewrite (i_nil s T own I) in E0; discriminate).
  assert (Fn : forall y, s_f s' y = None <-> s_f s y = None).
  { intros y. destruct (path_dec y p) as [->|H]; [rewrite E0, E0'; split; discriminate|now rewrite Fo]. }
  assert (GX : get (put T p X) p = Some X).
  { destruct f as [b|a b c d e]; [eapply get_put_same, (i_code s T own I), E0|].
    destruct (sp_tree _ _ _ _ _ _ _ _ _ (i_spawn s T own I _ _ _ _ _ _ E0)) as (ts & G & _). eapply get_put_same, G. }
  assert (Below : forall y, pre p y -> y <> p -> s_f s y = None).
  { intros y (x & ->) Hy. apply (leaf_below s T own p I L). intros ->. rewrite app_nil_r in Hy. congruence. }
  assert (Above : forall y, y <> [] -> pre y p -> s_f s y <> None).
  { intros y Hy (x & ->). apply (anc s T own I x y); auto. congruence. }
  assert (Other : forall y, y <> [] -> s_f s y = None -> ~ pre p y -> get (put T p X) y = get T y).
  { intros y Hy E H. apply get_put_other; auto. intros H1. apply (Above y Hy H1 E). }
  assert (Fs : forall y a b c d e, y <> p -> s_f s' y = Some (FSpawn a b c d e) <-> s_f s y = Some (FSpawn a b c d e)).
  { intros y a b c d e Hy. now rewrite Fo. }
  constructor.
  - destruct (i_root s T own I) as (ts & -> & Lt). destruct (get_put_above (TPar ts PEnd) p X [] ts PEnd) as (ts' & G & Lts); [now exists p|congruence|reflexivity|].
    cbn in G. exists ts'. split; [congruence|lia].
  - apply Fn, (i_nil s T own I).
  - intros u Hu E. apply Fn in E. now apply (i_user s T own I u Hu).
  - intros y j H. assert (H1 : s_f s (y ++ [j]) <> None) by (intros E; apply H, Fn, E).
    destruct (i_link s T own I y j H1) as [Lf|(a & b & c & d & e & E & Lj)]; [left; exact Lf|right].
    destruct (path_dec y p) as [->|Hy]; [exfalso; apply H1, L|]. exists a, b, c, d, e. split; auto. now apply Fs.
  - intros y b H. destruct (path_dec y p) as [->|Hy].
    + rewrite E0' in H. injection H as ->. now rewrite GX, Hf'.
    + rewrite Fo in H by auto. rewrite get_put_other; [apply (i_code s T own I); auto|..].
      * intros Pr. rewrite (Below y Pr Hy) in H. discriminate.
      * intros (x & Ex). destruct x as [|j x]; [rewrite app_nil_r in Ex; congruence|].
        pose proof (code_leaf s T own y b I H j) as Q. apply (Above (y ++ [j])); [apply app_neq_nil| |exact Q]. exists x. now rewrite <- app_assoc.
  - intros y a b c d e H. destruct (path_dec y p) as [->|Hy].
    + rewrite E0' in H. injection H as ->. apply Hf'.
    + rewrite Fo in H by auto. pose proof (i_spawn s T own I _ _ _ _ _ _ H) as Sy. constructor.
      * destruct (sp_tree _ _ _ _ _ _ _ _ _ Sy) as (ts & G & Lt).
        assert (Np : ~ pre p y) by (intros Pr; rewrite (Below y Pr Hy) in H; discriminate).
        assert (Dec : pre y p \/ ~ pre y p).
        { destruct (path_dec (firstn (length y) p) y) as [Ey|Ey].
          - left. exists (skipn (length y) p). rewrite <- Ey at 1. symmetry. apply firstn_skipn.
          - right. intros (x & ->). apply Ey. rewrite firstn_app, Nat.sub_diag, firstn_all. cbn. apply app_nil_r. }
        destruct Dec as [Pr|Pr].
        -- destruct (get_put_above T p X y ts e Pr Hy G) as (ts' & G' & L'). exists ts'. split; auto. lia.
        -- exists ts. rewrite get_put_other; auto.
      * apply Sy.
      * intros j z Hz. eapply slotc_stable; [apply (sp_slot _ _ _ _ _ _ _ _ _ Sy j z Hz)|..].
        -- intros E. split; [now apply Fn|]. apply Other; auto; [apply app_neq_nil|]. intros (x & Ex).
           destruct x as [|x1 x0 _] using rev_ind; [rewrite app_nil_r in Ex; rewrite Ex in E; congruence|].
           rewrite app_assoc in Ex. apply app_inj_last in Ex as [Ex _].
           assert (Pr : pre p y) by (now exists x0). rewrite (Below y Pr Hy) in H. discriminate.
        -- intros E E'. apply E. now apply Fn.
        -- intros q Hq O. auto.
        -- lia.
      * eapply facts_stable; [apply Sy|]. intros C. split; auto.
      * intros C. rewrite Lk. now apply (sp_lock _ _ _ _ _ _ _ _ _ Sy).
  - intros y H. rewrite Lk in H. destruct (i_lock s T own I y H) as (a & b & c & d & e & E & C). destruct (path_dec y p) as [->|Hy].
    + exfalso. rewrite E0 in E. injection E as ->. destruct Hf. congruence.
    + exists a, b, c, d, e. split; auto. now apply Fs.
  - rewrite Lk, Ek. apply (i_lockk s T own I).
  - intros q Hq. rewrite Nw in Hq. pose proof (i_role s T own I q Hq) as R. unfold roleok, idleW, dying in *. rewrite W, Nw, Ek, Et. destruct (own q) as [|p' j| |] eqn:O; auto.
    destruct R as (a & b & c & d & e & E & Hl). exists a, b, c, d, e. split; auto. apply Fs; auto. intros ->. rewrite E0 in E. injection E as ->. destruct Hf as [_ Hf]. now apply (Hf q j Hq).
  - destruct (i_queue s T own I) as (l & ND & Ch & Hl). exists l. split; auto. split; [rewrite Hd|now rewrite Nw]. eapply chain_ext; [|exact Ch]. intros q _. now rewrite W.
  - rewrite Ek, Kn. congruence.
  - unfold inhand. rewrite Ek, Kn. discriminate.
  - rewrite Ek, Kn. discriminate.
  - intros _. rewrite Et. apply (i_term s T own I). unfold inhand. now rewrite Kn.
  - rewrite Ek, Kn. discriminate.
Qed.
End Inv.
