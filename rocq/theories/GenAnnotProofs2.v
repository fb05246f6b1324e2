(** * Proofs about annotate.ml: anticipate_friends and delay_friends *)
From Coq Require Import ZArith List Bool Lia Permutation.
From Verif Require Import Cplx GenExpr GenAlg GenAlist GenSched GenSchedProofs GenAnnot GenAnnotProofs.
Import ListNotations.
Open Scope nat_scope.
Local Notation dep := depends_on.

Lemma same_iff a b : same a b = true <-> a = b.
Proof. unfold same. destruct (var_eq_dec a b); split; congruence. Qed.
Section Friends.
  Variable friendp : assignment -> assignment -> bool.
  Definition chosen (insn a : assignment) : bool := same (fst a) (fst insn) || friendp a insn.
  Lemma find_friends_eq insn l : forall fr fo, find_friends friendp insn fr fo l = (rev (filter (chosen insn) l) ++ fr, rev (filter (fun a => negb (chosen insn a)) l) ++ fo).
  Proof.
    induction l as [|a l IH]; intros fr fo; [reflexivity|]. cbn [find_friends filter]. fold (chosen insn a). destruct (chosen insn a); cbn [negb]; rewrite IH; cbn [rev]; now rewrite <- app_assoc.
  Qed.
  Definition fr_of insn l := rev (filter (chosen insn) l).
  Definition fo_of insn l := rev (filter (fun a => negb (chosen insn a)) l).
  Lemma ff insn l : find_friends friendp insn [] [] l = (fr_of insn l, fo_of insn l).
  Proof. rewrite find_friends_eq. unfold fr_of, fo_of. now rewrite !app_nil_r. Qed.
  Lemma in_fr insn l x : In x (fr_of insn l) <-> In x l /\ chosen insn x = true.
  Proof. unfold fr_of. rewrite <- in_rev. apply filter_In. Qed.
  Lemma in_fo insn l x : In x (fo_of insn l) <-> In x l /\ chosen insn x = false.
  Proof. unfold fo_of. rewrite <- in_rev, filter_In. destruct (chosen insn x); cbn; intuition congruence. Qed.
  Lemma frfo_perm insn l : Permutation (fr_of insn l ++ fo_of insn l) l.
  Proof.
    unfold fr_of, fo_of. rewrite <- !Permutation_rev. induction l as [|a l IH]; [reflexivity|]. cbn [filter]. destruct (chosen insn a); cbn [negb app]; [now constructor|].
    rewrite <- Permutation_middle. now constructor.
  Qed.
  Lemma ilist_sequentially l : sched_to_ilist (sequentially l) = l /\ seqonly (sequentially l).
  Proof. induction l as [|a l [IH1 IH2]]; cbn; [auto|]. rewrite IH1. auto. Qed.

  Fixpoint ant (insns L : list assignment) : list assignment * list assignment :=
    match L with [] => ([], insns) | a :: L' => let (r, i) := ant (fo_of a insns) L' in (fr_of a insns ++ r, i) end.
  Fixpoint del (insns L : list assignment) : list assignment * list assignment :=
    match L with [] => ([], insns) | a :: L' => let (r, i) := del insns L' in (fr_of a i ++ r, fo_of a i) end.
  Lemma ant_app A : forall B insns, ant insns (A ++ B) = let (ra, ia) := ant insns A in let (rb, ib) := ant ia B in (ra ++ rb, ib).
  Proof.
    induction A as [|a A IH]; intros B insns; cbn [app ant]; [destruct (ant insns B); reflexivity|]. rewrite IH. destruct (ant (fo_of a insns) A) as [ra ia]. destruct (ant ia B) as [rb ib]. now rewrite app_assoc.
  Qed.
  Lemma del_app A B insns : del insns (A ++ B) = let (rb, ib) := del insns B in let (ra, ia) := del ib A in (ra ++ rb, ia).
  Proof.
    induction A as [|a A IH]; cbn [app del]; [destruct (del insns B); reflexivity|]. rewrite IH. destruct (del insns B) as [rb ib]. destruct (del ib A) as [ra ia]. now rewrite app_assoc.
  Qed.
  Lemma anticipate_ant s : seqonly s -> forall insns s' i, anticipate_recur friendp insns s = (s', i) -> seqonly s' /\ ant insns (sched_to_ilist s) = (sched_to_ilist s', i).
  Proof.
    induction s as [|a|a IHa b IHb|]; intros W insns s' i E; cbn [anticipate_recur sched_to_ilist ant] in *; [injection E as <- <-; auto| | |destruct W].
    - rewrite ff in E. injection E as <- <-. destruct (ilist_sequentially (fr_of a insns)) as [-> Q]. rewrite app_nil_r. auto.
    - destruct W as [Wa Wb]. destruct (anticipate_recur friendp insns a) as [a' ia] eqn:Ea. destruct (anticipate_recur friendp ia b) as [b' ib] eqn:Eb. injection E as <- <-.
      apply IHa in Ea; auto. apply IHb in Eb; auto. destruct Ea as [Sa Ea], Eb as [Sb Eb]. rewrite ant_app, Ea, Eb. cbn. auto.
  Qed.
  Lemma delay_del s : seqonly s -> forall insns s' i, delay_recur friendp insns s = (s', i) -> seqonly s' /\ del insns (sched_to_ilist s) = (sched_to_ilist s', i).
  Proof.
    induction s as [|a|a IHa b IHb|]; intros W insns s' i E; cbn [delay_recur sched_to_ilist del] in *; [injection E as <- <-; auto| | |destruct W].
    - rewrite ff in E. injection E as <- <-. destruct (ilist_sequentially (fr_of a insns)) as [-> Q]. rewrite app_nil_r. auto.
    - destruct W as [Wa Wb]. destruct (delay_recur friendp insns b) as [b' ib] eqn:Eb. destruct (delay_recur friendp ib a) as [a' ia] eqn:Ea. injection E as <- <-.
      apply IHa in Ea; auto. apply IHb in Eb; auto. destruct Ea as [Sa Ea], Eb as [Sb Eb]. rewrite del_app, Eb, Ea. cbn. auto.
  Qed.

  Variable L : list assignment.
  Hypothesis ND : NoDup (map fst L).
  Hypothesis irr : forall a, In a L -> dep a a = false.
  Hypothesis OL : ordered L.
  Lemma fst_inj a b : In a L -> In b L -> fst a = fst b -> a = b.
  Proof.
    revert ND. clear. induction L as [|c l IH]; intros ND Ha Hb E; [destruct Ha|]. cbn [map] in ND. inversion ND; subst.
    destruct Ha as [->|Ha], Hb as [->|Hb]; auto; exfalso; apply H1; [rewrite E|rewrite <- E]; now apply in_map.
  Qed.
  Lemma chosen_self a : chosen a a = true.
  Proof. unfold chosen. assert (E : same (fst a) (fst a) = true) by now apply same_iff. now rewrite E. Qed.
  Lemma FOP_in {A} (R : A -> A -> Prop) l : (forall x y, In x l -> In y l -> R x y) -> ForallOrdPairs R l.
  Proof. induction l as [|a l IH]; intros H; [constructor|]. constructor; [apply Forall_forall; intros; apply H; cbn; auto|apply IH; intros; apply H; cbn; auto]. Qed.

  Lemma ant_ok : (forall x a y, In x L -> In a L -> In y L -> friendp x a = true -> dep y x = true -> dep y a = true) ->
    forall suf pre insns r i, L = pre ++ suf -> (forall a, In a insns -> In a L) -> (forall a, In a pre -> ~ In a insns) -> ant insns suf = (r, i) ->
    Permutation (r ++ i) insns /\ (forall a, In a suf -> ~ In a i) /\ ordered r.
  Proof.
    intros F. induction suf as [|a suf IH]; intros pre insns r i E Sub Pre A; cbn [ant] in A.
    - injection A as <- <-. split; [reflexivity|]. split; [intros a []|constructor].
    - destruct (ant (fo_of a insns) suf) as [r' i'] eqn:A'. injection A as <- <-.
      assert (La : In a L) by (rewrite E; apply in_app_iff; right; now left).
      destruct (IH (pre ++ [a]) (fo_of a insns) r' i') as (P & D & O); auto.
      { now rewrite <- app_assoc. }
      { intros b Hb. apply in_fo in Hb. apply Sub. tauto. }
      { intros b Hb K. apply in_fo in K. destruct K as [K1 K2]. apply in_app_iff in Hb. destruct Hb as [Hb|[<-|[]]]; [now apply (Pre b)|]. rewrite chosen_self in K2. discriminate. }
      assert (PF := frfo_perm a insns). split; [rewrite <- app_assoc; now rewrite P|]. split.
      { intros b [<-|Hb]; [|now apply D]. intros K. assert (K2 : In a (fo_of a insns)) by (apply (Permutation_in _ P), in_app_iff; auto). apply in_fo in K2. rewrite chosen_self in K2. destruct K2; discriminate. }
      assert (X : forall x y, In x (fr_of a insns) -> In y insns -> dep y x = false).
      { intros x y Hx Hy. destruct (dep y x) eqn:Dyx; [|reflexivity]. exfalso. apply in_fr in Hx. destruct Hx as [Hx Cx].
        assert (Dya : dep y a = true).
        { unfold chosen in Cx. apply orb_prop in Cx. destruct Cx as [Cx|Cx]; [apply same_iff in Cx; apply fst_inj in Cx; auto; subst; auto|]. apply (F x); auto. }
        assert (Ly := Sub y Hy). rewrite E in Ly, OL. apply in_app_iff in Ly. destruct Ly as [Ly|[<-|Ly]].
        - now apply (Pre y).
        - rewrite (irr a La) in Dya. discriminate.
        - apply FOP_app_inv in OL. destruct OL as (_ & O2 & _). inversion O2 as [|? ? Fa _]; subst. rewrite Forall_forall in Fa. rewrite (Fa y Ly) in Dya. discriminate. }
      unfold ordered in *. apply FOP_app; auto.
      + apply FOP_in. intros x y Hx Hy. apply X; auto. apply in_fr in Hy. tauto.
      + intros x y Hx Hy. apply X; auto. assert (K : In y (fo_of a insns)) by (apply (Permutation_in _ P), in_app_iff; auto). apply in_fo in K. tauto.
  Qed.
  Lemma del_ok : (forall x a y, In x L -> In a L -> In y L -> friendp x a = true -> dep x y = true -> dep a y = true) ->
    forall suf pre r i, L = pre ++ suf -> del L suf = (r, i) ->
    Permutation (r ++ i) L /\ (forall a, In a suf -> ~ In a i) /\ ordered r /\ (forall y x, In y r -> In x i -> dep y x = false).
  Proof.
    intros F. induction suf as [|a suf IH]; intros pre r i E A; cbn [del] in A.
    - injection A as <- <-. split; [reflexivity|]. split; [intros a []|split; [constructor|intros y x []]].
    - destruct (del L suf) as [r' i'] eqn:A'. injection A as <- <-.
      assert (La : In a L) by (rewrite E; apply in_app_iff; right; now left).
      destruct (IH (pre ++ [a]) r' i') as (P & D & O & Q); auto; [now rewrite <- app_assoc|].
      assert (PF := frfo_perm a i').
      assert (Sub : forall b, In b i' -> In b L) by (intros b Hb; apply (Permutation_in _ P), in_app_iff; auto).
      split.
      { transitivity (r' ++ i'); [|exact P]. transitivity (r' ++ (fr_of a i' ++ fo_of a i')); [|now apply Permutation_app_head].
        transitivity ((r' ++ fo_of a i') ++ fr_of a i'); [rewrite <- app_assoc; apply Permutation_app_comm|]. rewrite <- app_assoc. apply Permutation_app_head, Permutation_app_comm. }
      split.
      { intros b [<-|Hb] K; apply in_fo in K; destruct K as [K1 K2]; [rewrite chosen_self in K2; discriminate|]. now apply (D b). }
      assert (X : forall y x, In y (fr_of a i') -> In x i' -> dep y x = false).
      { intros y x Hy Hx. destruct (dep y x) eqn:Dyx; [|reflexivity]. exfalso. apply in_fr in Hy. destruct Hy as [Hy Cy].
        assert (Dax : dep a x = true).
        { unfold chosen in Cy. apply orb_prop in Cy. destruct Cy as [Cy|Cy]; [apply same_iff in Cy; apply fst_inj in Cy; auto; subst; auto|]. apply (F y); auto. }
        assert (Lx := Sub x Hx). rewrite E in Lx, OL. apply in_app_iff in Lx. destruct Lx as [Lx|[<-|Lx]].
        - apply FOP_app_inv in OL. destruct OL as (_ & _ & O3). rewrite (O3 x a Lx (or_introl eq_refl)) in Dax. discriminate.
        - rewrite (irr a La) in Dax. discriminate.
        - now apply (D x). }
      split.
      + unfold ordered in *. apply FOP_app; auto.
        * apply FOP_in. intros x y Hx Hy. apply X; auto. apply in_fr in Hx. tauto.
        * intros x y Hx Hy. apply Q; auto. apply in_fr in Hx. tauto.
      + intros y x Hy Hx. apply in_fo in Hx. destruct Hx as [Hx _]. apply in_app_iff in Hy. destruct Hy; [apply X|apply Q]; auto.
  Qed.
End Friends.

(** ** The two passes on a schedule *)
Record sane (l : list assignment) : Prop := {
  sa_nodup : NoDup (map fst l);
  sa_irr : forall a, In a l -> dep a a = false;
  (** what is used is not a stored array element *)
  sa_flow : forall a b, In a l -> In b l -> In (fst a) (find_vars (snd b)) -> is_temporary (fst a) = true;
  (** array elements are loaded into temporaries *)
  sa_loads : forall a w, In a l -> In w (find_vars (snd a)) -> is_locative w = true -> snd a = ELoad w /\ is_temporary (fst a) = true
}.
Lemma sane_perm l l' : Permutation l' l -> sane l -> sane l'.
Proof.
  intros P [A B D E]. assert (S : forall a, In a l' -> In a l) by (intros a; apply Permutation_in; auto). constructor; eauto.
  eapply Permutation_NoDup; [apply Permutation_map, Permutation_sym, P|auto].
Qed.
Lemma anticipate_ok friendp s s' : seqonly s -> sane (sched_to_ilist s) -> ordered (sched_to_ilist s) ->
  (forall x a y, In x (sched_to_ilist s) -> In a (sched_to_ilist s) -> In y (sched_to_ilist s) -> friendp x a = true -> dep y x = true -> dep y a = true) ->
  anticipate_friends friendp s = Some s' -> seqonly s' /\ Permutation (sched_to_ilist s') (sched_to_ilist s) /\ ordered (sched_to_ilist s').
Proof.
  intros W [ND irr _ _] O F. unfold anticipate_friends. destruct (anticipate_recur friendp (sched_to_ilist s) s) as [t i] eqn:E. destruct i as [|]; [|discriminate]. intros [= <-].
  apply anticipate_ant in E; auto. destruct E as [St E]. destruct (ant_ok friendp _ ND irr O F (sched_to_ilist s) [] (sched_to_ilist s) _ _ eq_refl (fun a H => H) (fun a H => match H with end) E) as (P & _ & Or).
  rewrite app_nil_r in P. auto.
Qed.
Lemma anticipate_total friendp s : seqonly s -> sane (sched_to_ilist s) -> ordered (sched_to_ilist s) ->
  (forall x a y, In x (sched_to_ilist s) -> In a (sched_to_ilist s) -> In y (sched_to_ilist s) -> friendp x a = true -> dep y x = true -> dep y a = true) ->
  exists s', anticipate_friends friendp s = Some s'.
Proof.
  intros W [ND irr _ _] O F. unfold anticipate_friends. destruct (anticipate_recur friendp (sched_to_ilist s) s) as [t i] eqn:E.
  apply anticipate_ant in E; auto. destruct E as [St E]. destruct (ant_ok friendp _ ND irr O F (sched_to_ilist s) [] (sched_to_ilist s) _ _ eq_refl (fun a H => H) (fun a H => match H with end) E) as (P & D & _).
  destruct i as [|b i]; [eauto|]. exfalso. apply (D b); [|now left]. apply (Permutation_in _ P), in_app_iff. right. now left.
Qed.
Lemma delay_ok friendp s s' : seqonly s -> sane (sched_to_ilist s) -> ordered (sched_to_ilist s) ->
  (forall x a y, In x (sched_to_ilist s) -> In a (sched_to_ilist s) -> In y (sched_to_ilist s) -> friendp x a = true -> dep x y = true -> dep a y = true) ->
  delay_friends friendp s = Some s' -> seqonly s' /\ Permutation (sched_to_ilist s') (sched_to_ilist s) /\ ordered (sched_to_ilist s').
Proof.
  intros W [ND irr _ _] O F. unfold delay_friends. destruct (delay_recur friendp (sched_to_ilist s) s) as [t i] eqn:E. destruct i as [|]; [|discriminate]. intros [= <-].
  apply delay_del in E; auto. destruct E as [St E]. destruct (del_ok friendp _ ND irr O F (sched_to_ilist s) [] _ _ eq_refl E) as (P & _ & Or & _).
  rewrite app_nil_r in P. auto.
Qed.
Lemma delay_total friendp s : seqonly s -> sane (sched_to_ilist s) -> ordered (sched_to_ilist s) ->
  (forall x a y, In x (sched_to_ilist s) -> In a (sched_to_ilist s) -> In y (sched_to_ilist s) -> friendp x a = true -> dep x y = true -> dep a y = true) ->
  exists s', delay_friends friendp s = Some s'.
Proof.
  intros W [ND irr _ _] O F. unfold delay_friends. destruct (delay_recur friendp (sched_to_ilist s) s) as [t i] eqn:E.
  apply delay_del in E; auto. destruct E as [St E]. destruct (del_ok friendp _ ND irr O F (sched_to_ilist s) [] _ _ eq_refl E) as (P & D & _).
  destruct i as [|b i]; [eauto|]. exfalso. apply (D b); [|now left]. apply (Permutation_in _ P), in_app_iff. right. now left.
Qed.

(** the three relations *)
Lemma dep_true a b : dep a b = true <-> In (fst a) (find_vars (snd b)) \/ exists w, In w (find_vars (snd a)) /\ same_location (fst b) w = true.
Proof.
  unfold depends_on, node_uses, node_clobbers. rewrite orb_true_iff, !existsb_exists. split.
  - intros [(w & Hw & E)|(w & Hw & E)]; [apply same_iff in E; subst; auto|right; eauto].
  - intros [H|(w & Hw & E)]; [left; exists (fst a); split; auto; now apply same_iff|right; eauto].
Qed.
Lemma same_location_loc v w : same_location v w = true -> is_locative v = true /\ is_locative w = true.
Proof. destruct v, w; cbn; auto; discriminate. Qed.
Lemma temp_loc v : is_temporary v = true -> is_locative v = false. Proof. destruct v; cbn; congruence. Qed.
Lemma subset_in a b w : subset a b = true -> In w a -> In w b.
Proof. unfold subset, memq. rewrite forallb_forall. intros H Hw. specialize (H w Hw). apply existsb_exists in H. destruct H as (x & Hx & E). apply same_iff in E. now subst. Qed.
Lemma use_same_vars_ok l : sane l -> forall x a y, In x l -> In a l -> In y l -> use_same_vars x a = true -> dep y x = true -> dep y a = true.
Proof.
  intros _ x a y _ _ _ U D. unfold use_same_vars in U. apply andb_prop in U. destruct U as [U1 U2]. apply andb_prop in U1, U2. destruct U1 as [U1 _], U2 as [U2 _].
  apply dep_true in D. apply dep_true. destruct D as [D|(w & Hw & E)]; [left; eapply subset_in; eauto|].
  apply same_location_loc in E. destruct E as [E _]. rewrite temp_loc in E; auto. discriminate.
Qed.
Lemma loads_ok l : sane l -> forall x a y, In x l -> In a l -> In y l -> loads_from_same_class x a = true -> dep y x = true -> dep y a = true.
Proof.
  intros [_ _ Fl Ld] x a y Hx Ha Hy U D. exfalso. unfold loads_from_same_class in U. destruct (snd x) as [| | | | | | |v|] eqn:Ex; try discriminate. destruct (snd a) as [| | | | | | |v'|]; try discriminate.
  destruct (is_locative v && is_locative v') eqn:Lv; [|discriminate]. apply andb_prop in Lv. destruct Lv as [Lv _].
  assert (Hv : In v (find_vars (snd x))) by (rewrite Ex; now left). apply dep_true in D. destruct D as [D|(w & Hw & E)].
  - assert (T := Fl y x Hy Hx D). rewrite Ex in D. destruct D as [D|[]]. rewrite D in Lv. rewrite temp_loc in Lv; auto. discriminate.
  - destruct (Ld x v Hx Hv Lv) as [_ T]. apply same_location_loc in E. destruct E as [E _]. rewrite temp_loc in E; auto. discriminate.
Qed.
Lemma stores_ok l : sane l -> forall x a y, In x l -> In a l -> In y l -> store_to_same_class x a = true -> dep x y = true -> dep a y = true.
Proof.
  intros [_ _ Fl Ld] x a y Hx Ha Hy U D. exfalso. unfold store_to_same_class in U. apply andb_prop in U. destruct U as [U _]. apply andb_prop in U. destruct U as [U _].
  apply dep_true in D. destruct D as [D|(w & Hw & E)].
  - assert (T := Fl x y Hx Hy D). rewrite temp_loc in U; auto. discriminate.
  - apply same_location_loc in E. destruct E as [_ E]. destruct (Ld x w Hx Hw E) as [_ T]. rewrite temp_loc in U; auto. discriminate.
Qed.
