(** * Proofs about annotate.ml: the declarations *)
From Coq Require Import ZArith List Bool Lia Permutation.
From Verif Require Import Cplx GenExpr GenAlg GenAlist GenSched GenSchedProofs GenAnnot GenAnnotProofs GenAnnotProofs2 GenAnnotProofs3.
Import ListNotations.
Open Scope nat_scope.
Local Notation dep := depends_on.

Definition defined_of (x : annotated) : list variable := match x with Annotate _ u _ _ _ => u end.
Definition live_of (x : annotated) : list variable := match x with Annotate l _ _ _ _ => l end.
Fixpoint depth_ (x : annotated) : nat := match x with Annotate _ _ _ _ c => S match c with ASeq a b => depth_ a + depth_ b | _ => 0 end end.

Lemma memq_in v l : memq v l = true <-> In v l.
Proof. unfold memq. rewrite existsb_exists. split; [intros (x & Hx & E); apply same_iff in E; now subst|intros H; exists v; split; auto; now apply same_iff]. Qed.
Lemma in_union l s v : In v (union l s) <-> In v l \/ In v s.
Proof.
  revert v. induction l as [|a l IH]; intros v; [cbn; tauto|]. change (union (a :: l) s) with (addelem a (union l s)). unfold addelem. destruct (memq a _) eqn:E; cbn [negb In]; rewrite ?IH; [|tauto].
  apply memq_in in E. rewrite IH in E. split; [tauto|]. intros [[->|K]|K]; auto.
Qed.
Lemma in_remove v l w : In w (remove_var v l) <-> In w l /\ w <> v.
Proof. unfold remove_var. rewrite filter_In, negb_true_iff. split; intros [A B]; split; auto. - intros ->. assert (same v v = true) by now apply same_iff. congruence. - destruct (same w v) eqn:E; auto. apply same_iff in E. congruence. Qed.
Lemma in_diff a b w : In w (diff a b) <-> In w a /\ ~ In w b.
Proof. unfold diff. rewrite filter_In, negb_true_iff. destruct (memq w b) eqn:E; [apply memq_in in E|]; split; intros [A B]; split; auto; try congruence; try tauto. intros K. apply memq_in in K. congruence. Qed.
Lemma diff_perm a b : Permutation (diff a b ++ diff a (diff a b)) a.
Proof.
  assert (E : diff a (diff a b) = filter (fun x => memq x b) a).
  { unfold diff at 1. apply filter_ext_in. intros x Hx. destruct (memq x b) eqn:Eb.
    - apply negb_true_iff. destruct (memq x (diff a b)) eqn:E; auto. apply memq_in, in_diff in E. apply memq_in in Eb. tauto.
    - apply negb_false_iff. apply memq_in, in_diff. split; auto. intros K. apply memq_in in K. congruence. }
  rewrite E. unfold diff. clear E. induction a as [|x a IH]; [reflexivity|]. cbn [filter]. destruct (memq x b); cbn [negb app]; [|now constructor]. rewrite <- Permutation_middle. now constructor.
Qed.
Lemma filter_idem {A} (f : A -> bool) l : filter f (filter f l) = filter f l.
Proof. induction l as [|a l IH]; [reflexivity|]. cbn. destruct (f a) eqn:E; cbn; rewrite ?E, IH; auto. Qed.
Lemma filter_perm {A} (f : A -> bool) l l' : Permutation l l' -> Permutation (filter f l) (filter f l').
Proof. induction 1; cbn; auto; [destruct (f x); auto|destruct (f x), (f y); auto; constructor|etransitivity; eauto]. Qed.
Lemma filter_all {A} (f : A -> bool) l : (forall x, In x l -> f x = true) -> filter f l = l.
Proof. induction l as [|a l IH]; intros H; [reflexivity|]. cbn. rewrite (H a (or_introl eq_refl)), IH; auto. intros; apply H; now right. Qed.
Lemma diff_temp a b : (forall x, In x a -> is_temporary x = true) -> filter is_temporary (diff a b) = diff a b.
Proof. intros H. apply filter_all. intros x Hx. apply in_diff in Hx. now apply H. Qed.

Lemma NoDup_app_remove_r {A} (l l' : list A) : NoDup (l ++ l') -> NoDup l.
Proof. induction l as [|a l IH]; intros N; [constructor|]. cbn in N. inversion N as [|? ? Na N']; subst. constructor; auto. intros K. apply Na, in_app_iff. auto. Qed.
Lemma NoDup_app_remove_l {A} (l l' : list A) : NoDup (l ++ l') -> NoDup l'.
Proof. induction l as [|a l IH]; intros N; [exact N|]. cbn in N. inversion N; auto. Qed.
Definition assigned (s : sched) := map fst (sched_to_ilist s).
Definition used (s : sched) := flat_map (fun a => find_vars (snd a)) (sched_to_ilist s).
Lemma analyze_seq live a b : analyze live (Seq a b) =
  let ab := analyze live b in let aa := analyze (live_of ab) a in
  let defined := filter is_temporary (defined_of aa ++ defined_of ab) in
  Annotate (live_of aa) (diff defined (diff defined live)) (diff defined live) (length (diff defined live) + Nat.max (match ab with Annotate _ _ _ d _ => d end) (match aa with Annotate _ _ _ d _ => d end)) (ASeq aa ab).
Proof. cbn [analyze]. destruct (analyze live b) as [lb db xb nb cb]. cbn [live_of]. destruct (analyze lb a) as [la da xa na ca]. reflexivity. Qed.
Lemma decls_eq live u d n c : decls (Annotate live u d n c) = filter is_temporary d ++ match c with ASeq a b => decls a ++ decls b | _ => [] end.
Proof. reflexivity. Qed.
Lemma analyze_live s : seqonly s -> forall live w, In w live -> ~ In w (assigned s) -> In w (live_of (analyze live s)).
Proof.
  induction s as [|[v x]|a IHa b IHb|]; intros W live w Hw N; [exact Hw| | |destruct W].
  - cbn. apply in_remove. split; [apply in_union; auto|]. intros ->. apply N. now left.
  - destruct W as [Wa Wb]. rewrite analyze_seq. cbn [live_of]. unfold assigned in *. cbn [sched_to_ilist] in N. rewrite map_app, in_app_iff in N. apply IHa; [auto| |tauto]. apply IHb; tauto.
Qed.
Lemma analyze_used s : seqonly s -> forall live w, In w (used s) -> ~ In w (assigned s) -> In w (live_of (analyze live s)).
Proof.
  induction s as [|[v x]|a IHa b IHb|]; intros W live w Hw N; [destruct Hw| | |destruct W].
  - unfold used in Hw. cbn in Hw. rewrite app_nil_r in Hw. cbn. apply in_remove. split; [apply in_union; auto|]. intros ->. apply N. now left.
  - destruct W as [Wa Wb]. rewrite analyze_seq. cbn [live_of]. unfold assigned, used in *. cbn [sched_to_ilist] in N, Hw. rewrite map_app, in_app_iff in N. rewrite flat_map_app, in_app_iff in Hw. destruct Hw as [Hw|Hw].
    + apply IHa; tauto.
    + apply analyze_live; [auto| |unfold assigned; tauto]. apply IHb; tauto.
Qed.
Lemma analyze_count s : seqonly s -> forall live, Permutation (decls (analyze live s) ++ filter is_temporary (defined_of (analyze live s))) (filter is_temporary (assigned s)).
Proof.
  induction s as [|[v x]|a IHa b IHb|]; intros W live; [reflexivity|reflexivity| |destruct W].
  destruct W as [Wa Wb]. rewrite analyze_seq. cbn zeta. set (ab := analyze live b). set (aa := analyze (live_of ab) a). set (df := filter is_temporary (defined_of aa ++ defined_of ab)).
  assert (Td : forall x, In x df -> is_temporary x = true) by (intros x Hx; apply filter_In in Hx; tauto).
  rewrite decls_eq. cbn [defined_of]. rewrite !diff_temp by auto. unfold assigned. cbn [sched_to_ilist]. rewrite map_app, filter_app. fold (assigned a) (assigned b).
  rewrite <- (IHa Wa (live_of ab)), <- (IHb Wb live). fold ab aa. rewrite <- app_assoc. rewrite Permutation_app_comm. rewrite <- !app_assoc.
  rewrite (Permutation_app_comm (diff df (diff df live))). rewrite (diff_perm df live). unfold df. rewrite filter_app. rewrite !app_assoc. apply Permutation_app_tail.
  rewrite <- !app_assoc. apply Permutation_app_head. apply Permutation_app_comm.
Qed.
Lemma analyze_def s : seqonly s -> NoDup (assigned s) -> forall live w, In w live -> is_temporary w = true -> In w (assigned s) -> In w (defined_of (analyze live s)).
Proof.
  induction s as [|[v x]|a IHa b IHb|]; intros W ND live w Hw T A; [destruct A|exact A| |destruct W].
  destruct W as [Wa Wb]. rewrite analyze_seq. cbn zeta. set (ab := analyze live b). set (aa := analyze (live_of ab) a). cbn [defined_of].
  unfold assigned in ND, A. cbn [sched_to_ilist] in ND, A. rewrite map_app in ND, A. fold (assigned a) (assigned b) in ND, A. assert (Na := NoDup_app_remove_r _ _ ND). assert (Nb := NoDup_app_remove_l _ _ ND).
  apply in_diff. rewrite in_diff. cut (In w (filter is_temporary (defined_of aa ++ defined_of ab))); [tauto|]. apply filter_In. split; auto. apply in_app_iff. apply in_app_iff in A. destruct A as [A|A].
  - left. apply IHa; auto. apply analyze_live; auto. intros K. exact (nodup_app_in _ _ _ ND A K).
  - right. apply IHb; auto.
Qed.
Lemma scoped_outer x : forall o1 o2, scoped (o1 ++ o2) x = map (fun p => (fst p ++ o2, snd p)) (scoped o1 x).
Proof.
  cut (forall n x, depth_ x <= n -> forall o1 o2, scoped (o1 ++ o2) x = map (fun p => (fst p ++ o2, snd p)) (scoped o1 x)); [eauto|].
  induction n as [|n IH]; intros [l u d k c] L o1 o2; cbn [depth_] in L; [lia|]. cbn [scoped]. destruct c as [|i|a b]; [reflexivity|cbn; now rewrite app_assoc|].
  rewrite map_app, app_assoc, <- !IH by lia. reflexivity.
Qed.
Lemma scoped_nil o x : scoped o x = map (fun p => (fst p ++ o, snd p)) (scoped [] x).
Proof. apply (scoped_outer x [] o). Qed.
Lemma scoped_analyze s : seqonly s -> forall live o, map snd (scoped o (analyze live s)) = sched_to_ilist s.
Proof.
  induction s as [|[v x]|a IHa b IHb|]; intros W live o; [reflexivity|reflexivity| |destruct W].
  destruct W as [Wa Wb]. rewrite analyze_seq. cbn [scoped sched_to_ilist]. rewrite map_app, IHa, IHb; auto.
Qed.
(** in the analysis, a temporary an instruction mentions is declared around it, or left to the outside, or assigned outside *)
Lemma analyze_scoped s : seqonly s -> NoDup (assigned s) -> ordered (sched_to_ilist s) -> forall live sc i w, In (sc, i) (scoped [] (analyze live s)) ->
  w = fst i \/ In w (find_vars (snd i)) -> is_temporary w = true -> In w (assigned s) -> In w sc \/ In w (defined_of (analyze live s)).
Proof.
  induction s as [|[v x]|a IHa b IHb|]; intros W ND O live sc i w Hi Hw T A; [destruct Hi| | |destruct W].
  - right. exact A.
  - destruct W as [Wa Wb]. rewrite analyze_seq in Hi |- *. cbn zeta in Hi |- *. set (ab := analyze live b) in *. set (aa := analyze (live_of ab) a) in *. cbn [defined_of]. cbn [scoped] in Hi.
    set (df := filter is_temporary (defined_of aa ++ defined_of ab)) in *.
    assert (Td : forall x, In x df -> is_temporary x = true) by (intros x Hx; apply filter_In in Hx; tauto).
    rewrite diff_temp, app_nil_r in Hi by auto.
    unfold assigned in ND, A. cbn [sched_to_ilist] in ND, A, O. rewrite map_app in ND, A. fold (assigned a) (assigned b) in ND, A. assert (Na := NoDup_app_remove_r _ _ ND). assert (Nb := NoDup_app_remove_l _ _ ND).
    apply FOP_app_inv in O. destruct O as (Oa & Ob & Oab).
    assert (X : forall sc0, sc = sc0 ++ diff df live -> In w sc0 \/ In w df -> In w sc \/ In w (diff df (diff df live))).
    { intros sc0 -> [K|K]; [left; apply in_app_iff; auto|]. destruct (memq w (diff df live)) eqn:E; [apply memq_in in E; left; apply in_app_iff; auto|right; apply in_diff; split; auto; intros Q; apply memq_in in Q; congruence]. }
    assert (Df : forall y, is_temporary y = true -> In y (defined_of aa) \/ In y (defined_of ab) -> In y df) by (intros y Ty Hy; apply filter_In; rewrite in_app_iff; auto).
    apply in_app_iff in Hi. destruct Hi as [Hi|Hi]; rewrite scoped_nil in Hi; apply in_map_iff in Hi; destruct Hi as ((sc0 & i0) & E & Hi); cbn [fst snd] in E; injection E as Esc <-; symmetry in Esc; apply (X sc0 Esc).
    + assert (Ia : In i0 (sched_to_ilist a)) by (rewrite <- (scoped_analyze a Wa (live_of ab) []); apply (in_map snd) in Hi; exact Hi).
      assert (Aa : In w (assigned a)).
      { apply in_app_iff in A. destruct A as [A|A]; auto. exfalso. destruct Hw as [->|Hw].
        - apply (nodup_app_in _ _ (fst i0) ND); auto. apply in_map. exact Ia.
        - apply in_map_iff in A. destruct A as (j & <- & Hj). assert (D : dep j i0 = true) by (apply dep_true; now left). rewrite (Oab i0 j Ia Hj) in D. discriminate. }
      destruct (IHa Wa Na Oa (live_of ab) sc0 i0 w Hi Hw T Aa); auto.
    + assert (Ib : In i0 (sched_to_ilist b)) by (rewrite <- (scoped_analyze b Wb live []); apply (in_map snd) in Hi; exact Hi).
      apply in_app_iff in A. destruct A as [A|A]; [|destruct (IHb Wb Nb Ob live sc0 i0 w Hi Hw T A); auto].
      right. apply Df; auto. left. apply analyze_def; auto.
      assert (Nw : ~ In w (assigned b)) by (intros K; exact (nodup_app_in _ _ _ ND A K)).
      apply analyze_used; auto. destruct Hw as [->|Hw]; [exfalso; apply Nw, in_map, Ib|]. unfold used. apply in_flat_map. eauto.
Qed.
(** ** rewrite_declarations *)
Definition alltemp (l : list variable) : Prop := forall x, In x l -> is_temporary x = true.
Fixpoint wdecl (x : annotated) : Prop := match x with Annotate _ _ d _ c => alltemp d /\ match c with ASeq a b => wdecl a /\ wdecl b | ADone => d = [] | AInstr _ => True end end.
Lemma analyze_wdecl s : forall live, wdecl (analyze live s).
Proof.
  induction s as [|[v x]|a IHa b IHb|]; intros live; [cbn; split; [intros x []|auto]|cbn; split; [intros y []|auto]| |cbn; split; [intros x []|auto]].
  rewrite analyze_seq. cbn [wdecl]. split; [|auto]. intros x Hx. apply in_diff in Hx. destruct Hx as [Hx _]. apply filter_In in Hx. tauto.
Qed.
Lemma rewrite_seq m force l u d n a b : rewrite_declarations m force (Annotate l u d n (ASeq a b)) =
  let ma := rewrite_declarations m false a in let mb := rewrite_declarations m false b in let dd := d ++ undeclared ma ++ undeclared mb in
  if force || (m <=? length dd) then Annotate [] [] dd 0 (ASeq ma mb) else Annotate [] dd [] 0 (ASeq ma mb).
Proof. cbn [rewrite_declarations]. cbn zeta. destruct (force || _); reflexivity. Qed.
Lemma rewrite_count m : forall n x, depth_ x <= n -> forall force, wdecl x -> alltemp (undeclared (rewrite_declarations m force x)) /\ Permutation (decls (rewrite_declarations m force x) ++ undeclared (rewrite_declarations m force x)) (decls x).
Proof.
  induction n as [|n IH]; intros [l u d k c] L force W; cbn [depth_] in L; [lia|]. destruct W as [Wd Wc]. destruct c as [|i|a b].
  - subst d. cbn. split; [intros x []|reflexivity].
  - cbn [rewrite_declarations]. rewrite decls_eq, app_nil_r, (filter_all _ d) by auto. destruct (force || _); cbn [undeclared]; rewrite decls_eq, !app_nil_r.
    + split; [intros x []|]. now rewrite filter_all.
    + split; [auto|reflexivity].
  - rewrite rewrite_seq. cbn zeta. destruct Wc as [Wa Wb]. destruct (IH a ltac:(lia) false Wa) as [Ta Pa]. destruct (IH b ltac:(lia) false Wb) as [Tb Pb].
    set (ma := rewrite_declarations m false a) in *. set (mb := rewrite_declarations m false b) in *. set (dd := d ++ undeclared ma ++ undeclared mb).
    assert (Td : alltemp dd) by (intros x Hx; unfold dd in Hx; rewrite !in_app_iff in Hx; destruct Hx as [Hx|[Hx|Hx]]; auto).
    assert (G : Permutation (dd ++ decls ma ++ decls mb) (d ++ decls a ++ decls b)).
    { unfold dd. rewrite <- Pa, <- Pb. rewrite <- !app_assoc. apply Permutation_app_head. rewrite (Permutation_app_swap_app (undeclared mb)). rewrite (Permutation_app_swap_app (undeclared ma)).
      do 2 apply Permutation_app_head. apply Permutation_app_comm. }
    rewrite !(decls_eq l), (filter_all _ d) by auto. destruct (force || _); cbn [undeclared]; rewrite decls_eq.
    + split; [intros x []|]. rewrite app_nil_r, filter_all by auto. exact G.
    + split; [auto|]. cbn [filter app]. rewrite Permutation_app_comm. exact G.
Qed.

Lemma rewrite_scoped m : forall n x, depth_ x <= n -> forall force, wdecl x ->
  Forall2 (fun p' p => snd p' = snd p /\ forall w, In w (fst p) -> In w (fst p') \/ In w (undeclared (rewrite_declarations m force x))) (scoped [] (rewrite_declarations m force x)) (scoped [] x).
Proof.
  induction n as [|n IH]; intros [l u d k c] L force W; cbn [depth_] in L; [lia|]. assert (W' := W). destruct W as [Wd Wc]. destruct c as [|i|a b].
  - subst d. cbn. constructor.
  - cbn [rewrite_declarations]. destruct (force || _); cbn [undeclared scoped]; constructor; try constructor; auto; intros w Hw; cbn [fst] in *; rewrite app_nil_r, filter_all in * by auto; auto.
  - rewrite rewrite_seq. cbn zeta. destruct Wc as [Wa Wb]. assert (Fa := IH a ltac:(lia) false Wa). assert (Fb := IH b ltac:(lia) false Wb).
    destruct (rewrite_count m n a ltac:(lia) false Wa) as [Ta _]. destruct (rewrite_count m n b ltac:(lia) false Wb) as [Tb _].
    set (ma := rewrite_declarations m false a) in *. set (mb := rewrite_declarations m false b) in *. set (dd := d ++ undeclared ma ++ undeclared mb).
    assert (Td : alltemp dd) by (intros x Hx; unfold dd in Hx; rewrite !in_app_iff in Hx; destruct Hx as [Hx|[Hx|Hx]]; auto).
    set (r := if force || _ then _ else _). assert (Er : exists d' u', r = Annotate [] u' d' 0 (ASeq ma mb) /\ (forall w, In w dd -> In w (filter is_temporary d') \/ In w u')).
    { unfold r. destruct (force || _); eexists _, _; (split; [reflexivity|]); intros w Hw; [left; apply filter_In; auto|right; auto]. }
    destruct Er as (d' & u' & -> & Cov). cbn [undeclared scoped]. rewrite !app_nil_r.
    assert (G : forall y y', (forall w, In w (undeclared y') -> In w dd) -> Forall2 (fun p' p => snd p' = snd p /\ forall w, In w (fst p) -> In w (fst p') \/ In w (undeclared y')) (scoped [] y') (scoped [] y) ->
      Forall2 (fun p' p => snd p' = snd p /\ forall w, In w (fst p) -> In w (fst p') \/ In w u') (scoped (filter is_temporary d') y') (scoped (filter is_temporary d) y)).
    { intros y y' Uy F. rewrite (scoped_nil (filter is_temporary d') y'), (scoped_nil (filter is_temporary d) y). clear - F Uy Cov Wd dd. induction F as [|p' p q' q [Hs Hw] F IHF]; cbn [map]; constructor; auto. cbn [fst snd]. split; auto.
      intros w K. rewrite in_app_iff in *. destruct K as [K|K].
      - destruct (Hw w K) as [K'|K']; auto. destruct (Cov w (Uy w K')); auto.
      - apply filter_In in K. destruct (Cov w) as [K'|K']; [apply in_app_iff; tauto|auto|auto]. }
    apply Forall2_app; apply G; auto; intros w Hw; apply in_app_iff; right; apply in_app_iff; auto.
Qed.

(** ** All passes *)
Section Final.
  Variable sort : (keyed -> keyed -> Z) -> list keyed -> list keyed.
  Hypothesis sort_perm : forall c l, Permutation (sort c l) l.
  Variable Mn : nmagic.
  Definition fin (L : list assignment) (x : sched) : Prop := seqonly x /\ Permutation (sched_to_ilist x) L /\ ordered (sched_to_ilist x).
  Lemma fin_sane L x : sane L -> fin L x -> sane (sched_to_ilist x).
  Proof. intros S (_ & P & _). eapply sane_perm; eauto. Qed.
  Lemma fin_trans L x y : fin L x -> fin (sched_to_ilist x) y -> fin L y.
  Proof. intros (_ & P & _) (S & P' & O). split; auto. split; auto. now rewrite P'. Qed.
  Lemma fin_lin f L x y : fin L x -> linearize sort f x = Some y -> fin L y.
  Proof.
    intros (S & P & O) E. destruct (linearize_ok sort sort_perm f x y E) as [Sy Ly]. assert (K := Ly _ (seqonly_lin y Sy)). apply lin_seqonly in K; auto. unfold fin. rewrite K. auto.
  Qed.
  Lemma ant_pass L x y p f : sane L -> fin L x -> (forall l, sane l -> forall x a y, In x l -> In a l -> In y l -> p x a = true -> dep y x = true -> dep y a = true) ->
    obind (anticipate_friends p x) (linearize sort f) = Some y -> fin L y.
  Proof.
    intros Sa F Hp E. assert (Sx := fin_sane _ _ Sa F). destruct (anticipate_friends p x) as [z|] eqn:Ez; [|discriminate]. cbn [obind] in E. eapply fin_lin; [|exact E]. eapply fin_trans; [exact F|].
    destruct F as (W & P & O). eapply anticipate_ok; eauto.
  Qed.
  Lemma del_pass L x y p f : sane L -> fin L x -> (forall l, sane l -> forall x a y, In x l -> In a l -> In y l -> p x a = true -> dep x y = true -> dep a y = true) ->
    obind (delay_friends p x) (linearize sort f) = Some y -> fin L y.
  Proof.
    intros Sa F Hp E. assert (Sx := fin_sane _ _ Sa F). destruct (delay_friends p x) as [z|] eqn:Ez; [|discriminate]. cbn [obind] in E. eapply fin_lin; [|exact E]. eapply fin_trans; [exact F|].
    destruct F as (W & P & O). eapply delay_ok; eauto.
  Qed.
  Definition good (s : sched) (L : list assignment) : Prop := forall l', lin s l' -> Permutation l' L /\ ordered l'.
  Lemma lin_fin f L s x : good s L -> linearize sort f s = Some x -> fin L x.
  Proof. intros G E. destruct (linearize_ok sort sort_perm f s x E) as [Sx Lx]. destruct (G _ (Lx _ (seqonly_lin x Sx))). split; auto. Qed.
  Lemma final_order_ok f L s x : good s L -> sane L -> final_order sort Mn f s = Some x -> fin L x.
  Proof.
    intros G Sa. unfold final_order. destruct (linearize sort f s) as [x1|] eqn:E1; [|discriminate]. cbn [obind]. assert (F1 := lin_fin _ _ _ _ G E1).
    destruct (pass _ _ x1) as [x2|] eqn:E2; [|discriminate]. cbn [obind]. assert (F2 : fin L x2).
    { unfold pass in E2. destruct (_ && _); [|injection E2 as <-; auto]. destruct F1 as (W & P & O). eapply fin_trans; [split; [exact W|split; [exact P|exact O]]|]. eapply pipeline_ok; eauto. eapply sane_perm; eauto. }
    destruct (pass _ _ x2) as [x3|] eqn:E3; [|discriminate]. cbn [obind]. assert (F3 : fin L x3).
    { unfold pass in E3. destruct (reorder_insns Mn); [|injection E3 as <-; auto]. eapply ant_pass; eauto. exact use_same_vars_ok. }
    destruct (pass _ _ x3) as [x4|] eqn:E4; [|discriminate]. cbn [obind]. assert (F4 : fin L x4).
    { unfold pass in E4. destruct (reorder_stores Mn); [|injection E4 as <-; auto]. eapply del_pass; eauto. exact stores_ok. }
    intros E5. unfold pass in E5. destruct (reorder_loads Mn); [|injection E5 as <-; auto]. eapply ant_pass; eauto. exact loads_ok.
  Qed.
  (** it is defined for enough fuel *)
  Definition defd (L : list assignment) : Prop := forall a v, In a L -> In v (find_vars (snd a)) -> is_temporary v = true -> In v (map fst L).
  Definition ev (P : nat -> option sched) (Q : sched -> Prop) : Prop := exists f0 x, Q x /\ forall f, f0 <= f -> P f = Some x.
  Lemma ev_bind P Q (g : nat -> sched -> option sched) R : ev P Q -> (forall x, Q x -> ev (fun f => g f x) R) -> ev (fun f => obind (P f) (g f)) R.
  Proof.
    intros (f1 & x & Qx & E1) H. destruct (H x Qx) as (f2 & y & Ry & E2). exists (f1 + f2), y. split; auto. intros f Lf. rewrite E1 by lia. cbn. apply E2. lia.
  Qed.
  Lemma ev_lin s L : wfs s -> good s L -> ev (fun f => linearize sort f s) (fin L).
  Proof.
    intros W G. destruct (linearize_total sort sort_perm (ssize s) s W (le_n _)) as (x & E). exists (ssize s), x. split; [eapply lin_fin; eauto|]. intros f Lf. eapply linearize_mono; eauto.
  Qed.
  Lemma fin_good L x : fin L x -> good x L.
  Proof. intros (W & P & O) l' K. apply lin_seqonly in K; auto. subst. auto. Qed.
  Lemma ev_pass b (g : nat -> sched -> option sched) L x : fin L x -> ev (fun f => g f x) (fin L) -> ev (fun f => pass b (g f) x) (fin L).
  Proof. intros F E. destruct b; cbn [pass]; auto. exists 0, x. auto. Qed.
  Lemma final_order_total L s : wfs s -> good s L -> sane L -> defd L -> exists f0 x, forall f, f0 <= f -> final_order sort Mn f s = Some x.
  Proof.
    intros W G Sa Df. cut (ev (fun f => final_order sort Mn f s) (fin L)); [intros (f0 & x & _ & H); eauto|]. unfold final_order.
    apply ev_bind with (Q := fin L); [now apply ev_lin|]. intros x1 F1.
    apply ev_bind with (Q := fin L).
    { apply (ev_pass _ (schedule_for_pipeline (pipeline_latency Mn)) L x1 F1). destruct F1 as (W1 & P1 & O1).
      destruct (pipeline_total (pipeline_latency Mn) L Sa Df (sched_to_ilist x1) P1 O1 x1 W1 P1 O1) as (f & r & E). exists f, r. split.
      - eapply fin_trans; [split; [exact W1|split; [exact P1|exact O1]]|]. eapply pipeline_ok; eauto. eapply sane_perm; eauto.
      - intros f' Lf. eapply until_mono; eauto. }
    intros x2 F2. apply ev_bind with (Q := fin L).
    { apply (ev_pass _ (fun f x => obind (anticipate_friends use_same_vars x) (linearize sort f)) L x2 F2). assert (S2 := fin_sane _ _ Sa F2). destruct (anticipate_total use_same_vars x2) as (y & E); auto; try apply F2; try (apply use_same_vars_ok; auto).
      rewrite E. cbn [obind]. assert (Fy : fin L y) by (eapply fin_trans; [exact F2|]; eapply anticipate_ok; eauto; try apply F2; try (apply use_same_vars_ok; auto)). apply ev_lin; [apply seqonly_wf, Fy|now apply fin_good]. }
    intros x3 F3. apply ev_bind with (Q := fin L).
    { apply (ev_pass _ (fun f x => obind (delay_friends store_to_same_class x) (linearize sort f)) L x3 F3). assert (S2 := fin_sane _ _ Sa F3). destruct (delay_total store_to_same_class x3) as (y & E); auto; try apply F3; try (apply stores_ok; auto).
      rewrite E. cbn [obind]. assert (Fy : fin L y) by (eapply fin_trans; [exact F3|]; eapply delay_ok; eauto; try apply F3; try (apply stores_ok; auto)). apply ev_lin; [apply seqonly_wf, Fy|now apply fin_good]. }
    intros x4 F4. apply (ev_pass _ (fun f x => obind (anticipate_friends loads_from_same_class x) (linearize sort f)) L x4 F4). assert (S2 := fin_sane _ _ Sa F4). destruct (anticipate_total loads_from_same_class x4) as (y & E); auto; try apply F4; try (apply loads_ok; auto).
    rewrite E. cbn [obind]. assert (Fy : fin L y) by (eapply fin_trans; [exact F4|]; eapply anticipate_ok; eauto; try apply F4; try (apply loads_ok; auto)). apply ev_lin; [apply seqonly_wf, Fy|now apply fin_good].
  Qed.
End Final.
(** what annotate does to the instructions x of the last pass *)
Lemma annotated_ok m x : seqonly x -> NoDup (assigned x) -> ordered (sched_to_ilist x) ->
  (forall a, sched_to_ilist x = [a] -> is_temporary (fst a) = false) ->
  let r := rewrite_declarations m true (analyze [] x) in
  map snd (scoped [] r) = sched_to_ilist x /\
  Permutation (decls r) (filter is_temporary (assigned x)) /\
  forall sc i w, In (sc, i) (scoped [] r) -> w = fst i \/ In w (find_vars (snd i)) -> is_temporary w = true -> In w (assigned x) -> In w sc.
Proof.
  intros W ND O One r. assert (Wd := analyze_wdecl x []). assert (Fs := rewrite_scoped m _ _ (le_n _) true Wd). destruct (rewrite_count m _ _ (le_n _) true Wd) as [_ P]. fold r in Fs, P.
  assert (U : undeclared r = []).
  { unfold r. destruct (analyze [] x) as [l u d n c]. destruct c; [reflexivity| |]; reflexivity. }
  rewrite U, app_nil_r in P.
  assert (D : filter is_temporary (defined_of (analyze [] x)) = []).
  { destruct x as [|[v y]|a b|]; [reflexivity| | |destruct W].
    - cbn. specialize (One (v, y) eq_refl). cbn in One. now rewrite One.
    - rewrite analyze_seq. cbn [defined_of]. cbn zeta. set (df := filter is_temporary (_ ++ _)). assert (E : diff df (diff df []) = []); [|now rewrite E].
      destruct (diff df (diff df [])) as [|z l] eqn:E; [reflexivity|]. exfalso. assert (K : In z (diff df (diff df []))) by (rewrite E; now left). apply in_diff in K. destruct K as [K1 K2]. apply K2, in_diff. auto. }
  split; [|split].
  - rewrite <- (scoped_analyze x W [] []). clear - Fs. induction Fs as [|p p' l l' [E _] F IH]; cbn; [reflexivity|]. now rewrite E, IH.
  - rewrite P. assert (C := analyze_count x W []). rewrite D, app_nil_r in C. exact C.
  - intros sc i w Hi Hw T A. assert (G : exists sc0, In (sc0, i) (scoped [] (analyze [] x)) /\ forall w, In w sc0 -> In w sc).
    { rewrite U in Fs. clear - Fs Hi. induction Fs as [|p p' l l' [E F0] F IH]; [destruct Hi|]. destruct Hi as [->|Hi].
      - cbn in E. exists (fst p'). subst i. split; [left; now destruct p'|]. intros w Hw. destruct (F0 w Hw) as [K|[]]. exact K.
      - destruct (IH Hi) as (sc0 & K & K'). exists sc0. split; auto. now right. }
    destruct G as (sc0 & Hi0 & Sub). apply Sub. destruct (analyze_scoped x W ND O [] sc0 i w Hi0 Hw T A) as [K|K]; auto.
    exfalso. assert (K' : In w (filter is_temporary (defined_of (analyze [] x)))) by (apply filter_In; auto). rewrite D in K'. destruct K'.
Qed.
