(** * Proofs about annotate.ml: schedule_for_pipeline *)
From Coq Require Import ZArith List Bool Lia Permutation.
From Verif Require Import Cplx GenExpr GenAlg GenAlist GenSched GenSchedProofs GenAnnot GenAnnotProofs GenAnnotProofs2.
Import ListNotations.
Open Scope nat_scope.
Local Notation dep := depends_on.

Lemma part_perm {A} (f : A -> bool) l : forall r n, List.partition f l = (r, n) -> Permutation (r ++ n) l /\ Forall (fun x => f x = true) r /\ Forall (fun x => f x = false) n.
Proof.
  induction l as [|a l IH]; intros r n; cbn [List.partition]; [intros [= <- <-]; repeat constructor|]. destruct (List.partition f l) as [r0 n0]. destruct (IH _ _ eq_refl) as (P & F1 & F2).
  destruct (f a) eqn:E; intros [= <- <-]; (split; [|split; auto]).
  - cbn. now constructor.
  - rewrite <- Permutation_middle. now constructor.
Qed.
Lemma nodup_app_in {A} (l l' : list A) x : NoDup (l ++ l') -> In x l -> In x l' -> False.
Proof. induction l as [|a l IH]; intros N H1 H2; [destruct H1|]. cbn [app] in N. inversion N as [|? ? Na N']; subst. destruct H1 as [->|H1]; [apply Na, in_app_iff; auto|auto]. Qed.
Lemma until_mono lat : forall f f' s st r, f <= f' -> recur_until_done lat f s st = Some r -> recur_until_done lat f' s st = Some r.
Proof.
  induction f as [|f IH]; intros f' s st r Lf; [discriminate|]. destruct f' as [|f']; [lia|]. cbn [recur_until_done]. destruct (pipe_recur lat s st) as [s' [[t' rt'] d']]. destruct d'; auto.
  destruct (recur_until_done lat f Done _) as [q|] eqn:Eq; [|discriminate]. now rewrite (IH f' _ _ _ ltac:(lia) Eq).
Qed.
Section Pipe.
  Variable lat : Z.
  Variable L : list assignment.
  Hypothesis SA : sane L.
  Definition temps (a : assignment) := filter is_temporary (find_vars (snd a)).
  Record Inv (suf E : list assignment) (rt : times) (d : list assignment) : Prop := {
    iv_perm : Permutation (E ++ d ++ suf) L;
    iv_E : ordered E;
    iv_suf : ordered suf;
    iv_dep : forall x y, In x E -> In y (d ++ suf) -> dep y x = false;
    iv_dsuf : forall x y, In x d -> In y suf -> dep y x = false;
    iv_noload : forall z, In z d -> temps z <> [];
    iv_rt : forall v, assq v rt <> None <-> In v (map fst E)
  }.
  Lemma inv_in suf E rt d : Inv suf E rt d -> forall a, In a (E ++ d ++ suf) -> In a L.
  Proof. intros I a. apply Permutation_in, I. Qed.
  Lemma inv_nodup suf E rt d : Inv suf E rt d -> NoDup (map fst (E ++ d ++ suf)).
  Proof. intros I. eapply Permutation_NoDup; [apply Permutation_map, Permutation_sym, I|apply SA]. Qed.
  (** issuing a ready instruction [a] that no later one of [suf] must precede *)
  Lemma inv_issue suf E rt d a t suf' d' : Inv suf E rt d -> readyp t rt a = true ->
    Permutation (a :: d' ++ suf') (d ++ suf) -> (forall y, In y suf' -> dep y a = false) -> ordered suf' -> (forall x y, In x d' -> In y suf' -> dep y x = false) ->
    (forall z, In z d' -> In z d) ->
    Inv suf' (E ++ [a]) (update_readytimes lat t a rt) d'.
  Proof.
    intros I R P Da Os Ds Id. assert (Pl : Permutation ((E ++ [a]) ++ d' ++ suf') L). { rewrite <- app_assoc. cbn [app]. rewrite P. apply I. }
    assert (La : In a L) by (apply (Permutation_in _ Pl), in_app_iff; left; apply in_app_iff; right; now left).
    assert (Ia : In a (d ++ suf)) by (apply (Permutation_in _ P); now left).
    assert (X : forall y, In y (d' ++ suf') -> dep y a = false).
    { intros y Hy. destruct (dep y a) eqn:D; [|reflexivity]. exfalso. assert (Ly : In y L) by (apply (Permutation_in _ Pl), in_app_iff; auto).
      assert (D' := D). apply dep_true in D. destruct D as [D|(w & Hw & Sl)].
      - assert (T := sa_flow _ SA y a Ly La D). unfold readyp in R. rewrite forallb_forall in R. assert (Rv := R (fst y)). rewrite filter_In in Rv. specialize (Rv (Logic.conj D T)).
        destruct (assq (fst y) rt) eqn:Eq; [|discriminate]. assert (N : assq (fst y) rt <> None) by congruence. apply (iv_rt _ _ _ _ I) in N. apply in_map_iff in N. destruct N as (e & Ee & He).
        assert (e = y) by (eapply fst_inj; [apply SA|apply (inv_in _ _ _ _ I), in_app_iff; auto|auto|auto]). subst e.
        assert (Nd : NoDup (map fst (E ++ (d' ++ suf')))).
        { assert (ND : NoDup (map fst ((E ++ [a]) ++ d' ++ suf'))) by (eapply Permutation_NoDup; [apply Permutation_map, Permutation_sym, Pl|apply SA]).
          rewrite <- app_assoc in ND. cbn [app] in ND. rewrite map_app in ND. cbn [map] in ND. apply NoDup_remove_1 in ND. now rewrite map_app. }
        rewrite map_app in Nd. exact (nodup_app_in _ _ _ Nd (in_map fst _ _ He) (in_map fst _ _ Hy)).
      - apply same_location_loc in Sl. destruct Sl as [_ Lw]. destruct (sa_loads _ SA y w Ly Hw Lw) as [Ey _].
        apply in_app_iff in Hy. destruct Hy as [Hy|Hy]; [|rewrite (Da y Hy) in D'; discriminate]. apply (iv_noload _ _ _ _ I y (Id y Hy)). unfold temps. rewrite Ey. cbn. destruct w; try discriminate. reflexivity. }
    constructor.
    - exact Pl.
    - apply FOP_app; [apply I|constructor; constructor|]. intros x y Hx [<-|[]]. now apply (iv_dep _ _ _ _ I).
    - exact Os.
    - intros x y Hx Hy. apply in_app_iff in Hx. destruct Hx as [Hx|[<-|[]]]; [|now apply X]. apply (iv_dep _ _ _ _ I); auto. apply (Permutation_in _ P). now right.
    - exact Ds.
    - intros z Hz. apply (iv_noload _ _ _ _ I). auto.
    - intros v. unfold update_readytimes. cbn [assq]. rewrite map_app, in_app_iff, <- (iv_rt _ _ _ _ I). cbn [map In]. destruct (same v (fst a)) eqn:Sv; [apply same_iff in Sv; subst; split; [auto|discriminate]|].
      split; [auto|]. intros [K|[K|[]]]; auto. subst. assert (same (fst a) (fst a) = true) by now apply same_iff. congruence.
  Qed.
  Lemma issue_ok : forall n t rt d l t' rt' d', issue lat n (t, rt, d) = (l, (t', rt', d')) -> forall suf E, Inv suf E rt d ->
    Inv suf (E ++ l) rt' d'.
  Proof.
    induction n as [|n IH]; intros t rt d l t' rt' d' Eq suf E I; cbn [issue] in Eq; destruct (List.partition (readyp t rt) d) as [r nr] eqn:Ep; destruct r as [|a b];
      try (injection Eq as <- <- <- <-; rewrite app_nil_r; exact I).
    destruct (issue lat n (_, _, b ++ nr)) as [l0 [[t0 rt0] d0]] eqn:Ei. injection Eq as <- <- <- <-.
    destruct (part_perm _ _ _ _ Ep) as (P & Fr & _). inversion Fr as [|? ? Ra _]; subst.
    assert (Sub : forall z, In z (b ++ nr) -> In z d) by (intros z Hz; apply (Permutation_in _ P); now right).
    change (a :: l0) with ([a] ++ l0). rewrite app_assoc. eapply IH; [exact Ei|]. eapply inv_issue; eauto.
    - cbn. change (a :: (b ++ nr) ++ suf) with (((a :: b) ++ nr) ++ suf). now rewrite P.
    - intros y Hy. apply (iv_dsuf _ _ _ _ I); auto. apply (Permutation_in _ P). now left.
    - apply I.
    - intros x y Hx Hy. apply (iv_dsuf _ _ _ _ I); auto.
  Qed.
  Lemma ilist_issued l s : sched_to_ilist (issued l s) = l ++ sched_to_ilist s /\ (seqonly s -> seqonly (issued l s)).
  Proof.
    induction l as [|a l [IH1 IH2]]; [auto|]. change (issued (a :: l) s) with (Seq (Instr a) (issued l s)). cbn [sched_to_ilist seqonly app]. rewrite IH1. auto.
  Qed.
  Lemma pipe_ok s : seqonly s -> forall t rt d s' t' rt' d', pipe_recur lat s (t, rt, d) = (s', (t', rt', d')) -> forall suf E, Inv (sched_to_ilist s ++ suf) E rt d ->
    seqonly s' /\ Inv suf (E ++ sched_to_ilist s') rt' d'.
  Proof.
    induction s as [|a|a IHa b IHb|]; intros W t rt d s' t' rt' d' Eq suf E I; [| | |destruct W]; cbn [pipe_recur snd] in Eq;
      destruct (issue lat (length d) (t, rt, d)) as [l [[t1 rt1] d1]] eqn:Ei; assert (I1 := issue_ok _ _ _ _ _ _ _ _ Ei _ _ I).
    - injection Eq as <- <- <- <-. destruct (ilist_issued l Done) as [-> Q]. cbn [sched_to_ilist] in *. rewrite app_nil_r. cbn in Q. auto.
    - cbn [sched_to_ilist app] in *. assert (Os := iv_suf _ _ _ _ I1). inversion Os as [|? ? Fa Os']; subst. rewrite Forall_forall in Fa. destruct (readyp t1 rt1 a) eqn:R; injection Eq as <- <- <- <-.
      + destruct (ilist_issued l (Instr a)) as [-> Q]. cbn [sched_to_ilist seqonly] in *. split; [auto|]. rewrite app_assoc. eapply inv_issue; eauto.
        * apply Permutation_middle.
        * intros x y Hx Hy. apply (iv_dsuf _ _ _ _ I1); auto. now right.
      + destruct (ilist_issued l Done) as [-> Q]. cbn [sched_to_ilist seqonly] in *. split; [auto|]. rewrite app_nil_r. constructor.
        * rewrite <- (iv_perm _ _ _ _ I1). apply Permutation_app_head. cbn. apply Permutation_middle.
        * apply I1.
        * exact Os'.
        * intros x y Hx Hy. apply (iv_dep _ _ _ _ I1); auto. apply (Permutation_in _ (Permutation_middle d1 suf a)). exact Hy.
        * intros x y [<-|Hx] Hy; [now apply Fa|]. apply (iv_dsuf _ _ _ _ I1); auto. now right.
        * intros z [<-|Hz]; [|now apply (iv_noload _ _ _ _ I1)]. intros K. unfold readyp in R. unfold temps in K. rewrite K in R. discriminate.
        * apply I1.
    - destruct W as [Wa Wb]. destruct (pipe_recur lat a _) as [a' [[ta rta] da]] eqn:Ea. destruct (pipe_recur lat b _) as [b' [[tb rtb] db]] eqn:Eb. injection Eq as <- <- <- <-.
      cbn [sched_to_ilist] in I1. rewrite <- app_assoc in I1. destruct (IHa Wa _ _ _ _ _ _ _ Ea _ _ I1) as [Sa Ia]. destruct (IHb Wb _ _ _ _ _ _ _ Eb _ _ Ia) as [Sb Ib].
      destruct (ilist_issued l (Seq a' b')) as [-> Q]. split; [apply Q; cbn; auto|]. cbn [sched_to_ilist]. now rewrite !app_assoc in *.
  Qed.
  Lemma until_done_ok : forall f s t rt d r, recur_until_done lat f s (t, rt, d) = Some r -> seqonly s -> forall E, Inv (sched_to_ilist s) E rt d ->
    seqonly r /\ Permutation (E ++ sched_to_ilist r) L /\ ordered (E ++ sched_to_ilist r).
  Proof.
    induction f as [|f IH]; intros s t rt d r; [discriminate|]. cbn [recur_until_done]. destruct (pipe_recur lat s (t, rt, d)) as [s' [[t' rt'] d']] eqn:Ep. intros Eq W E I.
    rewrite <- (app_nil_r (sched_to_ilist s)) in I. destruct (pipe_ok s W _ _ _ _ _ _ _ Ep _ _ I) as [S' I']. destruct d' as [|z d'].
    - injection Eq as <-. split; auto. split; [|apply I']. assert (P := iv_perm _ _ _ _ I'). cbn in P. now rewrite app_nil_r in P.
    - destruct (recur_until_done lat f Done _) as [q|] eqn:Eq2; [|discriminate]. injection Eq as <-. destruct (IH _ _ _ _ _ Eq2 Logic.I (E ++ sched_to_ilist s')) as (Sq & P & O); [exact I'|].
      cbn [seqonly sched_to_ilist]. rewrite app_assoc. auto.
  Qed.
  Lemma inv_init s : Permutation (sched_to_ilist s) L -> ordered (sched_to_ilist s) -> Inv (sched_to_ilist s) [] [] [].
  Proof. intros P O. constructor; auto; try (intros; cbn in *; tauto). constructor. Qed.

  (** ** The loop ends *)
  Hypothesis Defd : forall a v, In a L -> In v (find_vars (snd a)) -> is_temporary v = true -> In v (map fst L).
  Variable OL : list assignment.
  Hypothesis OLp : Permutation OL L.
  Hypothesis OLo : ordered OL.
  Definition bounded (t : Z) (rt : times) (K : nat) : Prop := forall v t', assq v rt = Some t' -> (t' <= t + Z.of_nat K)%Z.
  Lemma first_in (d l : list assignment) : (exists x, In x d /\ In x l) -> (forall x y, In x d -> In y l -> {x = y} + {x <> y}) -> exists l1 z l2, l = l1 ++ z :: l2 /\ In z d /\ forall x, In x l1 -> ~ In x d.
  Proof.
    intros Ex Dec. assert (Dm : forall y, In y l -> In y d \/ ~ In y d).
    { intros y Hy. clear Ex. induction d as [|x d IH]; [right; intros []|]. destruct (Dec x y (or_introl eq_refl) Hy) as [->|N]; [left; now left|]. destruct IH as [K|K]; [intros; apply Dec; auto; now right|left; now right|right]. intros [K'|K']; auto. }
    clear Dec. induction l as [|y l IH]; [destruct Ex as (x & _ & [])|]. destruct (Dm y (or_introl eq_refl)) as [Hy|Hy].
    - exists [], y, l. split; auto. 
    - destruct IH as (l1 & z & l2 & -> & Hz & F); [destruct Ex as (x & Hx & [<-|K]); [tauto|eauto]|intros; apply Dm; now right|]. exists (y :: l1), z, l2. split; auto. split; auto. intros x [<-|Hx]; auto.
  Qed.
  Lemma some_ready t rt d E : Inv [] E rt d -> d <> [] -> bounded t rt 0 -> exists z, In z d /\ readyp t rt z = true.
  Proof.
    intros I Nd B. assert (Pd : Permutation (E ++ d) L) by (assert (P := iv_perm _ _ _ _ I); now rewrite app_nil_r in P).
    assert (Ld : forall z, In z d -> In z L) by (intros z Hz; apply (Permutation_in _ Pd), in_app_iff; auto).
    assert (Lo : forall z, In z OL -> In z L) by (intros z; apply Permutation_in, OLp).
    destruct (first_in d OL) as (l1 & z & l2 & Eo & Hz & F).
    - destruct d as [|x d]; [congruence|]. exists x. split; [now left|]. apply (Permutation_in _ (Permutation_sym OLp)), Ld. now left.
    - intros x y Hx Hy. destruct (var_eq_dec (fst x) (fst y)) as [Eq|N]; [left; eapply fst_inj; [apply SA| | |]; auto|right; congruence].
    - exists z. split; auto. unfold readyp. apply forallb_forall. intros v Hv. apply filter_In in Hv. destruct Hv as [Hv Tv].
      assert (Iv := Defd z v (Ld z Hz) Hv Tv). apply in_map_iff in Iv. destruct Iv as (y & <- & Ly).
      assert (D : dep y z = true) by (apply dep_true; now left).
      assert (Iy : In y E).
      { apply (Permutation_in _ (Permutation_sym Pd)) in Ly as Ly'. apply in_app_iff in Ly'. destruct Ly' as [K|K]; auto. exfalso.
        apply (Permutation_in _ (Permutation_sym OLp)) in Ly as Lo'. rewrite Eo in Lo'. apply in_app_iff in Lo'. destruct Lo' as [Q|[Q|Q]]; [now apply (F y)| |].
        - subst y. rewrite (sa_irr _ SA z (Ld z Hz)) in D. discriminate.
        - rewrite Eo in OLo. apply FOP_app_inv in OLo. destruct OLo as (_ & O2 & _). inversion O2 as [|? ? Fz _]; subst. rewrite Forall_forall in Fz. rewrite (Fz y Q) in D. discriminate. }
      apply (in_map fst) in Iy. apply (iv_rt _ _ _ _ I) in Iy. destruct (assq (fst y) rt) as [t'|] eqn:Eq; [|congruence]. apply B in Eq. apply Z.leb_le. lia.
  Qed.
  Lemma bounded_up t rt K a : (lat <= Z.of_nat K)%Z -> bounded t rt K -> bounded (t + 1) (update_readytimes lat t a rt) K.
  Proof. intros HK B v t'. unfold update_readytimes. cbn [assq]. destruct (same v (fst a)); [intros [= <-]; lia|]. intros Eq. apply B in Eq. lia. Qed.
  Lemma issue_bounded K : (lat <= Z.of_nat K)%Z -> forall n t rt d l t' rt' d', issue lat n (t, rt, d) = (l, (t', rt', d')) -> bounded t rt K -> bounded t' rt' K /\ length d = length l + length d' /\ (l = [] -> t' = t /\ rt' = rt /\ d' = d).
  Proof.
    intros HK. induction n as [|n IH]; intros t rt d l t' rt' d' Eq B; cbn [issue] in Eq; destruct (List.partition (readyp t rt) d) as [r nr] eqn:Ep; destruct r as [|a b];
      try (injection Eq as <- <- <- <-; auto; fail).
    destruct (issue lat n (_, _, b ++ nr)) as [l0 [[t0 rt0] d0]] eqn:Ei. injection Eq as <- <- <- <-.
    destruct (part_perm _ _ _ _ Ep) as (P & _ & _). apply Permutation_length in P. destruct (IH _ _ _ _ _ _ _ Ei (bounded_up _ _ _ _ HK B)) as (B' & Ln & _).
    split; auto. split; [cbn in *; rewrite app_length in *; lia|discriminate].
  Qed.
  Lemma issue_none n t rt d l t' rt' d' z : issue lat n (t, rt, d) = (l, (t', rt', d')) -> 0 < n -> In z d -> readyp t rt z = true -> l <> [].
  Proof.
    destruct n as [|n]; [lia|]. cbn [issue]. destruct (List.partition (readyp t rt) d) as [r nr] eqn:Ep. destruct (part_perm _ _ _ _ Ep) as (P & _ & F). destruct r as [|a b].
    - intros _ _ Hz R. exfalso. rewrite Forall_forall in F. apply (Permutation_in _ (Permutation_sym P)) in Hz. rewrite (F z Hz) in R. discriminate.
    - destruct (issue lat n _) as [l0 st]. intros [= <- _] _ _ _. discriminate.
  Qed.
  Lemma until_total : forall m K t rt d E, length d <= m -> Inv [] E rt d -> bounded t rt K -> exists f r, recur_until_done lat f Done (t, rt, d) = Some r.
  Proof.
    induction m as [|m IHm]; intros K; induction K as [|K IHK]; intros t rt d E Ld I B.
    1, 2: (destruct d; [|cbn in Ld; lia]; exists 1, Done; reflexivity).
    - destruct (issue lat (length d) (t, rt, d)) as [l [[t' rt'] d']] eqn:Ei.
      assert (I' := issue_ok _ _ _ _ _ _ _ _ Ei _ _ I).
      assert (B' : bounded t rt (Z.to_nat (Z.max lat 0))) by (intros v x Eq; apply B in Eq; lia).
      destruct (issue_bounded (Z.to_nat (Z.max lat 0)) ltac:(lia) _ _ _ _ _ _ _ _ Ei B') as (B2 & Ln & _).
      destruct d as [|z0 d0]; [exists 1, Done; reflexivity|].
      destruct (some_ready t rt (z0 :: d0) E I ltac:(discriminate) B) as (z & Hz & R). assert (Nl := issue_none _ _ _ _ _ _ _ _ z Ei ltac:(cbn; lia) Hz R).
      assert (Ln' : length d' <= m) by (destruct l; [congruence|cbn in *; lia]).
      assert (B3 : bounded (t' + 1) rt' (Z.to_nat (Z.max lat 0))) by (intros v x Eq; apply B2 in Eq; lia).
      destruct (IHm _ _ _ _ _ Ln' I' B3) as (f & r & Er). exists (S f). cbn [recur_until_done pipe_recur snd]. rewrite Ei. destruct d'; [eauto|]. rewrite Er. eauto.
    - destruct (issue lat (length d) (t, rt, d)) as [l [[t' rt'] d']] eqn:Ei.
      assert (I' := issue_ok _ _ _ _ _ _ _ _ Ei _ _ I).
      assert (B' : bounded t rt (Z.to_nat (Z.max lat 0) + S K)) by (intros v x Eq; apply B in Eq; lia).
      destruct (issue_bounded (Z.to_nat (Z.max lat 0) + S K) ltac:(lia) _ _ _ _ _ _ _ _ Ei B') as (B2 & Ln & Nil).
      destruct l as [|a l].
      + destruct (Nil eq_refl) as (-> & -> & ->). destruct (IHK (t + 1)%Z rt d E) as (f & r & Er); auto; [intros v x Eq; apply B in Eq; lia|].
        exists (S f). cbn [recur_until_done pipe_recur snd]. rewrite Ei. destruct d; [eauto|]. rewrite Er. eauto.
      + assert (B3 : bounded (t' + 1) rt' (Z.to_nat (Z.max lat 0) + S K)) by (intros v x Eq; apply B2 in Eq; lia).
        destruct (IHm (Z.to_nat (Z.max lat 0) + S K) (t' + 1)%Z rt' d' (E ++ a :: l)) as (f & r & Er); auto; [cbn in Ln; lia|]. exists (S f). cbn [recur_until_done pipe_recur snd]. rewrite Ei. destruct d'; [eauto|]. rewrite Er. eauto.
  Qed.
  Lemma bounded_nil t K : bounded t [] K.
  Proof. intros v t' Eq. discriminate. Qed.
  Lemma pipe_bounded K : (lat <= Z.of_nat K)%Z -> forall s t rt d s' t' rt' d', pipe_recur lat s (t, rt, d) = (s', (t', rt', d')) -> bounded t rt K -> bounded t' rt' K.
  Proof.
    intros HK. induction s as [|a|a IHa b IHb|l]; intros t rt d s' t' rt' d' Eq B; cbn [pipe_recur snd] in Eq; destruct (issue lat (length d) (t, rt, d)) as [l0 [[t1 rt1] d1]] eqn:Ei;
      destruct (issue_bounded K HK _ _ _ _ _ _ _ _ Ei B) as (B1 & _ & _).
    - injection Eq as <- <- <- <-. auto.
    - destruct (readyp t1 rt1 a); injection Eq as <- <- <- <-; auto. now apply bounded_up.
    - destruct (pipe_recur lat a _) as [a' [[ta rta] da]] eqn:Ea. destruct (pipe_recur lat b _) as [b' [[tb rtb] db]] eqn:Eb. injection Eq as <- <- <- <-. eauto.
    - injection Eq as <- <- <- <-. auto.
  Qed.
  Lemma pipeline_total s : seqonly s -> Permutation (sched_to_ilist s) L -> ordered (sched_to_ilist s) -> exists f r, schedule_for_pipeline lat f s = Some r.
  Proof.
    intros W P O. unfold schedule_for_pipeline. destruct (pipe_recur lat s (0%Z, [], [])) as [s' [[t' rt'] d']] eqn:Ep.
    assert (I := inv_init s P O). rewrite <- (app_nil_r (sched_to_ilist s)) in I. destruct (pipe_ok s W _ _ _ _ _ _ _ Ep _ _ I) as [S' I'].
    assert (B := pipe_bounded (Z.to_nat (Z.max lat 0)) ltac:(lia) _ _ _ _ _ _ _ _ Ep (bounded_nil _ _)).
    assert (B' : bounded (t' + 1) rt' (Z.to_nat (Z.max lat 0))) by (intros v x Eq; apply B in Eq; lia).
    destruct (until_total (length d') _ _ _ _ _ (le_n _) I' B') as (f & r & Er). exists (S f). cbn [recur_until_done]. rewrite Ep. destruct d'; [eauto|]. rewrite Er. eauto.
  Qed.
End Pipe.
Lemma pipeline_ok lat s r f : sane (sched_to_ilist s) -> seqonly s -> ordered (sched_to_ilist s) -> schedule_for_pipeline lat f s = Some r ->
  seqonly r /\ Permutation (sched_to_ilist r) (sched_to_ilist s) /\ ordered (sched_to_ilist r).
Proof.
  intros Sa W O E. destruct (until_done_ok lat (sched_to_ilist s) Sa f s 0%Z [] [] r E W []) as (Sr & P & Or); [apply inv_init; auto|]. cbn in P, Or. auto.
Qed.
