(** * Planner: every plan returned was built by registered solvers *)
From Coq Require Import ZArith List Lia Bool.
From Verif Require Import Base SpecWisdom HashModel FlagsModel PlannerModel SpecPlanner PlannerScope PlannerTrace.
Import ListNotations.
Open Scope Z_scope.

Lemma LEQ_sub x y : LEQ x y = true <-> subset x y.
Proof.
  unfold LEQ, subset. rewrite Z.eqb_eq. split.
  - intros E i H. rewrite <- E in H. rewrite Z.land_spec in H. now apply andb_true_iff in H as [_ H].
  - intros H. apply Z.bits_inj'. intros i _. rewrite Z.land_spec. specialize (H i). destruct (Z.testbit x i); [|reflexivity]. now rewrite H.
Qed.
Lemma subset_refl x : subset x x. Proof. intros i H; exact H. Qed.
Lemma subset_trans x y z : subset x y -> subset y z -> subset x z. Proof. intros A B i H. auto. Qed.

(** ** a lookup answers only with something usable, whatever is in the table *)
Lemma lookup_loop_sound fuel ht k f h d : forall g best r,
  (forall gb b, best = Some (gb, b) -> md5eq k (skey b) = true /\ subsumes (sflags b) (sndx b) f = true) ->
  lookup_loop fuel ht k f h d g best = Ret (Some r) -> md5eq k (skey (snd r)) = true /\ subsumes (sflags (snd r)) (sndx (snd r)) f = true.
Proof.
  induction fuel as [|fuel IH]; intros g best r Hb H; cbn [lookup_loop] in H; [discriminate|].
  ib H l El. destruct (svalid l); [|injection H as ->; destruct r as [g' b]; eapply Hb; eauto]. cbv zeta in H.
  set (best' := if slive l && md5eq k (skey l) && subsumes (sflags l) (sndx l) f then _ else best) in *.
  assert (Hb' : forall gb b, best' = Some (gb, b) -> md5eq k (skey b) = true /\ subsumes (sflags b) (sndx b) f = true).
  { unfold best'. destruct (slive l && md5eq k (skey l) && subsumes (sflags l) (sndx l) f) eqn:E; [|exact Hb].
    apply andb_true_iff in E as [E E3]. apply andb_true_iff in E as [E1 E2]. intros gb b. destruct best as [[g0 b0]|].
    - destruct (LEQ _ _); intros Q; [injection Q as <- <-; auto|eapply Hb; eauto].
    - intros Q. injection Q as <- <-. auto. }
  clearbody best'. destruct (addmod g d (hashsiz ht) =? h).
  - injection H as ->. destruct r as [g' b]. eapply Hb'; eauto.
  - eapply IH; eauto.
Qed.
Lemma hlookup_sound s k f sol : hlookup s k f = Ret (Some sol) -> md5eq k (skey sol) = true /\ subsumes (sflags sol) (sndx sol) f = true.
Proof.
  assert (L : forall ht g l, htab_lookup ht k f = Ret (Some (g, l)) -> md5eq k (skey l) = true /\ subsumes (sflags l) (sndx l) f = true).
  { intros ht g l H. unfold htab_lookup in H. eapply (lookup_loop_sound _ _ _ _ _ _ _ _ (g, l)) in H; auto. discriminate. }
  unfold hlookup. intros H. ib H r Er. destruct r as [[g l]|].
  - inj H. eapply L; eauto.
  - ib H r Er'. destruct r as [[g l]|]; [|discriminate]. inj H. eapply L; eauto.
Qed.

(** ** registration *)
Section Reg.
Context {P B : Type}.
Definition indexed (l : list (slvdesc P B)) : list (Z * slvdesc P B) := combine (map Z.of_nat (seq 0 (length l))) l.
Definition of_kind (kind : nat) (l : list (slvdesc P B)) : list (Z * slvdesc P B) :=
  rev (filter (fun x => Nat.eqb (sd_kind (snd x)) kind) (indexed l)).
(** the traversal visits exactly the solvers of the kind, last registered first *)
Definition reg_ok (rg : registry P B) : Prop := forall kind, solvers_of_kind rg kind = Ret (of_kind kind (rg_descs rg)).
Lemma indexed_snoc l d : indexed (l ++ [d]) = indexed l ++ [(Z.of_nat (length l), d)].
Proof.
  unfold indexed. rewrite app_length. cbn [length]. rewrite Nat.add_1_r, seq_S, map_app. cbn [map Nat.add].
  assert (G : forall (a : list Z) (b : list (slvdesc P B)) x y, length a = length b -> combine (a ++ [x]) (b ++ [y]) = combine a b ++ [(x, y)]).
  { induction a as [|z a IH]; intros [|w b] x y E; cbn in *; try discriminate; auto. f_equal. apply IH. lia. }
  apply G. now rewrite map_length, seq_length.
Qed.
Lemma walk_ext (rg rg' : registry P B) d : rg_descs rg' = rg_descs rg ++ [d] -> forall fuel c l, walk fuel rg c = Ret l -> walk (S fuel) rg' c = Ret l.
Proof.
  intros E. induction fuel as [|fuel IH]; intros c l H; cbn [walk] in H.
  - cbn [walk]. destruct (0 <=? c); [discriminate|exact H].
  - cbn [walk]. destruct (0 <=? c) eqn:Ec; [|exact H]. ib H d' Ed. ib H l' El. inj H.
    assert (Ed' : desc_at rg' c = Ret d').
    { unfold desc_at in *. rewrite Ec in *. destruct (nth_error (rg_descs rg) (Z.to_nat c)) eqn:N; [|discriminate]. rewrite E, nth_error_app1.
      - now rewrite N.
      - apply nth_error_Some. congruence. }
    rewrite Ed'. cbn [bind]. change ((if 0 <=? sd_next d' then d0 <- desc_at rg' (sd_next d');; l0 <- walk fuel rg' (sd_next d0);; Ret ((sd_next d', d0) :: l0) else Ret [])) with (walk (S fuel) rg' (sd_next d')).
    rewrite (IH _ _ El). reflexivity.
Qed.
Lemma reg_ok_none : reg_ok no_solvers.
Proof. intros kind. reflexivity. Qed.
Lemma reg_ok_register rg kind mk : reg_ok rg -> reg_ok (register_solver rg kind mk).
Proof.
  intros R k. unfold solvers_of_kind. set (rg' := register_solver rg kind mk).
  assert (Ed : exists d, rg_descs rg' = rg_descs rg ++ [d] /\ sd_kind d = kind /\ sd_next d = rg_heads rg kind) by (eexists; split; [reflexivity|auto]).
  destruct Ed as (d & Ed & Ek & En). rewrite Ed, app_length. cbn [length]. rewrite Nat.add_1_r.
  unfold of_kind. rewrite indexed_snoc, filter_app, rev_app_distr. cbn [filter snd]. rewrite Ek.
  assert (Eh : rg_heads rg' k = if Nat.eqb k kind then Z.of_nat (length (rg_descs rg)) else rg_heads rg k) by reflexivity.
  rewrite Eh. clearbody rg'. clear Eh. rewrite (Nat.eqb_sym k kind).
  destruct (Nat.eqb_spec kind k) as [<-|N].
  - cbn [rev app walk]. replace (0 <=? Z.of_nat (length (rg_descs rg))) with true by (symmetry; apply Z.leb_le; lia).
    assert (D : desc_at rg' (Z.of_nat (length (rg_descs rg))) = Ret d).
    { unfold desc_at. replace (0 <=? Z.of_nat (length (rg_descs rg))) with true by (symmetry; apply Z.leb_le; lia).
      rewrite Nat2Z.id, Ed, nth_error_app2, Nat.sub_diag by lia. reflexivity. }
    rewrite D. cbn [bind]. rewrite En. specialize (R kind). unfold solvers_of_kind in R.
    assert (W : walk (length (rg_descs rg)) rg' (rg_heads rg kind) = Ret (of_kind kind (rg_descs rg))).
    { destruct (rg_descs rg) eqn:Q.
      - cbn [length walk] in R |- *. destruct (0 <=? rg_heads rg kind); [discriminate|exact R].
      - apply (walk_ext rg rg' d) in R; [|rewrite Ed, Q; reflexivity].
        (* the chain has no more links than there are solvers *)
        assert (T : forall fuel (r : registry P B) c l, walk (S fuel) r c = Ret l -> (length l <= fuel)%nat -> walk fuel r c = Ret l).
        { clear. induction fuel as [|fuel IH]; intros r c l H L.
          - cbn [walk] in *. destruct (0 <=? c); [|exact H]. ib H d' E'. destruct (0 <=? sd_next d'); [discriminate|]. cbn [bind] in H. inj H. cbn in L. lia.
          - cbn [walk] in H |- *. destruct (0 <=? c); [|exact H]. ib H d' E'. ib H l' El. inj H. rewrite E'. cbn [bind].
            change ((if 0 <=? sd_next d' then d0 <- desc_at r (sd_next d');; l0 <- walk fuel r (sd_next d0);; Ret ((sd_next d', d0) :: l0) else Ret [])) with (walk (S fuel) r (sd_next d')) in El.
            rewrite (IH _ _ _ El); [reflexivity|]. cbn in L. lia. }
        apply T; [exact R|]. unfold of_kind. rewrite rev_length.
        assert (FL : forall (A : Type) (f : A -> bool) l, (length (filter f l) <= length l)%nat).
        { intros A f l0. induction l0; cbn; auto. destruct (f a); cbn; lia. }
        eapply Nat.le_trans; [apply FL|]. unfold indexed. rewrite combine_length, map_length, seq_length. lia. }
    rewrite W. reflexivity.
  - cbn [rev app]. apply (walk_ext rg rg' d Ed). apply R.
Qed.
Lemma reg_ok_same (rg rg' : registry P B) : rg_descs rg' = rg_descs rg -> rg_heads rg' = rg_heads rg -> reg_ok rg -> reg_ok rg'.
Proof.
  intros E1 E2 R k. specialize (R k). unfold solvers_of_kind in *. rewrite E1, E2. rewrite <- R.
  assert (forall fuel c, walk fuel rg' c = walk fuel rg c) as W.
  { induction fuel as [|fuel IH]; intros c; cbn [walk]; auto. unfold desc_at. rewrite E1. destruct (0 <=? c); auto.
    destruct (nth_error _ _); cbn [bind]; auto. now rewrite IH. }
  apply W.
Qed.
Lemma reg_ok_solvtab tbl : forall rg, reg_ok rg -> reg_ok (solvtab_exec tbl rg).
Proof.
  unfold solvtab_exec. induction tbl as [|[nam l] tbl IH]; intros rg R; cbn [fold_left]; auto. apply IH. cbn [fst snd].
  assert (G : forall l rg, reg_ok rg -> reg_ok (fold_left (fun rg0 s => register_solver rg0 (fst s) (snd s)) l rg)).
  { clear. induction l as [|x l IH]; intros rg R; cbn [fold_left]; auto. apply IH. now apply reg_ok_register. }
  apply G. eapply reg_ok_same; [| |exact R]; reflexivity.
Qed.
Lemma of_kind_in kind (l : list (slvdesc P B)) n d : In (n, d) (of_kind kind l) <-> 0 <= n /\ nth_error l (Z.to_nat n) = Some d /\ sd_kind d = kind.
Proof.
  unfold of_kind. rewrite <- in_rev, filter_In. cbn [snd]. rewrite Nat.eqb_eq.
  assert (G : In (n, d) (indexed l) <-> 0 <= n /\ nth_error l (Z.to_nat n) = Some d); [|rewrite G; tauto].
  induction l as [|x l IH] using rev_ind.
  - unfold indexed. cbn. split; [tauto|]. intros [_ H]. now destruct (Z.to_nat n).
  - rewrite indexed_snoc, in_app_iff, IH. cbn [In]. split.
    + intros [[H1 H2]|[Q|[]]].
      * split; auto. rewrite nth_error_app1; auto. apply nth_error_Some. congruence.
      * injection Q as <- <-. split; [lia|]. rewrite Nat2Z.id, nth_error_app2, Nat.sub_diag by lia. reflexivity.
    + intros [H1 H2]. destruct (lt_eq_lt_dec (Z.to_nat n) (length l)) as [[L|L]|L].
      * left. split; auto. rewrite nth_error_app1 in H2 by auto. auto.
      * right. left. rewrite nth_error_app2 in H2 by lia. replace (Z.to_nat n - length l)%nat with 0%nat in H2 by lia. cbn in H2. injection H2 as ->. f_equal. lia.
      * exfalso. assert (nth_error (l ++ [x]) (Z.to_nat n) <> None) as N by congruence. apply nth_error_Some in N. rewrite app_length in N. cbn in N. lia.
Qed.
End Reg.

Section S.
Context {P B : Type}.
Variable e : env P B.
Notation plan := (plan B).
Hypothesis HReg : reg_ok (e_reg e).

Definition binv (s : st) : Prop := subset (fl (s_flags s)) (fu (s_flags s)) \/ only s.
Lemma Yields_pcost nthr f g x : Yields e nthr f g x -> forall c, Yields e nthr f g (with_pcost x c).
Proof. induction 1; intros c0; try (econstructor; eauto; fail). Qed.
Lemma Built_pcost nthr l u p x c : Built e nthr l u p x -> Built e nthr l u p (with_pcost x c).
Proof. intros H. inversion H; subst. eapply built; eauto. eapply Yields_pcost; eauto. Qed.
Lemma eval_pcost x s x' s' : evaluate_plan e x s = (x', s') -> exists c, x' = with_pcost x c.
Proof.
  unfold evaluate_plan. destruct (_ || _ || _); [destruct (ESTIMATEP s)|]; cbv zeta.
  - intros H. inj H. eauto.
  - destruct (_ <? 0); intros H; inj H; eauto.
  - intros H. inj H. exists (pcost x'). now destruct x'.
Qed.
Lemma Built_weaken nthr l u l' u' p x : subset l' l -> subset u u' -> Built e nthr l u p x -> Built e nthr l' u' p x.
Proof. intros Hl Hu H. inversion H; subst. eapply built with (l' := l'0) (u' := u'0); eauto; eapply subset_trans; eauto. Qed.

Section R.
Variable rec : P -> st -> out (option plan * st).
Hypothesis HS : forall p s r s', rec p s = Ret (r, s') -> Scoped s s' r.
Hypothesis HB : forall p s x s', binv s -> rec p s = Ret (Some x, s') -> Built e (s_nthr s) (fl (s_flags s)) (fu (s_flags s)) p x.

Lemma run_yields g : forall s x s', binv s -> run rec g s = Ret (Some x, s') -> Yields e (s_nthr s) (s_flags s) g x.
Proof.
  induction g as [o|p a b c k IH|y k IH|n k IH|k IH]; intros s x s' O H; cbn [run] in H.
  - destruct o as [[[[[ks b] c] es] pr]|]; [|discriminate]. inj H. constructor.
  - ib H y Ey. destruct y as [y s1]. pose proof (sub_Sc rec HS _ _ _ _ _ _ _ Ey) as C. unfold mkplan_f_d in Ey. cbv zeta in Ey. ib Ey z Ez. destruct z as [z s2].
    pose proof (HS _ _ _ _ Ez) as (_ & _ & N & _). cbn in N. inj Ey. cbn [fst snd] in *.
    assert (O' : binv (set_depth (set_flags s2 (s_flags s)) (s_depth s))).
    { destruct O as [O|O]; [left; exact O|right; eapply only_Sc; eauto]. }
    apply IH in H; auto. cbn in H. rewrite N in H. destruct y as [y|]; [|now apply Y_failed].
    eapply Y_child; [|exact H]. apply HB in Ez; [exact Ez|].
    destruct O as [O|O]; [left|right; exact O]. cbn. intros i Hi. rewrite !Z.lor_spec, Z.ldiff_spec in *. specialize (O i).
    destruct (Z.testbit (fl (s_flags s)) i); cbn in *.
    + rewrite O by reflexivity. destruct (Z.testbit c i); cbn in *; auto. rewrite Hi. apply orb_true_r.
    + rewrite Hi. rewrite !orb_true_r. reflexivity.
  - ib H s1 E1. pose proof (destroy_Sc _ _ _ E1) as [C N]. apply IH in H.
    + constructor. destruct C as (C & _). unfold Sn in N. rewrite C, N in H. exact H.
    + destruct O as [O|O]; [left; destruct C as (C & _); rewrite C; exact O|right; eapply only_Sc; eauto].
  - apply IH in H; [|exact O]. constructor. exact H.
  - apply IH in H; [|exact O]. constructor. exact H.
Qed.
Lemma invoke_built p n d f s x s' l u : nth_error (rg_descs (e_reg e)) n = Some d -> sd_kind d = e_kind e p ->
  (subset (fl f) (fu f) \/ only s) -> subset l (fl f) -> subset (fu f) u ->
  invoke_solver e rec p d f s = Ret (Some x, s') -> Built e (s_nthr s) l u p x.
Proof.
  intros Hd Hk Hf Hl Hu H. unfold invoke_solver in H. cbv zeta in H. ib H u0 Eu. ib H y Ey. destruct y as [y s5]. inj H. cbn [fst] in *. subst.
  apply run_yields in Ey; [|destruct Hf; [left|right]; assumption]. eapply built with (l' := fl f) (u' := fu f); [exact Hd|exact Hk|exact Hl|exact Hu|exact Ey].
Qed.
Definition bopt (nthr l u : Z) (p : P) (b : option (plan * Z)) : Prop :=
  match b with None => True | Some (x, n) => Built e nthr l u p x end.
Lemma loop_built p f lst l u : (forall n d, In (n, d) lst -> nth_error (rg_descs (e_reg e)) (Z.to_nat n) = Some d /\ sd_kind d = e_kind e p) ->
  subset (fl f) (fu f) -> subset l (fl f) -> subset (fu f) u ->
  forall best nyt s r s', bopt (s_nthr s) l u p best -> search_loop e rec lst p f best nyt s = Ret (r, s') -> bopt (s_nthr s) l u p r.
Proof.
  intros Hl0 Hf Hl Hu. induction lst as [|[n d] lst IH]; intros best nyt s r s' O H; cbn [search_loop] in H.
  - inj H. exact O.
  - ib H x Ex. destruct x as [x s1]. pose proof (invoke_Sc e rec HS _ _ _ _ _ _ Ex) as [_ C1].
    assert (X : bopt (s_nthr s) l u p (option_map (fun x => (x, n)) x)).
    { destruct x as [x|]; [|exact Logic.I]. cbn. destruct (Hl0 n d (or_introl eq_refl)). eapply invoke_built; eauto. }
    clear Ex. cbv zeta in H. set (s2 := emit s1 _) in *. assert (C2 : Sn s s2) by exact C1. clearbody s2. clear C1.
    ib H t Et. destruct t as [late s3].
    assert (C3 : Sn s s3).
    { destruct (s_ntc s2); [|inj Et; auto]. apply timeout_Sc in Et as [_ Q]. unfold Sn in *. congruence. }
    clear Et. destruct late. { ib H s4 E4. ib H s5 E5. inj H. exact Logic.I. }
    assert (IH' : forall best nyt s r s', bopt (s_nthr s) l u p best -> search_loop e rec lst p f best nyt s = Ret (r, s') -> bopt (s_nthr s) l u p r).
    { apply IH. intros m d' Hm. apply Hl0. now right. }
    destruct x as [x|]. 2:{ apply IH' in H; unfold Sn in C3; rewrite C3 in *; auto. }
    ib H c Ec. destruct c as [[b' n'] s7].
    assert (E7 : Sn s s7 /\ bopt (s_nthr s) l u p (Some b')).
    { destruct best as [[b nb]|].
      2:{ inj Ec. split; [auto|exact X]. }
      destruct (if nyt then evaluate_plan e b s3 else (b, s3)) as [b1 s4] eqn:E4.
      assert (Q : Sn s s4 /\ bopt (s_nthr s) l u p (Some (b1, nb))).
      { destruct nyt; [|inj E4; auto]. pose proof (eval_pcost _ _ _ _ E4) as [c ->]. apply eval_Sc in E4 as [_ E4]. split; [unfold Sn in *; congruence|]. now apply Built_pcost. }
      destruct Q as [C4 O4]. destruct (evaluate_plan e x s4) as [x1 s5] eqn:E5. pose proof (eval_pcost _ _ _ _ E5) as [c ->]. apply eval_Sc in E5 as [_ E5].
      destruct (pcost (with_pcost x c) <? pcost b1); ib Ec s6 E6; inj Ec; apply destroy_Sc in E6 as [_ E6]; (split; [unfold Sn in *; congruence|auto]).
      now apply Built_pcost. }
    destruct E7 as [C7 O7]. destruct (ALLOW_PRUNINGP s7 && pprune x); [inj H; auto|]. apply IH' in H; unfold Sn in C7; rewrite C7 in *; auto.
Qed.
Lemma search0_built p f s r s' l u : subset (fl f) (fu f) -> subset l (fl f) -> subset (fu f) u ->
  search0 e rec p f s = Ret (r, s') -> bopt (s_nthr s) l u p r.
Proof.
  intros Hf Hl Hu H. unfold search0 in H. ib H t Et. destruct t as [late s1]. apply timeout_Sc in Et as [_ C]. destruct late; [inj H; exact Logic.I|].
  ib H lst El. rewrite HReg in El. inj El. unfold Sn in C. rewrite <- C. eapply loop_built; try exact H; auto; [|exact Logic.I].
  intros n d Hn. apply of_kind_in in Hn as (_ & H1 & H2). auto.
Qed.
Lemma relax_built p l u tab : forall x last f s r, subset l x -> subset x (fu f) -> fu f = u ->
  relax_loop e rec tab p l x last f s = Ret r -> bopt (s_nthr s) l u p (fst (fst (fst r))) /\ fu (snd (fst r)) = u.
Proof.
  induction tab as [|t tab IH]; intros x last f s r Hx Hx2 Hf H; cbn [relax_loop] in H.
  - inj H. split; [exact Logic.I|reflexivity].
  - cbv zeta in H. set (x' := if LEQ l (Z.ldiff x t) then _ else _) in *.
    assert (Hx' : subset l x'). { unfold x'. destruct (LEQ l (Z.ldiff x t)) eqn:E; [now apply LEQ_sub|auto]. }
    assert (Hx2' : subset x' (fu f)).
    { unfold x'. destruct (LEQ l (Z.ldiff x t)); auto. intros i Hi. rewrite Z.ldiff_spec in Hi. apply andb_true_iff in Hi as [Hi _]. auto. }
    clearbody x'. destruct (negb (x' =? last)); [|eapply IH; eauto].
    ib H q Eq. destruct q as [q s1]. pose proof (search0_Sc e rec HS _ _ _ _ _ Eq) as [_ C]. unfold Sn in C.
    eapply (search0_built p _ _ _ _ l u) in Eq; [|exact Hx2'|exact Hx'|cbn; rewrite Hf; apply subset_refl]. destruct q as [b|].
    + inj H. split; auto.
    + eapply IH in H; eauto. rewrite C in H. exact H.
Qed.
Lemma search_built p s r : subset (fl (s_flags s)) (fu (s_flags s)) -> search e rec p (s_flags s) s = Ret r ->
  bopt (s_nthr s) (fl (s_flags s)) (fu (s_flags s)) p (fst (fst r)).
Proof.
  intros O H. unfold search in H. cbv zeta in H. ib H q Eq. destruct q as [[[b last] f1] s1].
  pose proof (relax_Sc e rec HS _ _ _ _ _ _ _ _ Eq) as [_ C]. unfold Sn in C. cbn in C.
  eapply relax_built in Eq as [Eq Ef]; [|exact O|apply subset_refl|reflexivity]. cbn [fst snd] in *. change (s_nthr (emit s (ESearch (s_depth s)))) with (s_nthr s) in Eq. destruct b as [b|]; [inj H; exact Eq|].
  destruct (negb (fl (s_flags s) =? last)); [|inj H; exact Logic.I]. ib H q Eq2. destruct q as [q s2]. inj H. cbn [fst]. rewrite <- C. eapply search0_built; [| | |exact Eq2]; cbn [with_l fl fu].
  - rewrite Ef. exact O.
  - apply subset_refl.
  - rewrite Ef. apply subset_refl.
Qed.
Lemma body_built p s x s' : binv s -> mkplan_body e rec p s = Ret (Some x, s') -> Built e (s_nthr s) (fl (s_flags s)) (fu (s_flags s)) p x.
Proof.
  intros O. unfold mkplan_body. intros H. ib H u0 Eu. cbv zeta in H. set (s1 := if ESTIMATEP s then _ else s) in *.
  assert (F : fl (s_flags s1) = fl (s_flags s) /\ fu (s_flags s1) = fu (s_flags s) /\ s_nthr s1 = s_nthr s /\ s_ws s1 = s_ws s).
  { unfold s1. destruct (ESTIMATEP s); auto. }
  clearbody s1. destruct F as (F1 & F2 & F3 & F4). destruct (bogus s1) eqn:Bg. { apply isbogus_same in H as [_ H]. discriminate. }
  set (s2 := set_timeout s1 false (s_ntc s1)) in *.
  assert (D : forall k x s', do_search e rec p k s2 = Ret (Some x, s') -> Built e (s_nthr s) (fl (s_flags s)) (fu (s_flags s)) p x).
  { intros k y z Hz. unfold do_search in Hz. destruct (ws_eqb (s_ws s2) WISDOM_ONLY) eqn:EO. { apply isbogus_same in Hz as [_ Hz]. discriminate. }
    assert (O2 : subset (fl (s_flags s2)) (fu (s_flags s2))).
    { destruct O as [O|O]; [cbn; rewrite F1, F2; exact O|]. exfalso. cbn in EO. unfold bogus in Bg. rewrite F4 in *. destruct O as [O|O]; rewrite O in *; discriminate. }
    ib Hz q Eq. destruct q as [[b f] s3]. apply search_built in Eq; [|exact O2]. cbn [fst] in Eq. cbn [s2 s_nthr s_flags set_timeout] in Eq. rewrite F1, F2, F3 in Eq.
    assert (G : option_map fst b = Some y -> Built e (s_nthr s) (fl (s_flags s)) (fu (s_flags s)) p y).
    { destruct b as [[b nb]|]; [|discriminate]. intros Q. injection Q as ->. exact Eq. }
    destruct (bogus s3). { apply isbogus_same in Hz as [_ Hz]. discriminate. }
    destruct (s_timed_out s3).
    - ib Hz u' Eu'. destruct (negb (ftl (s_flags s3) =? 0)); [|discriminate]. apply skip_Sc in Hz as (_ & _ & Hz). auto.
    - apply skip_Sc in Hz as (_ & _ & Hz). auto. }
  destruct (negb (ws_eqb (s_ws s2) WISDOM_IGNORE_ALL)); [|eauto].
  ib H sol Es. destruct sol as [sol|]; [|eauto]. destruct (Z.eqb_spec (sndx sol) INFEASIBLE_SLVNDX) as [_|Ni].
  { destruct (ws_eqb (s_ws s2) WISDOM_IGNORE_INFEASIBLE); [eauto|discriminate]. }
  ib H d Ed. apply desc_at_inv in Ed as [_ Ed]. destruct (Nat.eqb_spec (e_kind e p) (sd_kind d)) as [K|K]; cbn [negb] in H.
  2:{ apply isbogus_same in H as [_ H]. discriminate. }
  ib H q Eq. destruct q as [y s4]. destruct (bogus s4). { apply isbogus_same in H as [_ H]. discriminate. }
  destruct y as [y|]; [|apply isbogus_same in H as [_ H]; discriminate].
  apply skip_Sc in H as (_ & _ & H). injection H as <-.
  apply hlookup_sound in Es as [_ Es]. unfold subsumes in Es. destruct (Z.eqb_spec (sndx sol) INFEASIBLE_SLVNDX); [contradiction|]. cbn [negb] in Es.
  apply andb_true_iff in Es as [Es1 Es2]. apply LEQ_sub in Es1, Es2. cbn in Es1, Es2. rewrite F2 in Es1. rewrite F1 in Es2.
  rewrite <- F3. change (s_nthr s1) with (s_nthr (set_ws s2 WISDOM_ONLY)). eapply invoke_built; [exact Ed|auto| | | |exact Eq]; cbn [fl fu]; auto.
  right. left. reflexivity.
Qed.
End R.
Lemma mkplan_built fuel : forall p s x s', binv s -> mkplan e fuel p s = Ret (Some x, s') -> Built e (s_nthr s) (fl (s_flags s)) (fu (s_flags s)) p x.
Proof.
  induction fuel as [|fuel IH]; intros p s x s' O H; cbn [mkplan] in H; [discriminate|].
  eapply (body_built (mkplan e fuel)); eauto using mkplan_Scoped.
Qed.
End S.
