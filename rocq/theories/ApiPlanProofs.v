(** * Creation and destruction of plans: proofs *)
From Coq Require Import ZArith List Lia Bool Permutation.
From Verif Require Import Base SpecWisdom HashModel HashProofs FlagsModel PropFlags PlannerModel SpecPlanner PlannerScope PlannerTrace PlannerBuilt PlannerSafe ImportModel ImportScan ImportProofs ApiPlanModel.
Import ListNotations.
Open Scope Z_scope.

Section S.
Context {P B : Type}.
Variable e0 : env P B.
Variable fuel : nat.
Notation plan := (plan B).
Notation env_tl := (env_tl e0).

Lemma LU flags : subset (PLNR_L flags) (PLNR_U flags).
Proof.
  intros i Hi. rewrite PLNR_U_eq, PLNR_L_eq in *. rewrite snd_mapflags, Z.lor_spec, Hi. apply orb_true_r.
Qed.

(** ** no undefined behaviour, no leak *)
Section Safety.
Hypothesis HReg : reg_ok (e_reg e0).
Hypothesis HN : nslv e0 <= 4095.
Hypothesis HC : forall n d, nth_error (rg_descs (e_reg e0)) n = Some d -> forall p, careful [] (sd_prog d p).
Hypothesis HE : forall n d, nth_error (rg_descs (e_reg e0)) n = Some d -> forall p, never_clears ESTIMATE (sd_prog d p).
Notation Inv := (Inv e0).
Definition Ok (base : list nat) (q : option plan * st) : Prop := Inv (snd q) /\ Permutation (s_live (snd q)) (oids (fst q) ++ base).
Lemma forget_ok a s : HI s -> (a = FORGET_ACCURSED -> tab_ok e0 (s_hb s)) -> (s_timed_out s = true -> s_ntc s = true) ->
  exists s', forget s a = Ret s' /\ Inv s' /\ s_live s' = s_live s /\ records (s_hu s') = [] /\
    match a with FORGET_EVERYTHING => records (s_hb s') = [] | FORGET_ACCURSED => s_hb s' = s_hb s end.
Proof.
  intros I1 I2 I4. unfold forget. destruct mkhashtab_ok as (ht & E & W & R). rewrite E. cbn [bind].
  assert (T : tab_ok e0 ht) by (split; [exact W|rewrite R; intros r []]).
  destruct a; eexists; (split; [reflexivity|]); (split; [split; [exact I1|]; split; [|split; [exact T|exact I4]]|]); auto.
Qed.
Section Tl.
Variable tl : option Z.
Lemma mkplan0_safe flags p b w s : Inv s -> w <> WISDOM_IS_BOGUS ->
  Safe (mkplan0 e0 fuel tl flags p b w s) (fun q => Ok (s_live s) q /\ (bogus (snd q) = true -> fst q = None)).
Proof.
  intros I Nw. unfold mkplan0. set (z := set_ws _ _).
  eapply Safe_imp; [apply (mkplan_safe (env_tl tl) HReg HN HC HE fuel p z)|].
  - split; [exact I|]. intros _. apply LU.
  - intros [r s'] E (Q1 & Q2 & _). split; [split; [exact Q1|exact Q2]|]. apply mkplan_Scoped in E. destruct E as (_ & _ & _ & _ & W). cbn [snd fst] in *.
    intros Hb. unfold bogus in Hb. apply ws_eqb_eq in Hb. destruct W as [W|[_ W]]; [|exact W].
    exfalso. apply Nw. rewrite <- Hb, W. reflexivity.
Qed.
Lemma A_safe0 b : b = true -> Safe (A_ (env_tl tl) b) (fun _ => True).
Proof. intros ->. unfold A_. destruct (_ && _) eqn:E; [|exact Logic.I]. rewrite andb_false_r in E. discriminate. Qed.
Lemma api_mkplan_safe flags p b s : Inv s -> Safe (api_mkplan e0 fuel tl flags p b s) (Ok (s_live s)).
Proof.
  intros I. unfold api_mkplan. eapply Safe_bind; [apply mkplan0_safe; auto; discriminate|]. intros [x1 s1] _ ((I1 & P1) & B1). cbn [fst snd] in *.
  eapply Safe_bind with (Q1 := fun q => Ok (s_live s) q /\ (bogus (snd q) = true -> fst q = None)).
  { destruct (_ && _) eqn:E; [|cbn; split; [split; auto|auto]]. apply andb_true_iff in E as [_ E]. destruct x1; [discriminate|].
    eapply Safe_imp; [apply mkplan0_safe; auto; discriminate|]. intros q _ ((Q1 & Q2) & Q3). split; [|auto]. split; auto. rewrite Q2. now apply Permutation_app_head. }
  intros [x2 s2] _ ((I2 & P2) & B2). cbn [fst snd] in *. destruct (bogus s2); [|split; auto].
  rewrite B2 in * by reflexivity. cbn [oids app] in P2.
  destruct (forget_ok FORGET_EVERYTHING s2) as (s3 & E3 & I3 & L3 & _); [apply I2|discriminate|apply I2|]. rewrite E3. cbn [bind].
  eapply Safe_bind; [apply A_safe0; reflexivity|]. intros _ _ _.
  eapply Safe_bind; [apply mkplan0_safe; auto; discriminate|]. intros [x4 s4] _ ((I4 & P4) & B4). cbn [fst snd] in *.
  rewrite L3 in P4. destruct (bogus s4).
  - rewrite B4 in * by reflexivity. cbn [oids app] in P4.
    destruct (forget_ok FORGET_EVERYTHING s4) as (s5 & E5 & I5 & L5 & _); [apply I4|discriminate|apply I4|]. rewrite E5. cbn [bind].
    eapply Safe_bind; [apply A_safe0; reflexivity|]. intros _ _ _.
    eapply Safe_imp; [apply mkplan0_safe; auto; discriminate|]. intros q _ ((Q1 & Q2) & _). split; auto. rewrite Q2, L5, P4. apply Permutation_app_head. exact P2.
  - cbn. split; auto. cbn [fst snd]. rewrite P4. apply Permutation_app_head. exact P2.
Qed.
Hypothesis HD : e_debug e0 = false.
Lemma pat_loop_safe fs : forall p pln used s base, Inv s -> Permutation (s_live s) (oids pln ++ base) ->
  Safe (pat_loop e0 fuel tl fs p pln used s) (fun q => Ok base (fst (fst q), snd q)).
Proof.
  induction fs as [|f fs IH]; intros p pln used s base I Hp; cbn [pat_loop].
  - cbn. split; auto.
  - eapply Safe_bind; [apply api_mkplan_safe; auto|]. intros [x s1] _ (I1 & P1). cbn [fst snd] in *. destruct x as [x|].
    + eapply Safe_bind; [apply (destroy_safe e0 pln s1 (ids x ++ base)); auto|].
      * rewrite P1, Hp. cbn [oids]. rewrite !app_assoc. apply Permutation_app_tail, Permutation_app_comm.
      * intros s2 _ (I2 & P2 & _). apply IH; auto.
    + unfold A_. cbn. rewrite HD. cbn. split; auto. cbn. rewrite P1. exact Hp.
Qed.
Lemma first_plan_safe flags p s : Inv s -> Safe (first_plan e0 fuel tl flags p s) (fun q => Ok (s_live s) (fst (fst q), snd q)).
Proof.
  intros I. unfold first_plan. destruct (flagset flags FFTW_WISDOM_ONLY).
  - eapply Safe_bind; [apply mkplan0_safe; auto; discriminate|]. intros [x s1] _ (Q & _). exact Q.
  - apply pat_loop_safe; auto.
Qed.
(** the only way a creation can go wrong *)
Definition Null_recreated (flags : Z) (p : P) (s : st) : Prop :=
  exists x used s1 s2, first_plan e0 fuel tl flags p s = Ret (Some x, used, s1) /\ api_mkplan e0 fuel tl used p true s1 = Ret (None, s2).
Lemma mkapi_safe flags p s : Inv s ->
  (mkapi_pln e0 fuel tl flags p s = UB /\ Null_recreated flags p s) \/
  Safe (mkapi_pln e0 fuel tl flags p s) (fun q => Ok (s_live s) q /\ records (s_hu (snd q)) = []).
Proof.
  intros I. unfold mkapi_pln. pose proof (first_plan_safe flags p s I) as F.
  destruct (first_plan e0 fuel tl flags p s) as [[[pln used] s1]| |] eqn:E1; cbn [Safe bind] in *; [|contradiction|now right].
  destruct F as [I1 P1]. cbn [fst snd] in *. destruct pln as [x|].
  - pose proof (api_mkplan_safe used p true s1 I1) as F2.
    destruct (api_mkplan e0 fuel tl used p true s1) as [[y s2]| |] eqn:E2; cbn [Safe bind] in *; [|contradiction|now right].
    destruct F2 as [I2 P2]. cbn [fst snd] in *. destruct y as [y|]; cbn [bind].
    + right. eapply Safe_bind with (Q1 := Ok (s_live s)).
      * eapply Safe_bind; [apply (destroy_safe e0 (Some x) s2 (ids y ++ s_live s)); auto|].
        -- rewrite P2, P1. cbn [oids]. rewrite !app_assoc. apply Permutation_app_tail, Permutation_app_comm.
        -- intros s3 _ (I3 & P3 & _). cbn. split; auto.
      * intros [z s3] _ [I3 P3]. cbn [fst snd] in *. destruct (forget_ok FORGET_ACCURSED s3) as (s4 & E4 & I4 & L4 & R4 & _); [apply I3|intros _; apply I3|apply I3|].
        rewrite E4. cbn. split; [split; auto|auto]. cbn. rewrite L4. exact P3.
    + left. split; [reflexivity|]. exists x, used, s1, s2. auto.
  - right. cbn [bind snd fst]. destruct (forget_ok FORGET_ACCURSED s1) as (s4 & E4 & I4 & L4 & R4 & _); [apply I1|intros _; apply I1|apply I1|].
    rewrite E4. cbn. split; [split; auto|auto]. cbn. rewrite L4. exact P1.
Qed.
End Tl.

(** ** handles *)
Notation api := (api B).
Definition blocks (l : list (nat * apiplan B)) : list nat := flat_map (fun x => ids (ap_pln (snd x))) l.
Definition AInv (a : api) : Prop :=
  HI (a_st a) /\ (a_init a = true -> Inv (a_st a)) /\ Permutation (s_live (a_st a)) (blocks (a_plans a)) /\
  Permutation (a_probs a) (map (fun x => ap_prb (snd x)) (a_plans a)) /\
  NoDup (map fst (a_plans a)) /\ Forall (fun x => (fst x < a_next a)%nat /\ 0 < ap_ref (snd x)) (a_plans a).
Lemma the_planner_ok a : AInv a -> exists a', the_planner a = Ret a' /\ AInv a' /\ a_init a' = true /\ Inv (a_st a') /\
  a_plans a' = a_plans a /\ a_probs a' = a_probs a /\ a_next a' = a_next a /\ a_nextp a' = a_nextp a /\ (a_init a = true -> a' = a) /\
  (a_init a = false -> records (s_hb (a_st a')) = [] /\ records (s_hu (a_st a')) = [] /\ a_tl a' = None /\ s_nthr (a_st a') = 1).
Proof.
  intros (H1 & H2 & H3 & H4 & H5 & H6). unfold the_planner. destruct (a_init a) eqn:E.
  - exists a. split; auto. split; [split; [exact H1|]; split; [intros _; apply H2; reflexivity|auto]|]. split; [exact E|]. split; [apply H2; reflexivity|].
    repeat (split; [solve [auto]|]). discriminate.
  - unfold mkplanner. destruct mkhashtab_ok as (ht & Eh & W & R). rewrite Eh. cbn [bind].
    assert (T : tab_ok e0 ht) by (split; [exact W|rewrite R; intros r []]).
    eexists. split; [reflexivity|]. cbn.
    assert (I : Inv (mkst (mkfl 0 0 0 false) 1 WISDOM_NORMAL ht ht (s_timed_out (a_st a)) true (s_nclk (a_st a)) (s_nmeas (a_st a)) (s_live (a_st a)) (s_next (a_st a)) (s_depth (a_st a)) (s_tr (a_st a)))).
    { split; [exact H1|]. split; [exact T|]. split; [exact T|auto]. }
    split; [split; [exact H1|]; split; [intros _; exact I|auto]|]. repeat (split; [solve [auto]|]). split; [discriminate|auto].
Qed.
Lemma find_in h l x : find_h (B := B) h l = Some x -> In (h, x) l.
Proof. induction l as [|[i y] l IH]; cbn; [discriminate|]. destruct (Nat.eqb_spec i h) as [->|N]; [intros Q; inj Q; now left|auto]. Qed.
Lemma in_find h l x : NoDup (map fst l) -> In (h, x) l -> find_h (B := B) h l = Some x.
Proof.
  induction l as [|[i y] l IH]; cbn; intros N H; [destruct H|]. inversion N as [|? ? N1 N2]; subst. destruct (Nat.eqb_spec i h) as [->|Ne].
  - destruct H as [H|H]; [now inj H|]. exfalso. apply N1. apply in_map_iff. exists (h, x). auto.
  - destruct H as [H|H]; [congruence|auto].
Qed.
Lemma set_perm h l x y : find_h (B := B) h l = Some x -> exists l', Permutation l ((h, x) :: l') /\ Permutation (set_h h (Some y) l) ((h, y) :: l') /\ Permutation (set_h h None l) l' /\
   map fst (set_h h (Some y) l) = map fst l.
Proof.
  induction l as [|[i z] l IH]; cbn; [discriminate|]. destruct (Nat.eqb_spec i h) as [->|N].
  - intros Q. inj Q. exists l. repeat split; auto.
  - intros Q. destruct (IH Q) as (l' & A1 & A2 & A3 & A4). exists ((i, z) :: l'). split; [rewrite A1; apply perm_swap|]. split; [rewrite A2; apply perm_swap|].
    split; [now constructor|]. cbn. now rewrite A4.
Qed.
Lemma find_set_other h h' y l : h' <> h -> find_h (B := B) h' (set_h h y l) = find_h h' l.
Proof.
  intros N. induction l as [|[i z] l IH]; cbn; auto. destruct (Nat.eqb_spec i h) as [->|Ne]; cbn.
  - destruct (Nat.eqb_spec h h') as [->|]; [congruence|]. destruct y; cbn; auto. destruct (Nat.eqb_spec h h'); congruence.
  - destruct (Nat.eqb_spec i h'); auto.
Qed.
Lemma blocks_perm l l' : Permutation l l' -> Permutation (blocks l) (blocks l').
Proof. apply Permutation_flat_map. Qed.
Lemma probs_perm (l l' : list (nat * apiplan B)) : Permutation l l' -> Permutation (map (fun x => ap_prb (snd x)) l) (map (fun x => ap_prb (snd x)) l').
Proof. apply Permutation_map. Qed.
Definition ref_of (h : nat) (a : api) : Z := match find_h h (a_plans a) with Some x => ap_ref x | None => 0 end.
Definition pln_of (h : nat) (a : api) : option plan := option_map (@ap_pln B) (find_h h (a_plans a)).

Hypothesis HD : e_debug e0 = false.
Lemma create_ok sign flags p a : AInv a ->
  (exists a1, the_planner a = Ret a1 /\ Null_recreated (a_tl a1) flags p (a_st a1)) \/
  Safe (create e0 fuel sign flags p a) (fun r => AInv (snd r) /\ a_init (snd r) = true /\ records (s_hu (a_st (snd r))) = [] /\
     match fst r with
     | Some h => find_h h (a_plans a) = None /\ ref_of h (snd r) = 1 /\ forall h', h' <> h -> find_h h' (a_plans (snd r)) = find_h h' (a_plans a)
     | None => a_plans (snd r) = a_plans a
     end).
Proof.
  intros I. destruct (the_planner_ok a I) as (a1 & E1 & I1 & T1 & J1 & L1 & P1 & N1 & M1 & _).
  unfold create. rewrite E1. cbn [bind]. destruct (mkapi_safe (a_tl a1) HD flags p (a_st a1) J1) as [[_ Q]|Q]; [left; eauto|right].
  eapply Safe_bind; [exact Q|]. clear Q. intros [x s] _ [[I2 P2] R2]. cbn [fst snd] in *. destruct I1 as (H1 & H2 & H3 & H4 & H5 & H6).
  destruct x as [x|]; cbn [Safe fst snd].
  - assert (Fr : find_h (a_next a1) (a_plans a1) = None).
    { destruct (find_h (a_next a1) (a_plans a1)) eqn:F; auto. apply find_in in F. rewrite Forall_forall in H6. apply H6 in F. cbn in F. lia. }
    split; [|split; [reflexivity|split; [exact R2|]]].
    + split; [apply I2|]. cbn. split; [intros _; exact I2|]. split; [rewrite P2; cbn [oids]; rewrite H3; unfold blocks; reflexivity|].
      split; [cbn; constructor; exact H4|]. split; [constructor; auto; rewrite in_map_iff; intros ([i z] & Q1 & Q2); rewrite Forall_forall in H6; apply H6 in Q2; cbn in *; lia|].
      constructor; [cbn; lia|]. eapply Forall_impl; [|exact H6]. cbn. intros [i z] [Q1 Q2]. cbn in *. lia.
    + split; [rewrite <- L1; exact Fr|]. split; [unfold ref_of; cbn; now rewrite Nat.eqb_refl|].
      intros h' Nh. cbn. destruct (Nat.eqb_spec (a_next a1) h'); [congruence|now rewrite L1].
  - split; [|auto]. split; [apply I2|]. cbn. split; [intros _; exact I2|]. split; [rewrite P2; exact H3|auto].
Qed.
Lemma copy_ok h a : AInv a -> find_h h (a_plans a) <> None ->
  exists a', copy_plan (Some h) a = Ret a' /\ AInv a' /\ ref_of h a' = ref_of h a + 1 /\ pln_of h a' = pln_of h a /\
    (forall h', h' <> h -> find_h h' (a_plans a') = find_h h' (a_plans a)) /\ a_st a' = a_st a /\ a_probs a' = a_probs a.
Proof.
  intros (H1 & H2 & H3 & H4 & H5 & H6) Hh. cbn [copy_plan]. destruct (find_h h (a_plans a)) as [x|] eqn:F; [|congruence].
  set (y := mkap _ _ _ _). destruct (set_perm h (a_plans a) x y F) as (l' & S1 & S2 & S3 & S4).
  assert (ND : NoDup (map fst (set_h h (Some y) (a_plans a)))) by (rewrite S4; exact H5).
  assert (F' : find_h h (set_h h (Some y) (a_plans a)) = Some y) by (apply in_find; [exact ND|]; eapply Permutation_in; [symmetry; exact S2|now left]).
  eexists. split; [reflexivity|]. split; [|split; [|split; [|split; [|auto]]]].
  - split; [exact H1|]. split; [exact H2|]. cbn [a_st a_plans a_probs a_next]. split; [|split; [|split; [exact ND|]]].
    + rewrite H3, (blocks_perm _ _ S1), (blocks_perm _ _ S2). reflexivity.
    + rewrite H4. rewrite (probs_perm _ _ S1), (probs_perm _ _ S2). reflexivity.
    + apply Forall_forall. intros z Hz. eapply Permutation_in in Hz; [|exact S2]. rewrite Forall_forall in H6. destruct Hz as [<-|Hz].
      * assert (Q : In (h, x) (a_plans a)) by now apply find_in. apply H6 in Q. cbn in *. lia.
      * apply H6. eapply Permutation_in; [symmetry; exact S1|now right].
  - unfold ref_of. cbn [a_plans]. rewrite F', F. reflexivity.
  - unfold pln_of. cbn [a_plans]. rewrite F', F. reflexivity.
  - intros h' Nh. cbn [a_plans]. now apply find_set_other.
Qed.
Lemma destroy_ok h a : AInv a -> find_h h (a_plans a) <> None ->
  exists a', destroy_plan (Some h) a = Ret a' /\ AInv a' /\ ref_of h a' = ref_of h a - 1 /\ (ref_of h a <> 1 -> pln_of h a' = pln_of h a) /\
    (forall h', h' <> h -> find_h h' (a_plans a') = find_h h' (a_plans a)) /\
    s_hb (a_st a') = s_hb (a_st a) /\ s_hu (a_st a') = s_hu (a_st a).
Proof.
  intros (H1 & H2 & H3 & H4 & H5 & H6) Hh. cbn [destroy_plan]. destruct (find_h h (a_plans a)) as [x|] eqn:F; [|congruence].
  assert (Hin : In (h, x) (a_plans a)) by now apply find_in.
  destruct (Z.eqb_spec (ap_ref x) 1) as [E1|E1].
  - destruct (set_perm h (a_plans a) x x F) as (l' & S1 & _ & S3 & _).
    assert (PB : Permutation (s_live (a_st a)) (ids (ap_pln x) ++ blocks l')) by (rewrite H3, (blocks_perm _ _ S1); reflexivity).
    cbn [destroy]. destruct (free_all_ok _ _ _ PB) as (lv & E & Q). rewrite E. cbn [bind].
    destruct (remove1_in (ap_prb x) (a_probs a)) as (pr & Ep & Pp).
    { eapply Permutation_in; [symmetry; exact H4|]. apply in_map_iff. exists (h, x). auto. }
    rewrite Ep. eexists. split; [reflexivity|].
    assert (ND : NoDup (map fst l')).
    { assert (N : NoDup (map fst ((h, x) :: l'))) by (eapply Permutation_NoDup; [apply Permutation_map; exact S1|exact H5]). cbn in N. now inversion N. }
    assert (Nh : ~ In h (map fst l')).
    { assert (N : NoDup (map fst ((h, x) :: l'))) by (eapply Permutation_NoDup; [apply Permutation_map; exact S1|exact H5]). cbn in N. now inversion N. }
    assert (HI' : HI (set_heap (a_st a) lv (s_next (a_st a)))).
    { destruct H1 as [N Fo]. split; cbn.
      - rewrite PB in N. apply NoDup_app_r in N. eapply Permutation_NoDup; [symmetry; exact Q|exact N].
      - apply Forall_forall. intros i Hi. rewrite Forall_forall in Fo. apply Fo. eapply Permutation_in; [symmetry; exact PB|]. apply in_or_app. right. eapply Permutation_in; eauto. }
    split; [|split; [|split; [|split; [|auto]]]].
    + split; [exact HI'|]. cbn [a_st a_plans a_probs a_next a_init]. split; [|split; [|split; [|split]]].
      * intros Hi. destruct (H2 Hi) as (_ & J2 & J3 & J4). split; [exact HI'|]. split; [exact J2|]. split; [exact J3|exact J4].
      * cbn. rewrite Q. apply blocks_perm. now symmetry.
      * rewrite (probs_perm _ _ S3). rewrite Pp in H4. eapply Permutation_cons_inv with (a := ap_prb x). rewrite H4. rewrite (probs_perm _ _ S1). reflexivity.
      * eapply Permutation_NoDup; [apply Permutation_map; symmetry; exact S3|exact ND].
      * apply Forall_forall. intros z Hz. rewrite Forall_forall in H6. apply H6. eapply Permutation_in; [symmetry; exact S1|]. right. eapply Permutation_in; eauto.
    + unfold ref_of. cbn [a_plans]. rewrite F, E1. destruct (find_h h (set_h h None (a_plans a))) as [z|] eqn:Fz; [|reflexivity].
      exfalso. apply find_in in Fz. apply Nh. apply in_map_iff. exists (h, z). split; auto. eapply Permutation_in; eauto.
    + intros Nr. exfalso. apply Nr. unfold ref_of. rewrite F. exact E1.
    + intros h' Nh'. cbn [a_plans]. now apply find_set_other.
  - set (y := mkap _ _ _ _). destruct (set_perm h (a_plans a) x y F) as (l' & S1 & S2 & S3 & S4).
    assert (ND : NoDup (map fst (set_h h (Some y) (a_plans a)))) by (rewrite S4; exact H5).
    assert (F' : find_h h (set_h h (Some y) (a_plans a)) = Some y) by (apply in_find; [exact ND|]; eapply Permutation_in; [symmetry; exact S2|now left]).
    eexists. split; [reflexivity|]. split; [|split; [|split; [|split; [|auto]]]].
    + split; [exact H1|]. split; [exact H2|]. cbn [a_st a_plans a_probs a_next]. split; [|split; [|split; [exact ND|]]].
      * rewrite H3, (blocks_perm _ _ S1), (blocks_perm _ _ S2). reflexivity.
      * rewrite H4. rewrite (probs_perm _ _ S1), (probs_perm _ _ S2). reflexivity.
      * apply Forall_forall. intros z Hz. eapply Permutation_in in Hz; [|exact S2]. rewrite Forall_forall in H6. destruct Hz as [<-|Hz].
        -- apply H6 in Hin. cbn in *. lia.
        -- apply H6. eapply Permutation_in; [symmetry; exact S1|now right].
    + unfold ref_of. cbn [a_plans]. rewrite F', F. reflexivity.
    + intros _. unfold pln_of. cbn [a_plans]. rewrite F', F. reflexivity.
    + intros h' Nh. cbn [a_plans]. now apply find_set_other.
Qed.
Lemma forget_wisdom_ok a : AInv a -> exists a', forget_wisdom a = Ret a' /\ AInv a' /\ a_plans a' = a_plans a /\ a_init a' = true /\
  records (s_hb (a_st a')) = [] /\ records (s_hu (a_st a')) = [].
Proof.
  intros I. destruct (the_planner_ok a I) as (a1 & E1 & I1 & T1 & J1 & L1 & P1 & N1 & M1 & _). unfold forget_wisdom. rewrite E1. cbn [bind].
  destruct (forget_ok FORGET_EVERYTHING (a_st a1)) as (s & E & I2 & L2 & R2 & R3); [apply J1|discriminate|apply J1|]. rewrite E. cbn [bind].
  eexists. split; [reflexivity|]. split; [|auto]. destruct I1 as (H1 & H2 & H3 & H4 & H5 & H6). split; [apply I2|]. cbn. split; [auto|]. split; [rewrite L2; exact H3|auto].
Qed.
Lemma set_timelimit_ok t a : AInv a -> exists a', set_timelimit t a = Ret a' /\ AInv a' /\ a_plans a' = a_plans a.
Proof.
  intros I. destruct (the_planner_ok a I) as (a1 & E1 & I1 & T1 & J1 & L1 & P1 & N1 & M1 & _). unfold set_timelimit. rewrite E1. cbn [bind].
  eexists. split; [reflexivity|]. split; [|auto]. destruct I1 as (H1 & H2 & H3). split; [exact H1|]. split; [intros _; exact J1|exact H3].
Qed.
Lemma import_ok junk txt a : AInv a ->
  match import_wisdom e0 junk txt a with
  | Ret (_, a') => AInv a' /\ a_plans a' = a_plans a /\ a_tl a' = a_tl (match the_planner a with Ret a1 => a1 | _ => a end)
  | UB => ~ short_words txt
  | Diverge => True end.
Proof.
  intros I. destruct (the_planner_ok a I) as (a1 & E1 & I1 & T1 & J1 & L1 & P1 & N1 & M1 & _). unfold import_wisdom. rewrite E1. cbn [bind].
  pose proof (imprt_noub e0 HN HD junk (a_st a1) txt J1) as NU.
  destruct (imprt junk (e_reg e0) (a_st a1) txt) as [[[b rest] s']| |] eqn:E; cbn [bind]; auto.
  pose proof (imprt_inv e0 HN HD junk _ _ _ _ _ J1 E) as I2. destruct (imprt_ret _ _ _ _ _ _ _ E) as [Es _].
  cbn [fst snd]. split; [|auto]. destruct I1 as (H1 & H2 & H3 & H4 & H5 & H6).
  split; [apply I2|]. cbn. split; [auto|]. split; [rewrite Es; exact H3|auto].
Qed.
Lemma cleanup_ok a : AInv a -> AInv (cleanup a) /\ a_plans (cleanup a) = a_plans a.
Proof. intros (H1 & H2 & H3). split; [|reflexivity]. split; [exact H1|]. split; [discriminate|exact H3]. Qed.
Lemma boot_ok : AInv boot.
Proof. split; [split; constructor|]. split; [discriminate|]. repeat split; constructor. Qed.
End Safety.
End S.
