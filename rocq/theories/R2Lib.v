(** * Combinators for in-place and out-of-place rdft2 plans (proof library) *)
From Coq Require Import Reals ZArith List Lia Bool Permutation.
From Verif Require Import NumTheory Cplx Spec TensorModel Offs TensorProofs XForm XKern XSeq CopyProofs DftModel XPar DftTw2 DftComp DftSplit IForm.
Import ListNotations.
Open Scope Z_scope.

Lemma kern_U nd X : CorrectU nd X [] (kern X).
Proof.
  intros nx I O m W1 W2 W3 W4 W5. rewrite ol_nil in W5. unfold kern. split.
  - intros a b Hab o F HoF. cbn in Hab. destruct Hab as [E|[]]. injection E as <- <-.
    rewrite Z.add_0_l. replace (fun z => m (sh I (0 + z))) with (fun z => m (sh I z)) by reflexivity.
    apply stores_in.
    + rewrite map_map. cbn. exact W5.
    + apply in_map_iff. exists (o, F). auto.
  - intros l Hl Ho _. apply stores_other. rewrite map_map. cbn. now rewrite ol_nil in Ho.
Qed.

Lemma CorrectU_buf2 nd X vec X1 v1 X2 v2 f1 f2 (B : nat -> loc) :
  (forall nx, fst (B nx) = nx) -> nnegd v1 -> nnegd v2 ->
  Permutation (il X vec) (il X1 v1) -> Permutation (ol X vec) (ol X2 v2) ->
  NoDup (ol X1 v1) -> Permutation (ol X1 v1) (il X2 v2) ->
  (forall nx I O m m1 m2, vals X1 v1 I (B nx) m m1 -> vals X2 v2 (B nx) O m1 m2 -> vals X vec I O m m2) ->
  Correct nd false X1 v1 f1 -> Correct false false X2 v2 f2 ->
  CorrectU nd X vec (fun nx I O m => f2 (S nx) (B nx) O (f1 (S nx) I (B nx) m)).
Proof.
  intros HB N1 N2 Pi Po ND P12 HV C1 C2 nx I O m HWI HWO HWv HWi HWo.
  assert (W1 : Wf (S nx) false I (B nx) X1 v1).
  { constructor; auto; try (rewrite HB; lia); try lia.
    - eapply Permutation_NoDup; [exact Pi|auto].
    - intros l Hl Hl'. apply (InP_blk nx) in Hl; [|exact HWI]. destruct Hl' as (o & _ & ->).
      rewrite sh_blk, HB in Hl. lia. }
  destruct (C1 (S nx) I (B nx) m W1) as [V1 F1]. set (m1 := f1 (S nx) I (B nx) m) in *.
  assert (W2 : Wf (S nx) false (B nx) O X2 v2).
  { constructor; auto; try (rewrite HB; lia); try lia.
    - eapply Permutation_NoDup; [exact P12|exact ND].
    - eapply Permutation_NoDup; [exact Po|auto].
    - intros l Hl Hl'. apply (InP_blk nx) in Hl'; [|exact HWO]. destruct Hl as (o & _ & ->).
      rewrite sh_blk, HB in Hl'. lia. }
  destruct (C2 (S nx) (B nx) O m1 W2) as [V2 F2]. split; [eapply HV; eauto|].
  intros l Hl Ho Hi.
  assert (NB : forall L, ~ InP (B nx) L l).
  { intros L (o & _ & ->). rewrite sh_blk, HB in Hl. lia. }
  rewrite F2; [apply F1|..]; auto.
  - destruct Hi as [Hi|Hi]; auto. right. intros C. apply Hi. eapply InP_perm; [symmetry; exact Pi|exact C].
  - intros C. apply Ho. eapply InP_perm; [symmetry; exact Po|exact C].
Qed.

(** ** In place or not *)
Definition CG (ip nd : bool) (X : xform) (fp : list Z) (vec : list iodim) (f : rapply) : Prop :=
  if ip then CorrectI X fp vec f else Correct nd false X vec f.

Lemma CG_U ip nd X fp vec f : CorrectU (nd && negb ip) X vec f -> CG ip nd X fp vec f.
Proof.
  intros H. destruct ip; cbn [CG].
  - eapply CorrectU_I. exact H.
  - cbn in H. rewrite andb_true_r in H. now apply CorrectU_Correct.
Qed.
Lemma CG_ext ip nd X fp vec f g : (forall nx I O m, f nx I O m = g nx I O m) -> CG ip nd X fp vec f -> CG ip nd X fp vec g.
Proof. intros E. destruct ip; cbn; [now apply CorrectI_ext|now apply Correct_ext]. Qed.
Lemma CorrectI_vac X fp vec f : ~ eqst vec -> CorrectI X fp vec f.
Proof. intros H nx I m HW. exfalso. apply H, HW. Qed.
Lemma CG_sim ip nd X X' fp fp' vec vec' f : xsim X X' -> Permutation (offs vec) (offs vec') -> Permutation fp fp' ->
  (nnegd vec -> nnegd vec') -> (ip = true -> eqst vec -> eqst vec') -> CG ip nd X' fp' vec' f -> CG ip nd X fp vec f.
Proof.
  intros H1 H2 H3 H4 H5. destruct ip; cbn.
  - apply CorrectI_sim; auto.
  - apply Correct_sim; auto.
Qed.
Lemma CG_tornk1 ip nd X fp vec v ivs ovs f : tensor_tornk1 vec = Some (v, ivs, ovs) ->
  CG ip nd X fp [mkdim v ivs ovs] f -> CG ip nd X fp vec f.
Proof.
  destruct vec as [|d [|? ?]]; cbn [tensor_tornk1]; intros E; [| |discriminate].
  - injection E as <- <- <-. apply CG_sim; [apply xsim_refl|rewrite (offs_1 (mkdim 1 0 0)); reflexivity|reflexivity| |].
    + intros _. repeat constructor. cbn. lia.
    + intros _ _. repeat constructor.
  - injection E as <- <- <-. now destruct d.
Qed.
Lemma CG_loop ip nd X fp vec n s u f : xwf X -> CG ip nd X fp vec f -> CG ip nd X fp (mkdim n s u :: vec) (vloop n s u f).
Proof.
  intros HX. destruct ip; cbn.
  - destruct (Z.eq_dec s u) as [->|N]; [now apply CorrectI_loop|]. intros _. apply CorrectI_vac. intros H. inversion H; subst. cbn in *. auto.
  - intros C. apply Correct_loop; auto. discriminate.
Qed.
Lemma CorrectI_batch X fp vl s c B rest f g : xwf X -> 0 <= c -> 0 <= B -> 0 <= rest -> vl = c * B + rest ->
  CorrectI X fp [mkdim B s s] f -> CorrectI X fp [mkdim rest s s] g ->
  CorrectI X fp [mkdim vl s s] (fun nx I O m =>
    g nx (sh I (c * (B * s))) (sh O (c * (B * s))) (zfor c (fun i => f nx (sh I (i * (B * s))) (sh O (i * (B * s)))) m)).
Proof.
  intros HX Hc HB Hr -> Cf Cg.
  assert (G : forall k, 0 <= k -> CorrectI X fp [mkdim (k * B) s s] (fun nx I O m => zfor k (fun i => f nx (sh I (i * (B * s))) (sh O (i * (B * s)))) m)).
  { intros k Hk. pattern k. apply natlike_ind; [|intros j Hj IH|exact Hk].
    - eapply CorrectI_ext; [|apply CorrectI_dim0; lia]. intros. now rewrite zfor_0.
    - unfold Z.succ. replace ((j + 1) * B) with (j * B + B) by ring.
      eapply CorrectI_ext; [|apply CorrectI_seq; [exact HX| |exact HB|exact IH|exact Cf]]; [|nia].
      intros. unfold seq_at. rewrite zfor_succ by auto. rewrite !Z.mul_assoc. reflexivity. }
  eapply CorrectI_ext; [|apply CorrectI_seq; [exact HX| |exact Hr|apply (G c Hc)|exact Cg]]; [|nia].
  intros. unfold seq_at. now rewrite !Z.mul_assoc.
Qed.
Lemma CG_batch ip nd X fp vl ivs ovs c B rest f g : xwf X -> 0 <= c -> 0 <= B -> 0 <= rest -> vl = c * B + rest ->
  CG ip nd X fp [mkdim B ivs ovs] f -> (ip = true -> ivs = ovs -> CG ip nd X fp [mkdim rest ivs ovs] g) ->
  (ip = false -> CG ip nd X fp [mkdim rest ivs ovs] g) ->
  CG ip nd X fp [mkdim vl ivs ovs] (fun nx I O m =>
    g nx (sh I (c * (B * ivs))) (sh O (c * (B * ovs))) (zfor c (fun i => f nx (sh I (i * (B * ivs))) (sh O (i * (B * ovs)))) m)).
Proof.
  intros HX Hc HB Hr E Cf Cg1 Cg2. destruct ip; cbn [CG] in *.
  - destruct (Z.eq_dec ivs ovs) as [->|N]; [apply CorrectI_batch with (rest := rest); auto|]. apply CorrectI_vac. intros H. inversion H; subst. cbn in *. auto.
  - apply Correct_batch with (rest := rest); auto. discriminate.
Qed.
(** the loop of the buffered solvers *)
Lemma CG_buffered ip nd X fp vl ivs ovs nb f fr : xwf X -> 0 < nb -> 0 < vl ->
  CG ip nd X fp [mkdim nb ivs ovs] f ->
  CG (ip && (ivs * (nb * Z.quot vl nb) =? ovs * (nb * Z.quot vl nb))) nd X fp [mkdim (Z.rem vl nb) ivs ovs] fr ->
  CG ip nd X fp [mkdim vl ivs ovs] (fun nx I O m =>
    fr nx (sh I (nsteps nb (vl + 1) nb * (ivs * nb))) (sh O (nsteps nb (vl + 1) nb * (ovs * nb)))
       (zfor (nsteps nb (vl + 1) nb) (fun i => f nx (sh I (i * (ivs * nb))) (sh O (i * (ovs * nb)))) m)).
Proof.
  intros HX Pnb Hv C1 Cr. set (cnt := nsteps nb (vl + 1) nb).
  assert (Ecnt : vl = cnt * nb + Z.rem vl nb /\ 0 <= cnt /\ 0 <= Z.rem vl nb < nb).
  { pose proof (nsteps_spec nb (vl + 1) nb Pnb) as (A1 & A2 & A3). fold cnt in A1, A2, A3.
    pose proof (Z.quot_rem' vl nb) as Q. pose proof (Z.rem_bound_pos vl nb ltac:(lia) Pnb) as Rb.
    assert (cnt = Z.quot vl nb); [|rewrite H; lia].
    destruct A3 as [A3|A3].
    - rewrite A3 in *. rewrite Z.quot_small; lia.
    - assert (cnt <= Z.quot vl nb) by nia. nia. }
  destruct Ecnt as (E2 & E3 & E4).
  eapply CG_ext; [|apply (CG_batch ip nd X fp vl ivs ovs cnt nb (Z.rem vl nb) f fr HX E3 ltac:(lia) ltac:(lia) E2 C1)].
  - intros. cbn beta. now rewrite !(Z.mul_comm nb).
  - intros -> ->. now rewrite Z.eqb_refl in Cr.
  - intros ->. exact Cr.
Qed.

(** ** Two steps writing different cells; the second one writes constants *)
Lemma two_steps nx nd X X1 X2 vec I O m m1 m2 : (fst O < nx)%nat ->
  Permutation (map fst (xo X)) (map fst (xo X1) ++ map fst (xo X2)) ->
  (forall o F, In (o, F) (xo X) -> exists F', (In (o, F') (xo X1) \/ In (o, F') (xo X2)) /\ forall x, F x = F' x) ->
  xi X2 = [] -> xwf X2 -> incl (xi X1) (xi X) -> NoDup (ol X vec) ->
  vals X1 vec I O m m1 -> frame nx nd X1 vec I O m m1 -> vals X2 vec I O m1 m2 -> frame nx nd X2 vec I O m1 m2 ->
  vals X vec I O m m2 /\ frame nx nd X vec I O m m2.
Proof.
  intros Hb Po Hs Hi2 Hw2 Hi1 HN V1 F1 V2 F2.
  assert (Nil : il X2 vec = []) by (unfold il; rewrite Hi2; reflexivity).
  assert (Lo : Permutation (ol X vec) (ol X1 vec ++ ol X2 vec)).
  { unfold ol. rewrite (lplus_perm_l _ _ _ Po). unfold lplus. now rewrite flat_map_app. }
  assert (HD : forall o, In o (ol X1 vec) -> In o (ol X2 vec) -> False).
  { pose proof (Permutation_NoDup Lo HN) as H. apply NoDup_app_inv in H as (_ & _ & H). intros o A B. exact (H o A B). }
  split.
  - intros a b Hab o F HF. destruct (Hs o F HF) as (F' & [H1|H2] & E); rewrite E.
    + rewrite <- (V1 a b Hab o F' H1). apply F2; [exact Hb| |right; rewrite Nil; intros (z & [] & _)].
      intros (z & Hz & Ez). apply sh_inj in Ez. apply (HD (b + o)); [eapply in_ol_intro; eauto|now rewrite Ez].
    + rewrite (V2 a b Hab o F' H2). eapply Hw2; [exact H2|]. rewrite Hi2. intros z [].
  - intros l Hl Ho Hi. rewrite F2; [apply F1|..]; auto.
    + intros C. apply Ho. eapply InP_incl; [|exact C]. intros z Hz. eapply Permutation_in; [symmetry; exact Lo|]. apply in_app_iff. auto.
    + destruct Hi as [Hi|Hi]; auto. right. intros C. apply Hi. eapply InP_incl; [|exact C]. intros z Hz.
      apply in_il_inv in Hz as (a & b & y & Hab & Hy & ->). eapply in_il_intro; eauto.
    + intros C. apply Ho. eapply InP_incl; [|exact C]. intros z Hz. eapply Permutation_in; [symmetry; exact Lo|]. apply in_app_iff. auto.
    + right. rewrite Nil. intros (z & [] & _).
Qed.
Lemma CG_two ip nd X X1 X2 fp vec f1 f2 :
  Permutation (map fst (xo X)) (map fst (xo X1) ++ map fst (xo X2)) ->
  (forall o F, In (o, F) (xo X) -> exists F', (In (o, F') (xo X1) \/ In (o, F') (xo X2)) /\ forall x, F x = F' x) ->
  xi X2 = [] -> xwf X2 -> incl (xi X1) (xi X) -> (NoDup (xi X) -> NoDup (xi X1)) ->
  CG ip nd X1 fp vec f1 -> CG ip nd X2 fp vec f2 ->
  CG ip nd X fp vec (fun nx I O m => f2 nx I O (f1 nx I O m)).
Proof.
  intros Po Hs Hi2 Hw2 Hi1 HN1 C1 C2.
  assert (P2 : forall A B, NoDup (lplus (A ++ B) (locs (to_ vec))) -> NoDup (lplus A (locs (to_ vec))) /\ NoDup (lplus B (locs (to_ vec)))).
  { intros A B. unfold lplus. rewrite flat_map_app. intros H. apply NoDup_app_inv in H. tauto. }
  destruct ip; cbn [CG] in *.
  - intros nx I m HW. pose proof (WI_ol _ _ _ _ _ HW) as HO.
    assert (N2 : NoDup (map fst (xo X1) ++ map fst (xo X2))) by (eapply Permutation_NoDup; [exact Po|apply HW]).
    apply NoDup_app_inv in N2 as (N2 & N3 & _).
    assert (W1 : WI nx I X1 fp vec).
    { destruct HW as [W1 W2 W3 W4 W5 W6 W7 W8]. constructor; auto.
      - intros z Hz. auto.
      - intros z Hz. apply W7. eapply Permutation_in; [symmetry; exact Po|]. apply in_app_iff; auto. }
    assert (W2 : WI nx I X2 fp vec).
    { destruct HW as [W1' W2 W3 W4 W5 W6 W7 W8]. constructor; auto.
      - rewrite Hi2. constructor.
      - rewrite Hi2. intros z [].
      - intros z Hz. apply W7. eapply Permutation_in; [symmetry; exact Po|]. apply in_app_iff; auto. }
    destruct (C1 nx I m W1) as [V1 F1]. destruct (C2 nx I (f1 nx I I m) W2) as [V2 F2].
    eapply two_steps; eauto. apply HW.
  - intros nx I O m HW.
    assert (HO : NoDup (ol X vec)) by apply HW.
    assert (HO' : NoDup (lplus (map fst (xo X1) ++ map fst (xo X2)) (locs (to_ vec)))).
    { eapply Permutation_NoDup; [|exact HO]. unfold ol. now apply lplus_perm_l. }
    apply P2 in HO' as [HO1 HO2].
    assert (Io : forall o, In o (ol X1 vec) \/ In o (ol X2 vec) -> In o (ol X vec)).
    { intros o H. eapply Permutation_in; [symmetry; unfold ol; apply (lplus_perm_l _ _ _ Po)|]. unfold ol, lplus in *. rewrite flat_map_app. now apply in_app_iff. }
    assert (Ii : forall o, In o (il X1 vec) -> In o (il X vec)).
    { intros o H. apply in_il_inv in H as (a & b & y & Hab & Hy & ->). eapply in_il_intro; eauto. }
    assert (W2 : Wf nx false I O X2 vec).
    { destruct HW as [W1 W2 W3 W4 W5 W6]. constructor; auto.
      - unfold il. rewrite Hi2. constructor.
      - intros l (z & Hz & _). unfold il in Hz. rewrite Hi2 in Hz. destruct Hz. }
    assert (W1 : Wf nx false I O X1 vec).
    { destruct HW as [W1 W2' W3 W4 W5 W6]. constructor; auto.
      - destruct (locs (ti vec)) as [|v V] eqn:EV.
        { unfold il. rewrite EV. clear. induction (xi X1); [constructor|exact IHl]. }
        unfold il in *. rewrite EV in *. eapply lplus_NoDup_incl; [|exact Hi1|exact W4]. apply HN1.
        clear - W4. pose proof (Permutation_NoDup (lplus_comm _ _) W4) as H. change (lplus (v :: V) (xi X)) with (map (Z.add v) (xi X) ++ lplus V (xi X)) in H.
        apply NoDup_app_inv in H as (H & _ & _). now apply NoDup_map_inv in H.
      - intros l Hl Hl'. apply (W6 l); [eapply InP_incl; [exact Ii|exact Hl]|eapply InP_incl; [|exact Hl']; intros z Hz; apply Io; auto]. }
    destruct (C1 nx I O m W1) as [V1 F1]. destruct (C2 nx I O (f1 nx I O m) W2) as [V2 F2].
    eapply two_steps; eauto. apply HW.
Qed.

(** ** A complex transform in place after or before *)
Lemma CG_after ip nd nd2 X fp vec X1 fp1 v1 X2 v2 f1 f2 :
  (nnegd vec -> nnegd v1) -> (nnegd vec -> nnegd v2) ->
  Permutation (il X vec) (il X1 v1) -> Permutation (ol X vec) (ol X1 v1) ->
  Permutation (ol X vec) (il X2 v2) -> Permutation (ol X vec) (ol X2 v2) ->
  (ip = true -> forall nx I, WI nx I X fp vec -> WI nx I X1 fp1 v1) ->
  (forall I O m m1 m2, vals X1 v1 I O m m1 -> vals X2 v2 O O m1 m2 -> vals X vec I O m m2) ->
  CG ip nd X1 fp1 v1 f1 -> Correct nd2 true X2 v2 f2 ->
  CG ip nd X fp vec (fun nx I O m => f2 nx O O (f1 nx I O m)).
Proof.
  intros N1 N2 Pi Po Qi Qo HWW HV C1 C2. destruct ip; cbn [CG] in *; [|exact (Correct_after nd nd2 false X vec X1 v1 X2 v2 f1 f2 N1 N2 Pi Po Qi Qo HV C1 C2)].
  intros nx I m HW. destruct (C1 nx I m (HWW eq_refl nx I HW)) as [V1 F1]. set (m1 := f1 nx I I m) in *.
  pose proof (WI_ol _ _ _ _ _ HW) as HO.
  destruct (C2 nx I I m1) as [V2 F2].
  { constructor; try apply HW.
    - apply N2, HW.
    - eapply Permutation_NoDup; [exact Qi|auto].
    - eapply Permutation_NoDup; [exact Qo|auto].
    - split; auto. intros o. pose proof (Permutation_trans (Permutation_sym Qi) Qo) as PP; split; apply Permutation_in; [exact PP|exact (Permutation_sym PP)]. }
  split; [eapply HV; eauto|]. intros l Hl Ho [Hi|Hi]; [discriminate|].
  rewrite F2; [apply F1|..]; auto.
  - intros C. apply Ho. eapply InP_perm; [symmetry; exact Po|exact C].
  - right. intros C. apply Hi. eapply InP_perm; [symmetry; exact Pi|exact C].
  - intros C. apply Ho. eapply InP_perm; [symmetry; exact Qo|exact C].
  - right. intros C. apply Ho. eapply InP_perm; [symmetry; exact Qi|exact C].
Qed.
Lemma CG_before ip nd nd1 X fp vec X1 v1 X2 fp2 v2 f1 f2 : (ip = true \/ nd = false) ->
  (nnegd vec -> nnegd v1) -> (nnegd vec -> nnegd v2) ->
  Permutation (il X vec) (il X1 v1) -> Permutation (il X vec) (ol X1 v1) ->
  Permutation (il X vec) (il X2 v2) -> Permutation (ol X vec) (ol X2 v2) ->
  (ip = true -> forall nx I, WI nx I X fp vec -> WI nx I X2 fp2 v2) ->
  (forall I O m m1 m2, vals X1 v1 I I m m1 -> vals X2 v2 I O m1 m2 -> vals X vec I O m m2) ->
  Correct nd1 true X1 v1 f1 -> CG ip nd X2 fp2 v2 f2 ->
  CG ip nd X fp vec (fun nx I O m => f2 nx I O (f1 nx I I m)).
Proof.
  intros Hnd N1 N2 Pi Po Qi Qo HWW HV C1 C2. destruct ip; cbn [CG] in *; [|exact (Correct_before nd nd1 false X vec X1 v1 X2 v2 f1 f2 Hnd N1 N2 Pi Po Qi Qo HV C1 C2)].
  intros nx I m HW. pose proof (WI_il _ _ _ _ _ HW) as HI.
  destruct (C1 nx I I m) as [V1 F1].
  { constructor; try apply HW.
    - apply N1, HW.
    - eapply Permutation_NoDup; [exact Pi|auto].
    - eapply Permutation_NoDup; [exact Po|auto].
    - split; auto. intros o. pose proof (Permutation_trans (Permutation_sym Pi) Po) as PP; split; apply Permutation_in; [exact PP|exact (Permutation_sym PP)]. }
  set (m1 := f1 nx I I m) in *. destruct (C2 nx I m1 (HWW eq_refl nx I HW)) as [V2 F2].
  split; [eapply HV; eauto|]. intros l Hl Ho [Hi|Hi]; [discriminate|].
  rewrite F2; [apply F1|..]; auto.
  - intros C. apply Hi. eapply InP_perm; [symmetry; exact Po|exact C].
  - right. intros C. apply Hi. eapply InP_perm; [symmetry; exact Pi|exact C].
  - intros C. apply Ho. eapply InP_perm; [symmetry; exact Qo|exact C].
  - right. intros C. apply Hi. eapply InP_perm; [symmetry; exact Qi|exact C].
Qed.

(** ** Blocks in any order *)
Lemma CorrectI_cut X fp vec n s nthr fs ord : xwf X -> 0 < n -> 0 < nthr ->
  Permutation ord (zr (thr_nb n nthr)) ->
  (forall j, 0 <= j < thr_nb n nthr -> CorrectI X fp (mkdim (thr_cnt n nthr j) s s :: vec) (fs j)) ->
  CorrectI X fp (mkdim n s s :: vec) (thr_vrank_apply n s s nthr fs ord).
Proof.
  intros HX Hn Ht HP HC nx I m HW.
  set (bs := thr_bs n nthr). set (pv := fun j => mkdim (thr_cnt n nthr j) s s :: vec). set (Ip := fun j => sh I (j * (s * bs))).
  assert (Hin : forall j, In j ord <-> 0 <= j < thr_nb n nthr).
  { intros j. rewrite <- in_zr. split; apply Permutation_in; [auto|now symmetry]. }
  assert (EI : forall j, Ip j = sh I (j * bs * s)) by (intros; unfold Ip; f_equal; ring).
  assert (HWj : forall j, 0 <= j < thr_nb n nthr -> WI nx (Ip j) X fp (pv j)).
  { intros j Hj. rewrite EI. destruct (thr_block n nthr j Hn Ht Hj) as (B1 & B2 & B3). eapply WI_piece; [exact HW|..]; unfold bs; lia. }
  assert (Ai : forall j l, 0 <= j < thr_nb n nthr -> InP (Ip j) (il X (pv j)) l -> InP (Ip j) (il (xf fp) (pv j)) l).
  { intros j l Hj. apply InP_incl. intros o. apply fp_i. eapply wi_fi. eauto. }
  assert (Ao : forall j l, 0 <= j < thr_nb n nthr -> InP (Ip j) (ol X (pv j)) l -> InP (Ip j) (il (xf fp) (pv j)) l).
  { intros j l Hj. pose proof (HWj j Hj) as [Q1 Q2 Q3 Q4 Q5 Q6 Q7 Q8]. apply InP_incl. intros o. now apply fp_o. }
  assert (D : forall j k l, 0 <= j < thr_nb n nthr -> 0 <= k < thr_nb n nthr -> j <> k ->
     InP (Ip j) (il (xf fp) (pv j)) l -> InP (Ip k) (il (xf fp) (pv k)) l -> False).
  { assert (D' : forall j k l, 0 <= j < thr_nb n nthr -> 0 <= k < thr_nb n nthr -> j < k ->
     InP (Ip j) (il (xf fp) (pv j)) l -> InP (Ip k) (il (xf fp) (pv k)) l -> False).
    { intros j k l Hj Hk Hlt. rewrite !EI. destruct (thr_block n nthr j Hn Ht Hj) as (B1 & B2 & B3), (thr_block n nthr k Hn Ht Hk) as (D1 & D2 & D3).
      pose proof (thr_sep n nthr j k Hn Ht ltac:(lia) ltac:(lia)) as Q.
      apply (fp_disj fp vec I n s (j * bs) (thr_cnt n nthr j) (k * bs) (thr_cnt n nthr k) l); try (unfold bs; lia). apply HW. }
    intros j k l Hj Hk Hne A B. destruct (Z_lt_le_dec j k); [apply (D' j k l); auto|apply (D' k j l); auto; lia]. }
  assert (PS : Pieces nx (fun _ => X) pv Ip Ip ord).
  { constructor; auto.
    - eapply Permutation_NoDup; [symmetry; exact HP|apply NoDup_zr].
    - intros j Hj. unfold Ip. rewrite sh_blk. apply HW.
    - intros j Hj. unfold Ip. rewrite sh_blk. apply HW.
    - intros j k l Hj Hk Hne A B. apply Hin in Hj, Hk. apply (D j k l); auto; apply Ao; auto.
    - intros j k l Hj Hk Hne A B. apply Hin in Hj, Hk. apply (D j k l); auto.
    - intros j k l Hj Hk Hne A B. apply Hin in Hj, Hk. apply (D j k l); auto; apply Ai; auto. }
  destruct (pieces_any_order nx false _ _ _ _ (fun j => fs j nx (Ip j) (Ip j)) ord PS) with (m := m) as [V F].
  { intros j Hj m1. apply Hin in Hj. apply (HC j Hj). now apply HWj. }
  split.
  - apply (cut_vals I I X vec n s s nthr bs (thr_nb n nthr) HX Hn Ht eq_refl eq_refl). intros j Hj. apply V. now apply Hin.
  - apply (cut_frame nx I I X vec n s s nthr bs (thr_nb n nthr) Hn Ht eq_refl eq_refl). intros l Hl Ho Hi. apply F; auto.
    + intros j Hj. apply Ho. now apply Hin.
    + destruct Hi as [Hi|Hi]; [discriminate|]. right. intros j Hj. apply Hi. now apply Hin.
Qed.
Lemma CG_cut ip nd X fp vec n s u nthr fs ord : xwf X -> 0 < n -> 0 < nthr ->
  Permutation ord (zr (thr_nb n nthr)) ->
  (forall j, 0 <= j < thr_nb n nthr -> CG ip nd X fp (mkdim (thr_cnt n nthr j) s u :: vec) (fs j)) ->
  CG ip nd X fp (mkdim n s u :: vec) (thr_vrank_apply n s u nthr fs ord).
Proof.
  intros HX Hn Ht HP HC. destruct ip; cbn [CG] in *.
  - destruct (Z.eq_dec s u) as [->|N]; [now apply CorrectI_cut|]. apply CorrectI_vac. intros H. inversion H; subst. cbn in *. auto.
  - apply Correct_cut; auto. discriminate.
Qed.
