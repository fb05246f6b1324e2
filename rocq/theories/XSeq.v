(** * Sequencing execution functions (proof library): two-stage algorithms,
    loops whose iterations perform different transforms, shifted pointers. *)
From Coq Require Import Reals ZArith List Lia Bool Permutation.
From Verif Require Import NumTheory Cplx Spec TensorModel Offs TensorProofs XForm XKern CopyProofs.
Import ListNotations.
Open Scope Z_scope.

(** First I -> O, then in place on O. *)
Lemma Correct_after nd nd2 ip X vec X1 v1 X2 v2 f1 f2 :
  (nnegd vec -> nnegd v1) -> (nnegd vec -> nnegd v2) ->
  Permutation (il X vec) (il X1 v1) -> Permutation (ol X vec) (ol X1 v1) ->
  Permutation (ol X vec) (il X2 v2) -> Permutation (ol X vec) (ol X2 v2) ->
  (forall I O m m1 m2, vals X1 v1 I O m m1 -> vals X2 v2 O O m1 m2 -> vals X vec I O m m2) ->
  Correct nd ip X1 v1 f1 -> Correct nd2 true X2 v2 f2 ->
  Correct nd ip X vec (fun nx I O m => f2 nx O O (f1 nx I O m)).
Proof.
  intros N1 N2 Pi Po Qi Qo HV C1 C2 nx I O m HW.
  assert (Hv := wf_vec _ _ _ _ _ _ HW).
  destruct (C1 nx I O m) as [V1 F1]; [eapply Wf_perm; eauto|]. set (m1 := f1 nx I O m) in *.
  destruct (C2 nx O O m1) as [V2 F2].
  { constructor; auto; try apply HW.
    - eapply Permutation_NoDup; [exact Qi|apply HW].
    - eapply Permutation_NoDup; [exact Qo|apply HW].
    - split; auto. intros o. split; apply Permutation_in; [now rewrite <- Qi|now rewrite <- Qo]. }
  set (m2 := f2 nx O O m1) in *.
  split; [now apply (HV I O m m1 m2)|].
  intros l Hl Ho Hi. transitivity (m1 l).
  - apply F2; auto.
    + intros C. apply Ho. eapply InP_perm; [symmetry; exact Qo|exact C].
    + right. intros C. apply Ho. eapply InP_perm; [symmetry; exact Qi|exact C].
  - apply (frame_perm nx nd I O X X1 vec v1 m m1 Pi Po F1); auto.
Qed.

(** First in place on I, then I -> O: destroys the input unless it is the output. *)
Lemma Correct_before nd nd1 ip X vec X1 v1 X2 v2 f1 f2 : (ip = true \/ nd = false) ->
  (nnegd vec -> nnegd v1) -> (nnegd vec -> nnegd v2) ->
  Permutation (il X vec) (il X1 v1) -> Permutation (il X vec) (ol X1 v1) ->
  Permutation (il X vec) (il X2 v2) -> Permutation (ol X vec) (ol X2 v2) ->
  (forall I O m m1 m2, vals X1 v1 I I m m1 -> vals X2 v2 I O m1 m2 -> vals X vec I O m m2) ->
  Correct nd1 true X1 v1 f1 -> Correct nd ip X2 v2 f2 ->
  Correct nd ip X vec (fun nx I O m => f2 nx I O (f1 nx I I m)).
Proof.
  intros Hnd N1 N2 Pi Po Qi Qo HV C1 C2 nx I O m HW.
  assert (Hv := wf_vec _ _ _ _ _ _ HW).
  destruct (C1 nx I I m) as [V1 F1].
  { constructor; auto; try apply HW.
    - eapply Permutation_NoDup; [exact Pi|apply HW].
    - eapply Permutation_NoDup; [exact Po|apply HW].
    - split; auto. intros o. split; apply Permutation_in; [now rewrite <- Pi|now rewrite <- Po]. }
  set (m1 := f1 nx I I m) in *.
  destruct (C2 nx I O m1) as [V2 F2]; [eapply Wf_perm; eauto|]. set (m2 := f2 nx I O m1) in *.
  split; [now apply (HV I O m m1 m2)|].
  intros l Hl Ho Hi.
  assert (NI : ~ InP I (il X vec) l).
  { destruct Hnd as [->| ->].
    - pose proof (wf_x _ _ _ _ _ _ HW) as (-> & E). intros (o & H & ->). apply Ho. apply InP_intro. now apply E.
    - destruct Hi as [H|H]; [discriminate|auto]. }
  transitivity (m1 l).
  - apply (frame_perm nx nd I O X X2 vec v2 m1 m2 Qi Qo F2); auto.
  - apply F1; auto.
    + intros C. apply NI. eapply InP_perm; [symmetry; exact Po|exact C].
    + right. intros C. apply NI. eapply InP_perm; [symmetry; exact Pi|exact C].
Qed.

(** ** Independent pieces *)
Definition xapp (X Y : xform) : xform := mkX (xi X ++ xi Y) (xo X ++ xo Y).
Lemma il_xapp X Y vec : il (xapp X Y) vec = il X vec ++ il Y vec.
Proof. unfold il, xapp. cbn [xi]. apply lplus_app_l. Qed.
Lemma ol_xapp X Y vec : ol (xapp X Y) vec = ol X vec ++ ol Y vec.
Proof. unfold ol, xapp. cbn [xo]. rewrite map_app. apply lplus_app_l. Qed.
Lemma xapp_wf X Y : xwf X -> xwf Y -> xwf (xapp X Y).
Proof.
  intros HX HY o F H x y E. unfold xapp in H. cbn in H, E. apply in_app_iff in H as [H|H].
  - eapply HX; eauto. intros z Hz. apply E. apply in_app_iff. auto.
  - eapply HY; eauto. intros z Hz. apply E. apply in_app_iff. auto.
Qed.

Lemma Correct_xapp nd ip X Y vec f g : xwf Y ->
  (ip = true -> same_set X vec /\ same_set Y vec) ->
  Correct nd ip X vec f -> Correct nd ip Y vec g ->
  Correct nd ip (xapp X Y) vec (fun nx I O m => g nx I O (f nx I O m)).
Proof.
  intros HY Hs CX CY nx I O m HW. destruct HW as [W1 W2 W3 W4 W5 W6].
  rewrite il_xapp in *. rewrite ol_xapp in *.
  apply NoDup_app_inv in W4 as (NiX & NiY & Di). apply NoDup_app_inv in W5 as (NoX & NoY & Do).
  assert (WX : Wf nx ip I O X vec).
  { constructor; auto. destruct ip.
    - split; [apply W6|]. intros o. apply Hs. reflexivity.
    - intros l A B. apply (W6 l); eapply InP_incl; try eassumption; intros o Ho; apply in_app_iff; auto. }
  assert (WY : Wf nx ip I O Y vec).
  { constructor; auto. destruct ip.
    - split; [apply W6|]. intros o. apply Hs. reflexivity.
    - intros l A B. apply (W6 l); eapply InP_incl; try eassumption; intros o Ho; apply in_app_iff; auto. }
  destruct (CX nx I O m WX) as [VX FX]. set (m1 := f nx I O m) in *.
  destruct (CY nx I O m1 WY) as [VY FY]. set (m2 := g nx I O m1) in *.
  (* the cells of X and of Y are disjoint *)
  assert (Doi : forall l, InP O (ol X vec) l -> InP I (il Y vec) l -> False).
  { intros l (o & Ho & ->) (o' & Ho' & E). destruct (Bool.bool_dec ip true) as [E1|E1].
    - rewrite E1 in W6. destruct W6 as [EI _]. rewrite EI in E. apply sh_inj in E. subst o'.
      destruct (Hs E1) as [_ S2]. apply S2 in Ho'. exact (Do o Ho Ho').
    - apply Bool.not_true_is_false in E1. rewrite E1 in W6. apply (W6 (sh O o)).
      + rewrite E. apply InP_intro, in_app_iff. auto.
      + apply InP_intro, in_app_iff. auto. }
  assert (Dio : forall l, InP I (il X vec) l -> InP O (ol Y vec) l -> False).
  { intros l (o & Ho & ->) (o' & Ho' & E). destruct (Bool.bool_dec ip true) as [E1|E1].
    - rewrite E1 in W6. destruct W6 as [EI _]. rewrite EI in E. apply sh_inj in E. subst o'.
      destruct (Hs E1) as [S1 _]. apply S1 in Ho. exact (Do o Ho Ho').
    - apply Bool.not_true_is_false in E1. rewrite E1 in W6. apply (W6 (sh I o)).
      + apply InP_intro, in_app_iff. auto.
      + rewrite E. apply InP_intro, in_app_iff. auto. }
  assert (Dii : forall l, InP I (il X vec) l -> InP I (il Y vec) l -> False).
  { intros l (o & Ho & ->) (o' & Ho' & E). apply sh_inj in E. subst. eapply Di; eauto. }
  assert (Doo : forall l, InP O (ol X vec) l -> InP O (ol Y vec) l -> False).
  { intros l (o & Ho & ->) (o' & Ho' & E). apply sh_inj in E. subst. eapply Do; eauto. }
  split.
  - intros a b Hab o F HF. unfold xapp in HF. cbn [xo] in HF. apply in_app_iff in HF as [HF|HF].
    + rewrite <- (VX a b Hab o F HF). apply FY.
      * rewrite sh_blk. auto.
      * intros C. eapply Doo; [|exact C]. apply InP_intro. eapply in_ol_intro; eauto.
      * right. intros C. eapply Doi; [|exact C]. apply InP_intro. eapply in_ol_intro; eauto.
    + rewrite (VY a b Hab o F HF). eapply HY; [exact HF|]. intros z Hz. apply FX.
      * rewrite sh_blk. auto.
      * intros C. eapply Doi; [exact C|]. apply InP_intro. eapply in_il_intro; eauto.
      * right. intros C. eapply Dii; [exact C|]. apply InP_intro. eapply in_il_intro; eauto.
  - intros l Hl Ho Hi. rewrite il_xapp in Hi. rewrite ol_xapp in Ho. transitivity (m1 l).
    + apply FY; auto.
      * intros C. apply Ho. eapply InP_incl; [|exact C]. intros o ?. apply in_app_iff. auto.
      * destruct Hi as [Hi|Hi]; [auto|right]. intros C. apply Hi. eapply InP_incl; [|exact C]. intros o ?. apply in_app_iff. auto.
    + apply FX; auto.
      * intros C. apply Ho. eapply InP_incl; [|exact C]. intros o ?. apply in_app_iff. auto.
      * destruct Hi as [Hi|Hi]; [auto|right]. intros C. apply Hi. eapply InP_incl; [|exact C]. intros o ?. apply in_app_iff. auto.
Qed.

(** for (i = 0; i < n; ++i) f(i), where f(i) performs X(i) *)
Definition xcat (n : Z) (X : Z -> xform) : xform :=
  mkX (flat_map (fun i => xi (X i)) (zr n)) (flat_map (fun i => xo (X i)) (zr n)).
Lemma flat_map_app_r {A B} (f : A -> list B) a b : flat_map f (a ++ b) = flat_map f a ++ flat_map f b.
Proof. induction a; cbn; [auto|]. now rewrite IHa, app_assoc. Qed.
Lemma xcat_succ n X : 0 <= n -> xcat (n + 1) X = xapp (xcat n X) (X n).
Proof.
  intros Hn. unfold xcat, xapp. cbn [xi xo]. rewrite zr_succ by auto. rewrite !flat_map_app_r. cbn. now rewrite !app_nil_r.
Qed.
Lemma xcat_wf n X : (forall i, 0 <= i < n -> xwf (X i)) -> xwf (xcat n X).
Proof.
  intros H o F HF x y E. cbn in *. apply in_flat_map in HF as (i & Hi & HF).
  eapply (H i); [now apply in_zr|exact HF|]. intros z Hz. apply E. apply in_flat_map. eauto.
Qed.
Lemma in_il_xcat n X vec o : In o (il (xcat n X) vec) <-> exists i, 0 <= i < n /\ In o (il (X i) vec).
Proof.
  unfold il. rewrite in_lplus. cbn. split.
  - intros (p & q & Hp & Hq & ->). apply in_flat_map in Hp as (i & Hi & Hp). exists i. split; [now apply in_zr|].
    apply in_lplus. eauto.
  - intros (i & Hi & H). apply in_lplus in H as (p & q & Hp & Hq & ->). exists p, q. split; auto.
    apply in_flat_map. exists i. split; [now apply in_zr|auto].
Qed.
Lemma in_ol_xcat n X vec o : In o (ol (xcat n X) vec) <-> exists i, 0 <= i < n /\ In o (ol (X i) vec).
Proof.
  unfold ol. rewrite in_lplus. cbn. split.
  - intros (p & q & Hp & Hq & ->). apply in_map_iff in Hp as ([o F] & <- & Hp). apply in_flat_map in Hp as (i & Hi & Hp).
    exists i. split; [now apply in_zr|]. apply in_lplus. exists o, q. split; auto. apply in_map_iff. exists (o, F). auto.
  - intros (i & Hi & H). apply in_lplus in H as (p & q & Hp & Hq & ->). exists p, q. split; auto.
    apply in_map_iff in Hp as ([o F] & <- & Hp). apply in_map_iff. exists (o, F). split; auto.
    apply in_flat_map. exists i. split; [now apply in_zr|auto].
Qed.
Lemma Correct_nil nd ip vec : Correct nd ip (mkX [] []) vec (fun _ _ _ m => m).
Proof. intros nx I O m HW. split; [intros a b Hab o F []|]. intros l _ _ _. reflexivity. Qed.

Lemma Correct_xfor nd ip n X vec f : 
  (forall i, 0 <= i < n -> xwf (X i)) -> (ip = true -> forall i, 0 <= i < n -> same_set (X i) vec) ->
  (forall i, 0 <= i < n -> Correct nd ip (X i) vec (f i)) ->
  Correct nd ip (xcat n X) vec (fun nx I O m => zfor n (fun i => f i nx I O) m).
Proof.
  intros Hw Hs HC. destruct (Z_le_gt_dec n 0) as [Hn|Hn].
  { unfold xcat. rewrite zr_neg by auto. eapply Correct_ext; [|apply Correct_nil]. intros. cbn. now rewrite zfor_neg. }
  assert (G : forall k, 0 <= k -> k <= n -> Correct nd ip (xcat k X) vec (fun nx I O m => zfor k (fun i => f i nx I O) m)).
  { intros k Hk. pattern k. apply natlike_ind; [| |exact Hk].
    - intros _. eapply Correct_ext; [|apply Correct_nil]. intros. reflexivity.
    - intros j Hj IH Hle. rewrite <- Z.add_1_r, xcat_succ by auto.
      eapply Correct_ext with (f := fun nx I O m => f j nx I O (zfor j (fun i => f i nx I O) m)).
      { intros. now rewrite zfor_succ. }
      apply (Correct_xapp nd ip (xcat j X) (X j) vec (fun nx I O m => zfor j (fun i => f i nx I O) m) (f j)).
      + apply Hw. lia.
      + intros E. split; [|apply Hs; auto; lia]. intros o. rewrite in_il_xcat, in_ol_xcat.
        split; intros (i & Hi & H); exists i; (split; [auto|]); apply (Hs E i); auto; lia.
      + apply IH. lia.
      + apply HC. lia. }
  apply G; lia.
Qed.

(** ** Shifted pointers *)
Definition xshift (a b : Z) (X : xform) : xform :=
  mkX (map (Z.add a) (xi X)) (map (fun oF => (b + fst oF, fun x => snd oF (fun z => x (a + z)))) (xo X)).
Lemma il_xshift a b X vec : il (xshift a b X) vec = map (Z.add a) (il X vec).
Proof. unfold il. cbn [xi xshift]. apply lplus_shift_l. Qed.
Lemma ol_xshift a b X vec : ol (xshift a b X) vec = map (Z.add b) (ol X vec).
Proof.
  unfold ol. cbn [xo xshift]. rewrite <- lplus_shift_l. f_equal. rewrite !map_map. reflexivity.
Qed.
Lemma xshift_wf a b X : xwf X -> xwf (xshift a b X).
Proof.
  intros H o F HF x y E. cbn in *. apply in_map_iff in HF as ([o' F'] & E' & HF). injection E' as <- <-. cbn.
  eapply H; [exact HF|]. intros z Hz. apply E. now apply in_map.
Qed.
Lemma same_set_xshift a X vec : same_set (xshift a a X) vec <-> same_set X vec.
Proof.
  unfold same_set. rewrite il_xshift, ol_xshift. split; intros H o.
  - specialize (H (a + o)). rewrite !in_map_iff in H. split; intros Ho.
    + destruct (proj1 H) as (x & E & Hx); [eauto|]. assert (x = o) by lia. now subst.
    + destruct (proj2 H) as (x & E & Hx); [eauto|]. assert (x = o) by lia. now subst.
  - rewrite !in_map_iff. split; intros (x & <- & Hx); exists x; (split; [auto|]); now apply H.
Qed.
Lemma Correct_shift nd ip a b X vec f : (ip = true -> a = b) ->
  Correct nd ip X vec f -> Correct nd ip (xshift a b X) vec (fun nx I O m => f nx (sh I a) (sh O b) m).
Proof.
  intros Hab HC nx I O m [W1 W2 W3 W4 W5 W6]. rewrite il_xshift in *. rewrite ol_xshift in *.
  destruct (HC nx (sh I a) (sh O b) m) as [V F].
  { constructor; auto.
    - now apply NoDup_map_shift in W4.
    - now apply NoDup_map_shift in W5.
    - destruct ip.
      + specialize (Hab eq_refl). subst b. destruct W6 as [-> W6]. split; auto.
        intros o. specialize (W6 (a + o)). rewrite !in_map_iff in W6. split; intros Ho.
        * destruct (proj1 W6) as (x & E & Hx); [eauto|]. assert (x = o) by lia. now subst.
        * destruct (proj2 W6) as (x & E & Hx); [eauto|]. assert (x = o) by lia. now subst.
      + intros l A B. apply (W6 l); now apply InP_sh. }
  split.
  - intros p q Hpq o G HG. cbn in HG. apply in_map_iff in HG as ([o' G'] & E & HG). injection E as <- <-.
    replace (sh O (q + (b + o'))) with (sh (sh O b) (q + o')) by (rewrite sh_sh; f_equal; ring).
    rewrite (V p q Hpq o' G' HG). f_equal. apply FunctionalExtensionality.functional_extensionality. intros z.
    rewrite sh_sh. do 2 f_equal. ring.
  - intros l Hl Ho Hi. rewrite il_xshift in Hi. rewrite ol_xshift in Ho. apply F; auto.
    + intros C. apply Ho. now apply InP_sh.
    + destruct Hi as [Hi|Hi]; [auto|right]. intros C. apply Hi. now apply InP_sh.
Qed.
