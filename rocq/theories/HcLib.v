(** * In-place steps on the cells of an array (proof library) *)
From Coq Require Import Reals ZArith List Lia Lra Bool Permutation.
From Verif Require Import NumTheory Cplx Spec SpecR2R TensorModel Offs TensorProofs XForm XKern XSeq DftModel DftTw DftTw2.
Import ListNotations.
Open Scope Z_scope.

(** cell p, at s p, becomes [G p] of the old cells *)
Definition xp (ps : list Z) (s : Z -> Z) (G : Z -> (Z -> R) -> R) : xform :=
  mkX (map (fun p => s p) ps) (map (fun p => (s p, fun x => G p (fun q => x (s q)))) ps).
Definition local (ps : list Z) (G : Z -> (Z -> R) -> R) : Prop :=
  forall p, In p ps -> forall x y, (forall q, In q ps -> x q = y q) -> G p x = G p y.

Lemma xp_wf ps s G : local ps G -> xwf (xp ps s G).
Proof.
  intros H o F HF x y E. cbn in *. apply in_map_iff in HF as (p & E' & Hp). injection E' as <- <-.
  apply H; auto. intros q Hq. apply E. apply in_map_iff. eauto.
Qed.
Lemma xp_fst ps s G : map fst (xo (xp ps s G)) = map (fun p => s p) ps.
Proof. cbn. rewrite map_map. reflexivity. Qed.
Lemma il_xp ps s G vec : il (xp ps s G) vec = lplus (map (fun p => s p) ps) (locs (ti vec)).
Proof. reflexivity. Qed.
Lemma ol_xp ps s G vec : ol (xp ps s G) vec = lplus (map (fun p => s p) ps) (locs (to_ vec)).
Proof. unfold ol. now rewrite xp_fst. Qed.
Lemma vals_xp ps s G vec I O m m' : vals (xp ps s G) vec I O m m' <->
  forall a b, In (a, b) (offs vec) -> forall p, In p ps -> m' (sh O (b + s p)) = G p (fun q => m (sh I (a + s q))).
Proof.
  unfold vals. split.
  - intros H a b Hab p Hp. exact (H a b Hab (s p) _ (in_map (fun p => (s p, fun x => G p (fun q => x (s q)))) ps p Hp)).
  - intros H a b Hab o F HF. cbn in HF. apply in_map_iff in HF as (p & E & Hp). injection E as <- <-. now apply H.
Qed.
Lemma xp_app A B s G : xapp (xp A s G) (xp B s G) = xp (A ++ B) s G.
Proof. unfold xapp, xp. cbn. now rewrite !map_app. Qed.
Lemma xp_cat n ps s G : xcat n (fun i => xp (ps i) s G) = xp (flat_map ps (zr n)) s G.
Proof. unfold xcat, xp. cbn. f_equal; now rewrite map_flat_map. Qed.

Section Vec.
  Variable vec : list iodim.
  Hypothesis Hvec : ti vec = to_ vec.
  Hypothesis Hoff : forall a b, In (a, b) (offs vec) -> a = b.

  Lemma same_xp ps s G : same_set (xp ps s G) vec.
  Proof. intros o. rewrite il_xp, ol_xp, Hvec. reflexivity. Qed.
  Lemma CW_ext X w w' : (forall nx p m, w nx p m = w' nx p m) -> CorrectW X vec w -> CorrectW X vec w'.
  Proof. intros E. apply Correct_ext. intros. apply E. Qed.
  Lemma CW_sim ps ps' s G G' w : Permutation ps ps' -> (forall p, In p ps -> forall x, G p x = G' p x) ->
    CorrectW (xp ps' s G') vec w -> CorrectW (xp ps s G) vec w.
  Proof.
    intros P E. apply Correct_sim; auto. split; [|split].
    - cbn. now apply Permutation_map.
    - rewrite !xp_fst. now apply Permutation_map.
    - intros o F HF. cbn in HF. apply in_map_iff in HF as (p & E' & Hp). injection E' as <- <-.
      exists (fun x => G' p (fun q => x (s q))). split; [|intros; now apply E].
      apply in_map_iff. exists p. split; auto. eapply Permutation_in; eauto.
  Qed.
  Lemma CW_nil s G : CorrectW (xp [] s G) vec (fun _ _ m => m).
  Proof. apply Correct_nil. Qed.
  Lemma CW_app A B s G w1 w2 : local B G -> CorrectW (xp A s G) vec w1 -> CorrectW (xp B s G) vec w2 ->
    CorrectW (xp (A ++ B) s G) vec (fun nx p m => w2 nx p (w1 nx p m)).
  Proof.
    intros HB H1 H2. unfold CorrectW. rewrite <- xp_app.
    apply (Correct_xapp true true (xp A s G) (xp B s G) vec (fun nx I O m => w1 nx O m) (fun nx I O m => w2 nx O m)); auto.
    - now apply xp_wf.
    - intros _. split; apply same_xp.
  Qed.
  Lemma CW_for n ps s G w : (forall i, 0 <= i < n -> local (ps i) G) ->
    (forall i, 0 <= i < n -> CorrectW (xp (ps i) s G) vec (w i)) ->
    CorrectW (xp (flat_map ps (zr n)) s G) vec (fun nx p m => zfor n (fun i => w i nx p) m).
  Proof.
    intros HL HW. unfold CorrectW. rewrite <- xp_cat.
    apply (Correct_xfor true true n (fun i => xp (ps i) s G) vec (fun i nx I O m => w i nx O m)).
    - intros i Hi. apply xp_wf. auto.
    - intros _ i Hi. apply same_xp.
    - intros i Hi. exact (HW i Hi).
  Qed.
  Lemma CW_comp ps s G1 G2 w1 w2 : local ps G2 -> CorrectW (xp ps s G1) vec w1 -> CorrectW (xp ps s G2) vec w2 ->
    CorrectW (xp ps s (fun p x => G2 p (fun q => G1 q x))) vec (fun nx p m => w2 nx p (w1 nx p m)).
  Proof.
    intros HL H1 H2.
    refine (Correct_after true true true _ vec (xp ps s G1) vec (xp ps s G2) vec (fun nx I O m => w1 nx O m) (fun nx I O m => w2 nx O m)
      _ _ _ _ _ _ _ H1 H2); auto.
    - rewrite !ol_xp. reflexivity.
    - rewrite ol_xp, il_xp, Hvec. reflexivity.
    - rewrite !ol_xp. reflexivity.
    - intros I O m m1 m2. rewrite !vals_xp. intros V1 V2 a b Hab p Hp.
      rewrite (V2 b b) by (auto; rewrite <- (Hoff a b Hab) at 1; auto).
      apply HL; auto.
  Qed.
  (** cells that do not change *)
  Lemma CW_pad A B s G w : (forall p, In p B -> forall x, G p x = x p) ->
    CorrectW (xp A s G) vec w -> CorrectW (xp (A ++ B) s G) vec w.
  Proof.
    intros HB H nx I O m [W1 W2 W3 W4 W5 W6]. destruct W6 as [-> W6].
    rewrite il_xp, map_app, lplus_app_l in W4. rewrite ol_xp, map_app, lplus_app_l in W5.
    apply NoDup_app_inv in W4 as (N1 & _ & _). apply NoDup_app_inv in W5 as (N2 & _ & N3).
    destruct (H nx O O m) as [V F].
    { constructor; auto.
      - now rewrite ol_xp.
      - split; auto. apply same_xp. }
    split.
    - rewrite vals_xp. intros a b Hab p Hp. apply in_app_or in Hp as [Hp|Hp].
      + rewrite vals_xp in V. now apply V.
      + rewrite HB by auto. rewrite (Hoff a b Hab).
        assert (NI : ~ InP O (ol (xp A s G) vec) (sh O (b + s p))).
        { rewrite InP_in. intros C. rewrite ol_xp in C.
          apply (N3 _ C).
          apply in_lplus. exists (s p), b. split; [apply in_map_iff; eauto|]. split; [|ring].
          rewrite <- olocs_offs. apply in_map_iff. exists (a, b). auto. }
        apply F; auto.
    - intros l Hl Ho Hi. apply F; auto.
      intros C. apply Ho. eapply InP_incl; [|exact C]. intros o. rewrite !ol_xp, map_app, lplus_app_l. intros HH. apply in_or_app. now left.
  Qed.
End Vec.
