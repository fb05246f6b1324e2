(** * In-place transforms whose input and output occupy different cells (proof library)

    A real array and its half-spectrum have different sizes, so an in-place rdft2
    transform reads and writes different sets of cells.  [fp] is a list of
    offsets that contains both ("footprint"); different transforms of a vector
    have disjoint footprints. *)
From Coq Require Import Reals ZArith List Lia Bool Permutation.
From Verif Require Import NumTheory Cplx Spec TensorModel Offs TensorProofs XForm XKern DftSplit.
Import ListNotations.
Open Scope Z_scope.

Definition xf (fp : list Z) : xform := mkX fp [].

Record WI (nx : nat) (I : loc) (X : xform) (fp : list Z) (vec : list iodim) : Prop := {
  wi_b : (fst I < nx)%nat;
  wi_v : nnegd vec;
  wi_e : eqst vec;
  wi_i : NoDup (xi X);
  wi_o : NoDup (map fst (xo X));
  wi_fi : incl (xi X) fp;
  wi_fo : incl (map fst (xo X)) fp;
  wi_fp : NoDup (il (xf fp) vec)
}.
Definition CorrectI (X : xform) (fp : list Z) (vec : list iodim) (f : rapply) : Prop :=
  forall nx I m, WI nx I X fp vec ->
    vals X vec I I m (f nx I I m) /\ frame nx false X vec I I m (f nx I I m).

(** correct however input and output overlap *)
Definition CorrectU (nd : bool) (X : xform) (vec : list iodim) (f : rapply) : Prop :=
  forall nx I O m, (fst I < nx)%nat -> (fst O < nx)%nat -> nnegd vec -> NoDup (il X vec) -> NoDup (ol X vec) ->
    vals X vec I O m (f nx I O m) /\ frame nx nd X vec I O m (f nx I O m).

Lemma CorrectU_Correct nd ip X vec f : CorrectU nd X vec f -> Correct nd ip X vec f.
Proof. intros H nx I O m [W1 W2 W3 W4 W5 W6]. now apply H. Qed.

Lemma fp_i X fp vec o : incl (xi X) fp -> In o (il X vec) -> In o (il (xf fp) vec).
Proof.
  intros H Ho. apply in_il_inv in Ho as (a & b & z & Hab & Hz & ->). eapply in_il_intro; eauto.
Qed.
Lemma eqst_offs vec a b : eqst vec -> In (a, b) (offs vec) -> a = b.
Proof.
  intros H. revert a b. induction H as [|d vec Hd _ IH]; intros a b Hab.
  - cbn in Hab. destruct Hab as [E|[]]. congruence.
  - apply in_offs_cons in Hab as (i & (a' & b') & Hi & Hq & E). cbn [fst snd] in E. injection E as -> ->.
    rewrite (IH _ _ Hq), Hd. reflexivity.
Qed.
Lemma fp_o X fp vec o : eqst vec -> incl (map fst (xo X)) fp -> In o (ol X vec) -> In o (il (xf fp) vec).
Proof.
  intros He H Ho. apply in_ol_inv in Ho as (a & b & z & F & Hab & Hz & ->). rewrite <- (eqst_offs _ _ _ He Hab).
  eapply in_il_intro; eauto. apply H. apply in_map_iff. now exists (z, F).
Qed.
Lemma lplus_NoDup_incl A B V : NoDup A -> incl A B -> NoDup (lplus B V) -> NoDup (lplus A V).
Proof.
  intros HA Hi HB. revert A HA Hi. induction B as [|b B IH]; intros A HA Hi.
  - destruct A as [|a A]; [constructor|]. exfalso. exact (Hi a (or_introl eq_refl)).
  - destruct (in_dec Z.eq_dec b A) as [Hb|Hb].
    + apply in_split in Hb as (l1 & l2 & ->).
      assert (P : Permutation (l1 ++ b :: l2) (b :: l1 ++ l2)) by (symmetry; apply Permutation_middle).
      eapply Permutation_NoDup; [apply lplus_perm_l; symmetry; exact P|].
      assert (HA' : NoDup (b :: l1 ++ l2)) by (eapply Permutation_NoDup; eauto). inversion HA'; subst.
      change (lplus (b :: B) V) with (map (Z.add b) V ++ lplus B V) in HB.
      change (lplus (b :: l1 ++ l2) V) with (map (Z.add b) V ++ lplus (l1 ++ l2) V).
      assert (HI2 : incl (l1 ++ l2) B).
      { intros x Hx. destruct (Hi x) as [E|E]; auto.
        - apply in_app_iff in Hx. apply in_app_iff. destruct Hx; [left|right; right]; auto.
        - subst. contradiction. }
      apply NoDup_app_inv in HB as (B1 & B2 & B3). apply NoDup_app_intro; [exact B1| |].
      * now apply IH.
      * intros x Hx1 Hx2. apply (B3 x Hx1). unfold lplus in *. apply in_flat_map in Hx2 as (y & Hy & Hx2).
        apply in_flat_map. exists y. auto.
    + apply IH; auto.
      * change (lplus (b :: B) V) with (map (Z.add b) V ++ lplus B V) in HB. apply NoDup_app_inv in HB. tauto.
      * intros x Hx. destruct (Hi x Hx) as [<-|E]; auto. contradiction.
Qed.
Lemma WI_il nx I X fp vec : WI nx I X fp vec -> NoDup (il X vec).
Proof. intros [W1 W2 W3 W4 W5 W6 W7 W8]. eapply lplus_NoDup_incl; [exact W4|exact W6|exact W8]. Qed.
Lemma WI_ol nx I X fp vec : WI nx I X fp vec -> NoDup (ol X vec).
Proof.
  intros [W1 W2 W3 W4 W5 W6 W7 W8]. unfold ol. rewrite (eqst_ti vec W3). eapply lplus_NoDup_incl; [exact W5|exact W7|exact W8].
Qed.
Lemma CorrectU_I nd X fp vec f : CorrectU nd X vec f -> CorrectI X fp vec f.
Proof.
  intros H nx I m HW. destruct (H nx I I m) as [V F]; try apply HW; [eapply WI_il; eauto|eapply WI_ol; eauto|].
  split; auto. intros l Hl Ho [Hi|Hi]; [discriminate|]. apply F; auto.
Qed.
Lemma CorrectI_ext X fp vec f g : (forall nx I O m, f nx I O m = g nx I O m) -> CorrectI X fp vec f -> CorrectI X fp vec g.
Proof. intros E H nx I m HW. rewrite <- E. now apply H. Qed.

Lemma WI_piece nx I X fp vec n s i0 n' : WI nx I X fp (mkdim n s s :: vec) -> 0 <= i0 -> 0 <= n' -> i0 + n' <= n ->
  WI nx (sh I (i0 * s)) X fp (mkdim n' s s :: vec).
Proof.
  intros [W1 W2 W3 W4 W5 W6 W7 W8] H0 H1 H2. inversion W2; subst. inversion W3; subst.
  constructor; auto; [now constructor|now constructor|].
  eapply Permutation_NoDup; [symmetry; apply il_cons_perm|]. cbn [dn dis].
  eapply NoDup_lplus_range with (i0 := i0) (n := n); eauto.
  exact (Permutation_NoDup (il_cons_perm (xf fp) (mkdim n s s) vec) W8).
Qed.
Lemma fp_disj fp vec I n s i0 n' i1 n'' l : NoDup (il (xf fp) (mkdim n s s :: vec)) ->
  0 <= i0 -> 0 <= n' -> i0 + n' <= i1 -> 0 <= n'' -> i1 + n'' <= n ->
  InP (sh I (i0 * s)) (il (xf fp) (mkdim n' s s :: vec)) l -> InP (sh I (i1 * s)) (il (xf fp) (mkdim n'' s s :: vec)) l -> False.
Proof.
  intros HN H1 H2 H3 H4 H5 (x & Hx & ->) (y & Hy & E). rewrite !sh_sh in E. apply sh_inj in E.
  apply in_il_cons in Hx as (i & o & Hi & Ho & ->), Hy as (j & o' & Hj & Ho' & ->). cbn in *.
  destruct (il_inj_cons (xf fp) (mkdim n s s) vec (i0 + i) (i1 + j) o o') as [E1 _]; auto; cbn; try lia.
Qed.

Lemma CorrectI_seq X fp vec n1 n2 s f1 f2 : xwf X -> 0 <= n1 -> 0 <= n2 ->
  CorrectI X fp (mkdim n1 s s :: vec) f1 -> CorrectI X fp (mkdim n2 s s :: vec) f2 ->
  CorrectI X fp (mkdim (n1 + n2) s s :: vec) (seq_at n1 s s f1 f2).
Proof.
  intros HX Hn1 Hn2 C1 C2 nx I m HW. unfold seq_at. set (m1 := f1 nx I I m).
  pose proof (WI_piece _ _ _ _ _ _ _ 0 n1 HW ltac:(lia) Hn1 ltac:(lia)) as WA. rewrite Z.mul_0_l, sh_0 in WA.
  pose proof (WI_piece _ _ _ _ _ _ _ n1 n2 HW ltac:(lia) Hn2 ltac:(lia)) as WB.
  destruct (C1 nx I m WA) as [V1 F1]. fold m1 in V1, F1.
  destruct (C2 nx (sh I (n1 * s)) m1 WB) as [V2 F2].
  set (m2 := f2 nx (sh I (n1 * s)) (sh I (n1 * s)) m1) in *.
  pose proof (wi_e _ _ _ _ _ WA) as EA. pose proof (wi_e _ _ _ _ _ WB) as EB.
  destruct HW as [W1 W2 W3 W4 W5 W6 W7 W8].
  set (A l := InP I (il (xf fp) (mkdim n1 s s :: vec)) l).
  set (B l := InP (sh I (n1 * s)) (il (xf fp) (mkdim n2 s s :: vec)) l).
  assert (D : forall l, A l -> B l -> False).
  { intros l HA HB. apply (fp_disj fp vec I (n1 + n2) s 0 n1 n1 n2 l); auto; try lia. now rewrite Z.mul_0_l, sh_0. }
  assert (Ai : forall l, InP I (il X (mkdim n1 s s :: vec)) l -> A l) by (intros l; apply InP_incl; intros o; now apply fp_i).
  assert (Ao : forall l, InP I (ol X (mkdim n1 s s :: vec)) l -> A l) by (intros l; apply InP_incl; intros o; now apply fp_o).
  assert (Bi : forall l, InP (sh I (n1 * s)) (il X (mkdim n2 s s :: vec)) l -> B l) by (intros l; apply InP_incl; intros o; now apply fp_i).
  assert (Bo : forall l, InP (sh I (n1 * s)) (ol X (mkdim n2 s s :: vec)) l -> B l) by (intros l; apply InP_incl; intros o; now apply fp_o).
  split.
  - intros a b Hab o F HoF. apply in_offs_cons in Hab as (i & (a' & b') & Hi & Hq & E). cbn [dn dis dos fst snd] in *.
    injection E as -> ->.
    destruct (Z_lt_le_dec i n1) as [Hlt|Hge].
    + assert (Hab1 : In (i * s + a', i * s + b') (offs (mkdim n1 s s :: vec))).
      { apply in_offs_cons. exists i, (a', b'). cbn. split; [lia|auto]. }
      rewrite <- (V1 _ _ Hab1 o F HoF).
      assert (Ho : A (sh I (i * s + b' + o))) by (apply Ao; apply InP_intro; eapply in_ol_intro; eauto).
      apply F2; [exact W1| |right]; intros C; eapply D; eauto.
    + assert (Hab2 : In ((i - n1) * s + a', (i - n1) * s + b') (offs (mkdim n2 s s :: vec))).
      { apply in_offs_cons. exists (i - n1), (a', b'). cbn. split; [lia|auto]. }
      specialize (V2 _ _ Hab2 o F HoF). rewrite sh_sh in V2.
      replace (n1 * s + ((i - n1) * s + b' + o)) with (i * s + b' + o) in V2 by ring.
      rewrite V2. eapply HX; eauto. intros z Hz. rewrite sh_sh.
      assert (Ho : B (sh (sh I (n1 * s)) ((i - n1) * s + a' + z))) by (apply Bi; apply InP_intro; eapply in_il_intro; eauto).
      rewrite sh_sh in Ho. replace (n1 * s + ((i - n1) * s + a' + z)) with (i * s + a' + z) in * by ring.
      apply F1; [exact W1| |right]; intros C; eapply D; eauto.
  - intros l Hl Ho [Hi|Hi]; [discriminate|].
    assert (LoA : forall o, In o (ol X (mkdim n1 s s :: vec)) -> In o (ol X (mkdim (n1 + n2) s s :: vec))).
    { intros o Q. change o with (0 * s + o). eapply piece_ol; [| | |exact Q]; lia. }
    assert (LiA : forall o, In o (il X (mkdim n1 s s :: vec)) -> In o (il X (mkdim (n1 + n2) s s :: vec))).
    { intros o Q. change o with (0 * s + o). eapply piece_il; [| | |exact Q]; lia. }
    assert (LoB : forall l, InP (sh I (n1 * s)) (ol X (mkdim n2 s s :: vec)) l -> InP I (ol X (mkdim (n1 + n2) s s :: vec)) l).
    { intros l'. apply InP_shift_incl. intros o Q. eapply piece_ol; [| | |exact Q]; lia. }
    assert (LiB : forall l, InP (sh I (n1 * s)) (il X (mkdim n2 s s :: vec)) l -> InP I (il X (mkdim (n1 + n2) s s :: vec)) l).
    { intros l'. apply InP_shift_incl. intros o Q. eapply piece_il; [| | |exact Q]; lia. }
    transitivity (m1 l).
    + apply F2; auto.
    + apply F1; auto; [|right]; intros C; [apply Ho|apply Hi]; eapply InP_incl; eauto.
Qed.

Lemma WI_perm nx I X X' fp fp' vec vec' : Permutation (xi X) (xi X') -> Permutation (map fst (xo X)) (map fst (xo X')) ->
  Permutation (il (xf fp) vec) (il (xf fp') vec') -> (incl fp fp') -> nnegd vec' -> eqst vec' -> WI nx I X fp vec -> WI nx I X' fp' vec'.
Proof.
  intros P1 P2 P3 P4 P5 P6 [W1 W2 W3 W4 W5 W6 W7 W8]. constructor; auto.
  - eapply Permutation_NoDup; eauto.
  - eapply Permutation_NoDup; eauto.
  - intros o Ho. apply P4, W6. eapply Permutation_in; [symmetry; exact P1|exact Ho].
  - intros o Ho. apply P4, W7. eapply Permutation_in; [symmetry; exact P2|exact Ho].
  - eapply Permutation_NoDup; eauto.
Qed.
(** same transform, reordered vector *)
Lemma CorrectI_sim X X' fp fp' vec vec' f : xsim X X' -> Permutation (offs vec) (offs vec') -> Permutation fp fp' ->
  (nnegd vec -> eqst vec -> nnegd vec' /\ eqst vec') -> CorrectI X' fp' vec' f -> CorrectI X fp vec f.
Proof.
  intros (S1 & S2 & S3) P Pf Hn H nx I m HW.
  destruct (Hn (wi_v _ _ _ _ _ HW) (wi_e _ _ _ _ _ HW)) as [Hn1 Hn2].
  destruct (H nx I m) as [V F].
  { eapply WI_perm; [exact S1|exact S2| | |exact Hn1|exact Hn2|exact HW].
    - apply (il_perm (xf fp) (xf fp')); auto.
    - intros o. now apply Permutation_in. }
  split.
  - intros a b Hab o G HG. destruct (S3 o G HG) as (G' & HG' & E).
    rewrite E. apply (V a b); auto. eapply Permutation_in; eauto.
  - intros l Hl Ho [Hi|Hi]; [discriminate|]. apply F; auto; [|right].
    + intros C. apply Ho. eapply InP_perm; [|exact C]. symmetry. now apply ol_perm.
    + intros C. apply Hi. eapply InP_perm; [|exact C]. symmetry. now apply il_perm.
Qed.
Lemma CorrectI_dim1 X fp vec s f : CorrectI X fp vec f -> CorrectI X fp (mkdim 1 s s :: vec) f.
Proof.
  apply CorrectI_sim; [apply xsim_refl|rewrite offs_1; auto|auto|]. intros H1 H2. inversion H1; inversion H2; auto.
Qed.
Lemma CorrectI_dim0 X fp vec s n : n <= 0 -> CorrectI X fp (mkdim n s s :: vec) (fun _ _ _ m => m).
Proof.
  intros Hn nx I m HW. split.
  - intros a b Hab. rewrite offs_0 in Hab by exact Hn. easy.
  - intros l _ _ _. reflexivity.
Qed.
Lemma CorrectI_loop X fp vec n s f : xwf X -> CorrectI X fp vec f -> CorrectI X fp (mkdim n s s :: vec) (vloop n s s f).
Proof.
  intros HX C. destruct (Z_le_gt_dec n 0) as [Hn|Hn].
  { eapply CorrectI_ext; [|apply CorrectI_dim0; exact Hn]. intros. unfold vloop. now rewrite zfor_neg. }
  assert (G : forall k, 0 <= k -> CorrectI X fp (mkdim k s s :: vec) (vloop k s s f)).
  { intros k Hk. pattern k. apply natlike_ind; [|intros j Hj IH|exact Hk].
    - apply CorrectI_dim0. lia.
    - unfold Z.succ. eapply CorrectI_ext; [|apply (CorrectI_seq X fp vec j 1 s (vloop j s s f) f); auto; try lia].
      + intros. unfold seq_at, vloop. now rewrite zfor_succ.
      + now apply CorrectI_dim1. }
  apply G. lia.
Qed.
