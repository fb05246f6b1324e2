(** * Cutting a twiddle step in blocks of butterflies (proof library) *)
From Coq Require Import Reals ZArith List Lia Bool Permutation.
From Verif Require Import NumTheory Cplx Spec TensorModel Offs TensorProofs XForm XKern XSeq DftModel DftTw DftTw2 XPar.
Import ListNotations.
Open Scope Z_scope.

Section CutTw.
  Context (dit : bool) (di r irs ors m ms v ivs ovs nthr : Z).
  Let vec := [mkdim v ivs ovs].
  Let XX := xtw dit di r irs ors m 0 m ms.
  Let bs := thr_bs m nthr.
  Let nb := thr_nb m nthr.
  Let Xp (j : Z) := xtw dit di r irs ors m (j * bs) (thr_cnt m nthr j) ms.
  Let A := locs [(2, di); (r, irs); (v, ivs)].
  Let B := locs [(2, di); (r, ors); (v, ovs)].
  Hypothesis PV : Permutation [(r, irs); (v, ivs)] [(r, ors); (v, ovs)].
  Hypothesis Hm : 0 < m.
  Hypothesis Ht : 0 < nthr.

  Lemma tw_AB : Permutation A B.
  Proof. apply locs_perm. now apply perm_skip. Qed.
  Lemma tw_il : il XX vec = lplus (dimlocs (m, ms)) A.
  Proof. unfold XX, vec. rewrite il_xtw. cbn [ti map dn dis]. rewrite Z.mul_0_l, map_add0. reflexivity. Qed.
  Lemma tw_ol : ol XX vec = lplus (dimlocs (m, ms)) B.
  Proof. unfold XX, vec. rewrite ol_xtw. cbn [to_ map dn dos]. rewrite Z.mul_0_l, map_add0. reflexivity. Qed.
  Lemma tw_ilp j : il (Xp j) vec = map (Z.add (j * bs * ms)) (lplus (dimlocs (thr_cnt m nthr j, ms)) A).
  Proof. unfold Xp, vec. rewrite il_xtw. reflexivity. Qed.
  Lemma tw_olp j : ol (Xp j) vec = map (Z.add (j * bs * ms)) (lplus (dimlocs (thr_cnt m nthr j, ms)) B).
  Proof. unfold Xp, vec. rewrite ol_xtw. reflexivity. Qed.
  Lemma tw_inp C j x : In x (map (Z.add (j * bs * ms)) (lplus (dimlocs (thr_cnt m nthr j, ms)) C)) <->
    exists i o, j * bs <= i < j * bs + thr_cnt m nthr j /\ In o C /\ x = i * ms + o.
  Proof.
    rewrite in_map_iff. setoid_rewrite in_lplus_dim. split.
    - intros (y & <- & i & o & Hi & Ho & ->). exists (j * bs + i), o. split; [lia|]. split; auto. ring.
    - intros (i & o & Hi & Ho & ->). exists ((i - j * bs) * ms + o). split; [ring|]. exists (i - j * bs), o. split; [lia|auto].
  Qed.
  Lemma tw_range j i : 0 <= j < nb -> j * bs <= i < j * bs + thr_cnt m nthr j -> 0 <= i < m.
  Proof. intros Hj Hi. destruct (thr_block m nthr j Hm Ht Hj) as (B1 & B2 & B3). unfold bs in *. lia. Qed.
  Lemma tw_apart j k i i' : 0 <= j < nb -> 0 <= k < nb -> j <> k ->
    j * bs <= i < j * bs + thr_cnt m nthr j -> k * bs <= i' < k * bs + thr_cnt m nthr k -> i <> i'.
  Proof.
    intros Hj Hk Hne Hi Hi'. destruct (Z_lt_le_dec j k) as [Hlt|Hge].
    - pose proof (thr_sep m nthr j k Hm Ht ltac:(lia) ltac:(unfold nb in *; lia)). unfold bs in *. lia.
    - pose proof (thr_sep m nthr k j Hm Ht ltac:(lia) ltac:(unfold nb in *; lia)). unfold bs in *. lia.
  Qed.

  Section At.
    Context (nx : nat) (I O : loc).
    Hypothesis HW : Wf nx true I O XX vec.

    Lemma tw_IO : I = O. Proof. apply (wf_x _ _ _ _ _ _ HW). Qed.
    Lemma tw_rI j l : 0 <= j < nb -> InP I (il (Xp j) vec) l -> InP I (il XX vec) l.
    Proof.
      intros Hj. apply InP_incl. intros x Hx. rewrite tw_ilp in Hx. apply tw_inp in Hx as (i & o & Hi & Ho & ->).
      rewrite tw_il. apply in_lplus_dim. exists i, o. split; [eapply tw_range; eauto|auto].
    Qed.
    Lemma tw_rO j l : 0 <= j < nb -> InP O (ol (Xp j) vec) l -> InP O (ol XX vec) l.
    Proof.
      intros Hj. apply InP_incl. intros x Hx. rewrite tw_olp in Hx. apply tw_inp in Hx as (i & o & Hi & Ho & ->).
      rewrite tw_ol. apply in_lplus_dim. exists i, o. split; [eapply tw_range; eauto|auto].
    Qed.
    Lemma tw_same j o : In o (il (Xp j) vec) <-> In o (ol (Xp j) vec).
    Proof.
      rewrite tw_ilp, tw_olp, !tw_inp.
      split; intros (i & x & Hi & Hx & ->); exists i, x; (split; [auto|]; split; [|auto]);
        (eapply Permutation_in; [|exact Hx]); [|symmetry]; apply tw_AB.
    Qed.
    Lemma tw_NoDup C j : 0 <= j < nb -> NoDup (lplus (dimlocs (m, ms)) C) ->
      NoDup (map (Z.add (j * bs * ms)) (lplus (dimlocs (thr_cnt m nthr j, ms)) C)).
    Proof.
      intros Hj H. destruct (thr_block m nthr j Hm Ht Hj) as (B1 & B2 & B3).
      apply FinFun.Injective_map_NoDup; [intros x y; lia|].
      apply NoDup_lplus_range with (i0 := j * thr_bs m nthr) (n := m); auto; lia.
    Qed.
    Lemma tw_Wf j : 0 <= j < nb -> Wf nx true I O (Xp j) vec.
    Proof.
      intros Hj. destruct HW as [W1 W2 W3 W4 W5 W6]. constructor; auto.
      - rewrite tw_ilp. apply tw_NoDup; auto. now rewrite <- tw_il.
      - rewrite tw_olp. apply tw_NoDup; auto. now rewrite <- tw_ol.
      - split; [apply W6|]. apply tw_same.
    Qed.
    Lemma tw_ii j k l : 0 <= j < nb -> 0 <= k < nb -> j <> k -> InP I (il (Xp j) vec) l -> InP I (il (Xp k) vec) l -> False.
    Proof.
      intros Hj Hk Hne (x & Hx & ->) (y & Hy & E). apply sh_inj in E. subst y. rewrite tw_ilp in Hx, Hy.
      apply tw_inp in Hx as (i & o & Hi & Ho & ->), Hy as (i' & o' & Hi' & Ho' & E).
      pose proof (wf_i _ _ _ _ _ _ HW) as ND. rewrite tw_il in ND.
      destruct (lplus_dim_inj m ms A i i' o o' ND) as [E1 _]; auto; [exact (tw_range j i Hj Hi)|exact (tw_range k i' Hk Hi')|].
      exact (tw_apart j k i i' Hj Hk Hne Hi Hi' E1).
    Qed.
    Lemma tw_oi_conv k l : InP O (ol (Xp k) vec) l -> InP I (il (Xp k) vec) l.
    Proof. rewrite tw_IO. apply InP_incl. intros o. apply tw_same. Qed.

    Lemma tw_Pieces J : NoDup J -> (forall j, In j J -> 0 <= j < nb) -> Pieces nx Xp (fun _ => vec) (fun _ => I) (fun _ => O) J.
    Proof.
      intros HJ HB. constructor; auto.
      - intros; apply xtw_wf.
      - intros; apply HW.
      - intros; apply HW.
      - intros j k l Hj Hk Hne H1 H2. apply (tw_ii j k l); auto; now apply tw_oi_conv.
      - intros j k l Hj Hk Hne H1 H2. apply (tw_ii j k l); auto; now apply tw_oi_conv.
      - intros j k l Hj Hk Hne H1 H2. apply (tw_ii j k l); auto; now apply tw_oi_conv.
    Qed.
    Lemma tw_vals mm mm' : (forall j, 0 <= j < nb -> vals (Xp j) vec I O mm mm') -> vals XX vec I O mm mm'.
    Proof.
      intros H. unfold XX. rewrite vals_xtw. intros a b Hab k Hk k1 Hk1.
      destruct (thr_cover m nthr k Hm Ht ltac:(lia)) as (j & Hj & Hjk).
      specialize (H j Hj). unfold Xp in H. rewrite vals_xtw in H. apply H; auto.
    Qed.
    Lemma tw_frame nd mm mm' :
      (forall l, (fst l < nx)%nat -> (forall j, 0 <= j < nb -> ~ InP O (ol (Xp j) vec) l) ->
         (nd = true \/ forall j, 0 <= j < nb -> ~ InP I (il (Xp j) vec) l) -> mm' l = mm l) ->
      frame nx nd XX vec I O mm mm'.
    Proof.
      intros H l Hl Ho Hi. apply H; auto.
      - intros j Hj C. apply Ho. now apply (tw_rO j).
      - destruct Hi as [Hi|Hi]; auto. right. intros j Hj C. apply Hi. now apply (tw_rI j).
    Qed.
  End At.
End CutTw.

Lemma CorrectW_cut dit di r irs ors m ms v ivs ovs nthr ws ord : 0 < m -> 0 < nthr ->
  Permutation [(r, irs); (v, ivs)] [(r, ors); (v, ovs)] ->
  Permutation ord (zr (thr_nb m nthr)) ->
  (forall j, 0 <= j < thr_nb m nthr ->
     CorrectW (xtw dit di r irs ors m (j * thr_bs m nthr) (thr_cnt m nthr j) ms) [mkdim v ivs ovs] (ws j)) ->
  CorrectW (xtw dit di r irs ors m 0 m ms) [mkdim v ivs ovs] (thr_ctw ws ord).
Proof.
  intros Hm Ht PV HP HC nx I O mm HW.
  assert (Hin : forall j, In j ord <-> 0 <= j < thr_nb m nthr).
  { intros j. rewrite <- in_zr. split; apply Permutation_in; [auto|now symmetry]. }
  assert (PS := tw_Pieces dit di r irs ors m ms v ivs ovs nthr PV Hm Ht nx I O HW ord
    (Permutation_NoDup (Permutation_sym HP) (NoDup_zr _)) ltac:(intros; now apply Hin)).
  destruct (pieces_any_order nx true _ _ _ _ (fun j => ws j nx O) ord PS) with (m := mm) as [V F].
  { intros j Hj m1. apply HC; [now apply Hin|]. apply tw_Wf; auto. now apply Hin. }
  unfold thr_ctw. split.
  - eapply tw_vals; eauto. intros j Hj. apply V. now apply Hin.
  - eapply tw_frame; eauto. intros l Hl Ho Hi. apply F; auto.
    intros j Hj. apply Ho. now apply Hin.
Qed.
