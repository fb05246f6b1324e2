(** * Executing the pieces of a problem in any order (proof library).

    A problem is cut in pieces that write disjoint cells, and no piece writes a
    cell another one reads.  The pieces can then be executed in any order. *)
From Coq Require Import Reals ZArith List Lia Bool Permutation.
From Verif Require Import NumTheory Cplx Spec TensorModel Offs TensorProofs XForm DftModel.
Import ListNotations.
Open Scope Z_scope.

Section Par.
  Context {T : Type} (nx : nat) (nd : bool) (X : T -> xform) (vec : T -> list iodim) (I O : T -> loc) (f : T -> mem -> mem).
  Definition rI (j : T) (l : loc) : Prop := InP (I j) (il (X j) (vec j)) l.
  Definition rO (j : T) (l : loc) : Prop := InP (O j) (ol (X j) (vec j)) l.

  (** what the pieces in [J] need of each other *)
  Record Pieces (J : list T) : Prop := {
    pc_nodup : NoDup J;
    pc_wf : forall j, In j J -> xwf (X j);
    pc_bi : forall j, In j J -> (fst (I j) < nx)%nat;
    pc_bo : forall j, In j J -> (fst (O j) < nx)%nat;
    pc_oo : forall j k l, In j J -> In k J -> j <> k -> rO j l -> rO k l -> False;
    pc_oi : forall j k l, In j J -> In k J -> j <> k -> rO j l -> rI k l -> False;
    pc_ii : forall j k l, In j J -> In k J -> j <> k -> rI j l -> rI k l -> False
  }.
  Definition piece_ok (j : T) : Prop := forall m,
    vals (X j) (vec j) (I j) (O j) m (f j m) /\ frame nx nd (X j) (vec j) (I j) (O j) m (f j m).

  Lemma Pieces_tl j J : Pieces (j :: J) -> Pieces J.
  Proof.
    intros [H1 H2 H3 H4 H5 H6 H7]. inversion H1; subst. constructor; auto.
    - intros; apply H2; now right.
    - intros; apply H3; now right.
    - intros; apply H4; now right.
    - intros j' k l ? ?; apply H5; now right.
    - intros j' k l ? ?; apply H6; now right.
    - intros j' k l ? ?; apply H7; now right.
  Qed.
  Lemma Pieces_perm J J' : Permutation J J' -> Pieces J -> Pieces J'.
  Proof.
    intros P [H1 H2 H3 H4 H5 H6 H7].
    assert (G : forall j, In j J' -> In j J) by (intros; eapply Permutation_in; [symmetry; eauto|auto]).
    constructor; eauto.
    eapply Permutation_NoDup; eauto.
  Qed.

  Lemma pieces_any_order J : Pieces J -> (forall j, In j J -> piece_ok j) -> forall m,
    let m' := fold_left (fun m j => f j m) J m in
    (forall j, In j J -> vals (X j) (vec j) (I j) (O j) m m') /\
    (forall l, (fst l < nx)%nat -> (forall j, In j J -> ~ rO j l) -> (nd = true \/ forall j, In j J -> ~ rI j l) -> m' l = m l).
  Proof.
    induction J as [|j J IH]; intros HP Hc m; cbn [fold_left].
    { split; [easy|auto]. }
    destruct (IH (Pieces_tl _ _ HP) ltac:(intros; apply Hc; now right) (f j m)) as [V F].
    set (m' := fold_left (fun m j => f j m) J (f j m)) in *. cbn zeta.
    destruct (Hc j (or_introl eq_refl) m) as [V1 F1]. destruct HP as [H1 H2 H3 H4 H5 H6 H7].
    assert (Hne : forall k, In k J -> j <> k) by (intros k Hk ->; inversion H1; auto).
    split.
    - intros k [<-|Hk].
      + intros a b Hab o G HoG. rewrite <- (V1 a b Hab o G HoG).
        assert (Hr : rO j (sh (O j) (b + o))) by (apply InP_intro; eapply in_ol_intro; eauto).
        apply F.
        * apply H4. now left.
        * intros k Hk C. apply (H5 j k (sh (O j) (b + o))); auto; [now left|now right].
        * right. intros k Hk C. apply (H6 j k (sh (O j) (b + o))); auto; [now left|now right].
      + apply vals_ext with (m1 := f j m); [apply H2; now right| |now apply V].
        intros o Ho. assert (Hr : rI k (sh (I k) o)) by now apply InP_intro.
        apply F1.
        * apply H3. now right.
        * intros C. apply (H6 j k (sh (I k) o)); auto; [now left|now right].
        * right. intros C. apply (H7 j k (sh (I k) o)); auto; [now left|now right].
    - intros l Hl Ho Hi. rewrite F.
      + apply F1; auto.
        * apply Ho. now left.
        * destruct Hi as [Hi|Hi]; auto. right. apply Hi. now left.
      + exact Hl.
      + intros k Hk. apply Ho. now right.
      + destruct Hi as [Hi|Hi]; auto. right. intros k Hk. apply Hi. now right.
  Qed.
End Par.

(** ** Blocks of a dimension *)
Lemma thr_facts n nthr : 0 < n -> 0 < nthr ->
  0 < thr_bs n nthr /\ 0 < thr_nb n nthr <= nthr /\ (thr_nb n nthr - 1) * thr_bs n nthr < n <= thr_nb n nthr * thr_bs n nthr.
Proof.
  intros Hn Ht. unfold thr_nb, thr_bs. rewrite Z.quot_div_nonneg by lia.
  set (bs := (n + nthr - 1) / nthr). assert (Hb : 0 < bs) by (apply Z.div_str_pos; lia).
  rewrite Z.quot_div_nonneg by lia. set (nb := (n + bs - 1) / bs).
  pose proof (Z.div_mod (n + nthr - 1) nthr ltac:(lia)) as E1. pose proof (Z.mod_pos_bound (n + nthr - 1) nthr ltac:(lia)).
  pose proof (Z.div_mod (n + bs - 1) bs ltac:(lia)) as E2. pose proof (Z.mod_pos_bound (n + bs - 1) bs ltac:(lia)).
  fold bs in E1. fold nb in E2. assert (0 < nb) by (apply Z.div_str_pos; lia).
  split; [auto|]. split; [split; [auto|]|nia].
  apply Z.lt_succ_r. apply Z.div_lt_upper_bound; nia.
Qed.
Lemma thr_block n nthr i : 0 < n -> 0 < nthr -> 0 <= i < thr_nb n nthr ->
  0 < thr_cnt n nthr i <= thr_bs n nthr /\ 0 <= i * thr_bs n nthr /\ i * thr_bs n nthr + thr_cnt n nthr i <= n.
Proof.
  intros Hn Ht Hi. destruct (thr_facts n nthr Hn Ht) as (H1 & H2 & H3). unfold thr_cnt.
  destruct (Z.eqb_spec i (thr_nb n nthr - 1)) as [->|E]; nia.
Qed.
Lemma thr_sep n nthr i j : 0 < n -> 0 < nthr -> 0 <= i -> i < j < thr_nb n nthr ->
  i * thr_bs n nthr + thr_cnt n nthr i <= j * thr_bs n nthr.
Proof.
  intros Hn Ht Hi Hj. destruct (thr_facts n nthr Hn Ht) as (H1 & H2 & H3). unfold thr_cnt.
  destruct (Z.eqb_spec i (thr_nb n nthr - 1)) as [->|E]; nia.
Qed.
Lemma thr_cover n nthr k : 0 < n -> 0 < nthr -> 0 <= k < n ->
  exists i, 0 <= i < thr_nb n nthr /\ i * thr_bs n nthr <= k < i * thr_bs n nthr + thr_cnt n nthr i.
Proof.
  intros Hn Ht Hk. destruct (thr_facts n nthr Hn Ht) as (H1 & H2 & H3).
  set (bs := thr_bs n nthr) in *. set (nb := thr_nb n nthr) in *. exists (k / bs).
  pose proof (Z.div_mod k bs ltac:(lia)) as E1. pose proof (Z.mod_pos_bound k bs ltac:(lia)).
  assert (0 <= k / bs < nb) by (split; [apply Z.div_pos; lia|apply Z.div_lt_upper_bound; nia]).
  split; auto. unfold thr_cnt. fold bs nb. destruct (Z.eqb_spec (k / bs) (nb - 1)); nia.
Qed.

(** ** Cutting a vector dimension *)
Section CutVec.
  Context (nx : nat) (ip : bool) (I O : loc) (X : xform) (vec : list iodim) (n s u nthr : Z).
  Context (bs nb : Z).
  Hypothesis HW : Wf nx ip I O X (mkdim n s u :: vec).
  Hypothesis HX : xwf X.
  Hypothesis Hn : 0 < n.
  Hypothesis Ht : 0 < nthr.
  Hypothesis Hbs : bs = thr_bs n nthr.
  Hypothesis Hnb : nb = thr_nb n nthr.
  Let pv (j : Z) := mkdim (thr_cnt n nthr j) s u :: vec.
  Let Ip (j : Z) := sh I (j * (s * bs)).
  Let Op (j : Z) := sh O (j * (u * bs)).
  Hypothesis Hip : ip = true -> s = u /\ forall j, 0 <= j < nb -> same_set X (pv j).

  Lemma cut_Ip j : Ip j = sh I (j * bs * s). Proof. unfold Ip. f_equal. ring. Qed.
  Lemma cut_Op j : Op j = sh O (j * bs * u). Proof. unfold Op. f_equal. ring. Qed.

  Lemma cut_rI j l : 0 <= j < nb -> InP (Ip j) (il X (pv j)) l -> InP I (il X (mkdim n s u :: vec)) l.
  Proof.
    intros Hj. rewrite cut_Ip. apply InP_shift_incl. intros o Ho. pose proof Hbs as Hbs'. pose proof Hnb as Hnb'. rewrite Hnb' in Hj. rewrite Hbs' in *.
    destruct (thr_block n nthr j Hn Ht Hj) as (B1 & B2 & B3). eapply piece_il; [| | |exact Ho]; lia.
  Qed.
  Lemma cut_rO j l : 0 <= j < nb -> InP (Op j) (ol X (pv j)) l -> InP O (ol X (mkdim n s u :: vec)) l.
  Proof.
    intros Hj. rewrite cut_Op. apply InP_shift_incl. intros o Ho. pose proof Hbs as Hbs'. pose proof Hnb as Hnb'. rewrite Hnb' in Hj. rewrite Hbs' in *.
    destruct (thr_block n nthr j Hn Ht Hj) as (B1 & B2 & B3). eapply piece_ol; [| | |exact Ho]; lia.
  Qed.
  Lemma cut_Wf j : 0 <= j < nb -> Wf nx ip (Ip j) (Op j) X (pv j).
  Proof.
    intros Hj. destruct HW as [W1 W2 W3 W4 W5 W6]. inversion W3 as [|dd vv _ W3' E0]. clear E0.
    pose proof Hj as Hj'. rewrite Hnb in Hj'. destruct (thr_block n nthr j Hn Ht Hj') as (B1 & B2 & B3). unfold pv.
    constructor; auto.
    - constructor; [cbn; lia|auto].
    - eapply Permutation_NoDup; [symmetry; apply il_cons_perm|]. cbn [dn dis].
      apply NoDup_lplus_range with (i0 := j * thr_bs n nthr) (n := n); try lia.
      exact (Permutation_NoDup (il_cons_perm X (mkdim n s u) vec) W4).
    - eapply Permutation_NoDup; [symmetry; apply ol_cons_perm|]. cbn [dn dos].
      apply NoDup_lplus_range with (i0 := j * thr_bs n nthr) (n := n); try lia.
      exact (Permutation_NoDup (ol_cons_perm X (mkdim n s u) vec) W5).
    - pose proof (cut_rI j) as RI. pose proof (cut_rO j) as RO.
      unfold Ip, Op, pv in *. destruct ip.
      + destruct W6 as [-> _]. destruct (Hip eq_refl) as [-> E]. split; auto. apply (E j Hj).
      + intros l Hl Hl'. apply (W6 l); [now apply RI|now apply RO].
  Qed.

  Lemma cut_oo j k l : 0 <= j < nb -> 0 <= k < nb -> j <> k -> InP (Op j) (ol X (pv j)) l -> InP (Op k) (ol X (pv k)) l -> False.
  Proof.
    rewrite !cut_Op. intros Hj Hk Hne. rewrite Hbs. rewrite Hnb in Hj, Hk.
    destruct (thr_block n nthr j Hn Ht Hj) as (B1 & B2 & B3), (thr_block n nthr k Hn Ht Hk) as (D1 & D2 & D3).
    destruct (Z_lt_le_dec j k) as [Hlt|Hge].
    - pose proof (thr_sep n nthr j k Hn Ht ltac:(lia) ltac:(lia)) as Q.
      intros A B. exact (piece_disj_o nx ip I O X vec n s u HW (j * thr_bs n nthr) (thr_cnt n nthr j) (k * thr_bs n nthr) (thr_cnt n nthr k) l ltac:(lia) ltac:(lia) Q ltac:(lia) ltac:(lia) A B).
    - pose proof (thr_sep n nthr k j Hn Ht ltac:(lia) ltac:(lia)) as Q.
      intros A B. exact (piece_disj_o nx ip I O X vec n s u HW (k * thr_bs n nthr) (thr_cnt n nthr k) (j * thr_bs n nthr) (thr_cnt n nthr j) l ltac:(lia) ltac:(lia) Q ltac:(lia) ltac:(lia) B A).
  Qed.
  Lemma cut_ii j k l : 0 <= j < nb -> 0 <= k < nb -> j <> k -> InP (Ip j) (il X (pv j)) l -> InP (Ip k) (il X (pv k)) l -> False.
  Proof.
    rewrite !cut_Ip. intros Hj Hk Hne. rewrite Hbs. rewrite Hnb in Hj, Hk.
    destruct (thr_block n nthr j Hn Ht Hj) as (B1 & B2 & B3), (thr_block n nthr k Hn Ht Hk) as (D1 & D2 & D3).
    destruct (Z_lt_le_dec j k) as [Hlt|Hge].
    - pose proof (thr_sep n nthr j k Hn Ht ltac:(lia) ltac:(lia)) as Q.
      intros A B. exact (piece_disj_i nx ip I O X vec n s u HW (j * thr_bs n nthr) (thr_cnt n nthr j) (k * thr_bs n nthr) (thr_cnt n nthr k) l ltac:(lia) ltac:(lia) Q ltac:(lia) ltac:(lia) A B).
    - pose proof (thr_sep n nthr k j Hn Ht ltac:(lia) ltac:(lia)) as Q.
      intros A B. exact (piece_disj_i nx ip I O X vec n s u HW (k * thr_bs n nthr) (thr_cnt n nthr k) (j * thr_bs n nthr) (thr_cnt n nthr j) l ltac:(lia) ltac:(lia) Q ltac:(lia) ltac:(lia) B A).
  Qed.
  Lemma cut_oi j k l : 0 <= j < nb -> 0 <= k < nb -> j <> k -> InP (Op j) (ol X (pv j)) l -> InP (Ip k) (il X (pv k)) l -> False.
  Proof.
    intros Hj Hk Hne HA HB. destruct (Bool.bool_dec ip true) as [E|E].
    - apply (cut_oo j k l Hj Hk Hne HA). pose proof (wf_x _ _ _ _ _ _ (cut_Wf k Hk)) as W6. rewrite E in W6.
      destruct W6 as [<- EE]. eapply InP_incl; [|exact HB]. intros o. apply EE.
    - apply not_true_is_false in E. pose proof (wf_x _ _ _ _ _ _ HW) as W6. rewrite E in W6.
      apply (W6 l); [now apply (cut_rI k)|now apply (cut_rO j)].
  Qed.

  Lemma cut_Pieces J : NoDup J -> (forall j, In j J -> 0 <= j < nb) -> Pieces nx (fun _ => X) pv Ip Op J.
  Proof.
    intros HJ HB. constructor; auto.
    - intros; apply HW.
    - intros; apply HW.
    - intros j k l Hj Hk. apply cut_oo; auto.
    - intros j k l Hj Hk. apply cut_oi; auto.
    - intros j k l Hj Hk. apply cut_ii; auto.
  Qed.
  Lemma cut_vals m m' : (forall j, 0 <= j < nb -> vals X (pv j) (Ip j) (Op j) m m') -> vals X (mkdim n s u :: vec) I O m m'.
  Proof.
    intros H a b Hab o F HoF. apply in_offs_cons in Hab as (i & (a' & b') & Hi & Hq & E). cbn [dn dis dos fst snd] in *.
    injection E as -> ->. destruct (thr_cover n nthr i Hn Ht Hi) as (j & Hj & Hij). rewrite <- Hbs in Hij. rewrite <- Hnb in Hj.
    assert (Hab : In ((i - j * bs) * s + a', (i - j * bs) * u + b') (offs (pv j))).
    { apply in_offs_cons. exists (i - j * bs), (a', b'). cbn [dn dis dos fst snd]. split; [lia|auto]. }
    specialize (H j Hj _ _ Hab o F HoF). unfold Ip, Op in H. rewrite sh_sh in H.
    replace (j * (u * bs) + ((i - j * bs) * u + b' + o)) with (i * u + b' + o) in H by ring. rewrite H.
    eapply HX; eauto. intros z Hz. rewrite sh_sh. do 2 f_equal. ring.
  Qed.
  Lemma cut_frame nd m m' :
    (forall l, (fst l < nx)%nat -> (forall j, 0 <= j < nb -> ~ InP (Op j) (ol X (pv j)) l) ->
       (nd = true \/ forall j, 0 <= j < nb -> ~ InP (Ip j) (il X (pv j)) l) -> m' l = m l) ->
    frame nx nd X (mkdim n s u :: vec) I O m m'.
  Proof.
    intros H l Hl Ho Hi. apply H; auto.
    - intros j Hj C. apply Ho. now apply (cut_rO j).
    - destruct Hi as [Hi|Hi]; auto. right. intros j Hj C. apply Hi. now apply (cut_rI j).
  Qed.
End CutVec.

Lemma Correct_cut nd ip X vec n s u nthr fs ord : xwf X -> 0 < n -> 0 < nthr ->
  Permutation ord (zr (thr_nb n nthr)) ->
  (ip = true -> s = u /\ forall j, 0 <= j < thr_nb n nthr -> same_set X (mkdim (thr_cnt n nthr j) s u :: vec)) ->
  (forall j, 0 <= j < thr_nb n nthr -> Correct nd ip X (mkdim (thr_cnt n nthr j) s u :: vec) (fs j)) ->
  Correct nd ip X (mkdim n s u :: vec) (thr_vrank_apply n s u nthr fs ord).
Proof.
  intros HX Hn Ht HP Hip HC nx I O m HW.
  assert (Hin : forall j, In j ord <-> 0 <= j < thr_nb n nthr).
  { intros j. rewrite <- in_zr. split; apply Permutation_in; [auto|now symmetry]. }
  assert (PS := cut_Pieces nx ip I O X vec n s u nthr _ _ HW HX Hn Ht eq_refl eq_refl Hip ord
    (Permutation_NoDup (Permutation_sym HP) (NoDup_zr _)) ltac:(intros; now apply Hin)).
  destruct (pieces_any_order nx nd _ _ _ _ (fun j => fs j nx (sh I (j * (s * thr_bs n nthr))) (sh O (j * (u * thr_bs n nthr)))) ord PS) with (m := m) as [V F].
  { intros j Hj m1. apply HC; [now apply Hin|]. apply cut_Wf with (nb := thr_nb n nthr); auto. now apply Hin. }
  split.
  - eapply cut_vals; eauto. intros j Hj. apply V. now apply Hin.
  - eapply cut_frame; eauto. intros l Hl Ho Hi. apply F; auto.
    + intros j Hj. apply Ho. now apply Hin.
    + destruct Hi as [Hi|Hi]; auto. right. intros j Hj. apply Hi. now apply Hin.
Qed.
