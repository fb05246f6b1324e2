(** * Proofs about the in-place square transposes (kernel/transpose.c) *)
From Coq Require Import Reals ZArith List Lia Bool Permutation.
From Verif Require Import NumTheory Cplx Spec Base PrimesModel PrimesProofs TensorModel Offs TensorProofs XForm XKern CopyModel CopyProofs.
Import ListNotations.
Open Scope Z_scope.

Section Sw.
  Context (nx : nat) (I : loc) (n s0 s1 vl : Z).
  Definition L (i0 i1 v : Z) : loc := sh I (i0 * s0 + i1 * s1 + v).
  Definition rng (i0 i1 v : Z) : Prop := 0 <= i0 < n /\ 0 <= i1 < n /\ 0 <= v < vl.
  Hypothesis HI : (fst I < nx)%nat.
  Hypothesis inj : forall i0 i1 v j0 j1 w, rng i0 i1 v -> rng j0 j1 w ->
    i0 * s0 + i1 * s1 + v = j0 * s0 + j1 * s1 + w -> i0 = j0 /\ i1 = j1 /\ v = w.
  Lemma L_inj i0 i1 v j0 j1 w : rng i0 i1 v -> rng j0 j1 w -> L i0 i1 v = L j0 j1 w -> i0 = j0 /\ i1 = j1 /\ v = w.
  Proof. intros H1 H2 E. apply sh_inj in E. now apply inj. Qed.
  Lemma rng_swap i0 i1 v : rng i0 i1 v -> rng i1 i0 v. Proof. unfold rng. tauto. Qed.

  Definition tset := Z -> Z -> Z -> Prop.
  Definition sy (S : tset) i0 i1 v := S i0 i1 v \/ S i1 i0 v.
  Lemma sy_swap S i0 i1 v : sy S i0 i1 v -> sy S i1 i0 v. Proof. unfold sy. tauto. Qed.

  (** exactly the cells of [S] (made symmetric) are exchanged with their mirror images *)
  Definition Sw (S : tset) (m m' : mem) : Prop :=
    (forall i0 i1 v, rng i0 i1 v -> sy S i0 i1 v -> m' (L i0 i1 v) = m (L i1 i0 v)) /\
    (forall l, (fst l < nx)%nat -> (forall i0 i1 v, rng i0 i1 v -> sy S i0 i1 v -> l <> L i0 i1 v) -> m' l = m l).

  Lemma Sw_ext S S' m m' : (forall i0 i1 v, rng i0 i1 v -> (sy S i0 i1 v <-> sy S' i0 i1 v)) -> Sw S m m' -> Sw S' m m'.
  Proof.
    intros E [H1 H2]. split.
    - intros i0 i1 v Hr Hs. apply H1; auto. now apply E.
    - intros l Hl Hn. apply H2; auto. intros i0 i1 v Hr Hs. apply Hn; auto. now apply E.
  Qed.
  Lemma Sw_id S m : (forall i0 i1 v, rng i0 i1 v -> sy S i0 i1 v -> i0 = i1) -> Sw S m m.
  Proof.
    intros H. split; auto. intros i0 i1 v Hr Hs. now rewrite (H i0 i1 v Hr Hs).
  Qed.
  Lemma Sw_comp S1 S2 m m1 m2 : (forall i0 i1 v, rng i0 i1 v -> sy S1 i0 i1 v -> sy S2 i0 i1 v -> False) ->
    Sw S1 m m1 -> Sw S2 m1 m2 -> Sw (fun i0 i1 v => S1 i0 i1 v \/ S2 i0 i1 v) m m2.
  Proof.
    intros D [A1 A2] [B1 B2]. split.
    - intros i0 i1 v Hr Hs.
      assert (Hc : sy S1 i0 i1 v \/ sy S2 i0 i1 v) by (unfold sy in *; tauto). destruct Hc as [Hc|Hc].
      + rewrite B2; [now apply A1|exact HI|]. intros j0 j1 w Hr' Hs' E. apply L_inj in E as (<- & <- & <-); auto.
        eapply D; eauto.
      + rewrite B1 by auto. apply A2; [exact HI|]. intros j0 j1 w Hr' Hs' E. apply L_inj in E as (<- & <- & <-); auto using rng_swap.
        eapply D; [apply Hr| |apply Hc]. now apply sy_swap.
    - intros l Hl Hn. rewrite B2; [apply A2|auto|]; auto; intros i0 i1 v Hr Hs; apply Hn; auto; unfold sy in *; tauto.
  Qed.

  Lemma Sw_zfor (S : Z -> tset) body k m :
    (forall i m, 0 <= i < k -> Sw (S i) m (body i m)) ->
    (forall i j i0 i1 v, 0 <= i < j -> j < k -> rng i0 i1 v -> sy (S i) i0 i1 v -> sy (S j) i0 i1 v -> False) ->
    Sw (fun i0 i1 v => exists i, 0 <= i < k /\ S i i0 i1 v) m (zfor k body m).
  Proof.
    intros Hb Hd. destruct (Z_le_gt_dec k 0) as [Hk|Hk].
    { rewrite zfor_neg by exact Hk. apply Sw_id. intros i0 i1 v _ [(i & Hi & _)|(i & Hi & _)]; lia. }
    assert (G : forall j, 0 <= j -> j <= k -> Sw (fun i0 i1 v => exists i, 0 <= i < j /\ S i i0 i1 v) m (zfor j body m)).
    { intros j Hj. pattern j. apply natlike_ind; [| |exact Hj].
      - intros _. apply Sw_id. intros i0 i1 v _ [(i & Hi & _)|(i & Hi & _)]; lia.
      - intros x Hx IH Hle. unfold Z.succ in *. rewrite zfor_succ by lia.
        eapply Sw_ext; [|eapply (Sw_comp _ (S x)); [|apply IH; lia|apply Hb; lia]].
        + intros i0 i1 v Hr. unfold sy. split.
          * intros [[(i & Hi & H)|H]|[(i & Hi & H)|H]]; [left; exists i|left; exists x|right; exists i|right; exists x];
            (split; [lia|auto]).
          * intros [(i & Hi & H)|(i & Hi & H)]; (destruct (Z.eq_dec i x) as [->|];
              [tauto|]); [left; left|right; left]; exists i; (split; [lia|auto]).
        + intros i0 i1 v Hr [(i & Hi & H)|(i & Hi & H)] H'.
          * exact (Hd i x i0 i1 v ltac:(lia) ltac:(lia) Hr (or_introl H) H').
          * exact (Hd i x i0 i1 v ltac:(lia) ltac:(lia) Hr (or_intror H) H'). }
    apply G; lia.
  Qed.

  (** ** One swap *)
  Lemma swapk_Sw k i0 i1 v0 m : i0 <> i1 -> 0 <= i0 < n -> 0 <= i1 < n -> 0 <= v0 -> v0 + k <= vl ->
    Sw (fun a b v => a = i0 /\ b = i1 /\ v0 <= v < v0 + k) m (swapk k (L i1 i0 v0) (L i0 i1 v0) m).
  Proof.
    intros Hne H0 H1 Hv0 Hv. unfold swapk.
    assert (Ls : forall a b v, sh (L a b v0) v = L a b (v0 + v)) by (intros; unfold L; rewrite sh_sh; f_equal; ring).
    assert (ND : forall g : Z -> R, NoDup (map fst (map (fun v => (v, g v)) (zr k)))).
    { intros g. rewrite map_map. cbn. rewrite map_id. apply NoDup_zr. }
    assert (Pin : forall a b (g : Z -> R) l, InP (L a b v0) (map fst (map (fun v => (v, g v)) (zr k))) l ->
       exists v, 0 <= v < k /\ l = L a b (v0 + v)).
    { intros a b g l (o & Ho & ->). rewrite map_map in Ho. cbn in Ho. rewrite map_id in Ho. apply in_zr in Ho.
      exists o. now rewrite Ls. }
    split.
    - intros a b v Hr Hs.
      assert (Hvv : exists u, 0 <= u < k /\ v = v0 + u).
      { exists (v - v0). unfold sy in Hs. split; lia. }
      destruct Hvv as (u & Hu & ->). destruct Hs as [(-> & -> & _)|(-> & -> & _)].
      + rewrite stores_other.
        * rewrite <- Ls. rewrite (stores_in _ _ _ u (m (sh (L i1 i0 v0) u))); [now rewrite Ls|apply ND|].
          apply in_map_iff. exists u. split; auto. now apply in_zr.
        * intros C. apply Pin in C as (w & Hw & E). apply L_inj in E; [lia|unfold rng in *; lia|unfold rng in *; lia].
      + rewrite <- Ls. rewrite (stores_in _ _ _ u (m (sh (L i0 i1 v0) u))); [now rewrite Ls|apply ND|].
        apply in_map_iff. exists u. split; auto. now apply in_zr.
    - intros l Hl Hn. rewrite !stores_other; auto.
      + intros C. apply Pin in C as (w & Hw & ->). apply (Hn i0 i1 (v0 + w)); auto; [unfold rng; lia|left; split; auto; split; auto; lia].
      + intros C. apply Pin in C as (w & Hw & ->). apply (Hn i1 i0 (v0 + w)); auto; [unfold rng; lia|right; split; auto; split; auto; lia].
  Qed.

  Lemma tr_step_Sw i0 i1 m : i0 <> i1 -> 0 <= i0 < n -> 0 <= i1 < n ->
    Sw (fun a b v => a = i0 /\ b = i1) m (tr_step I s0 s1 vl i0 i1 m).
  Proof.
    intros Hne H0 H1. unfold tr_step.
    assert (E1 : sh I (i1 * s0 + i0 * s1) = L i1 i0 0) by (unfold L; f_equal; ring).
    assert (E2 : sh I (i1 * s1 + i0 * s0) = L i0 i1 0) by (unfold L; f_equal; ring).
    assert (Hall : forall k, vl = k -> Sw (fun a b v => a = i0 /\ b = i1) m (swapk k (L i1 i0 0) (L i0 i1 0) m)).
    { intros k <-. eapply Sw_ext; [|apply swapk_Sw; auto; lia]. intros a b v Hr. unfold sy, rng in *. lia. }
    destruct (Z.eqb_spec vl 1); [rewrite E1, E2; auto|]. destruct (Z.eqb_spec vl 2); [rewrite E1, E2; auto|].
    eapply Sw_ext; [|apply (Sw_zfor (fun v a b w => a = i0 /\ b = i1 /\ w = v))].
    - intros a b v Hr. unfold sy, rng in *. split.
      + intros [(i & Hi & -> & -> & _)|(i & Hi & -> & -> & _)]; auto.
      + intros [[-> ->]|[-> ->]]; [left|right]; exists v; (split; [lia|auto]).
    - intros v m' Hv. replace (sh I (i1 * s0 + i0 * s1 + v)) with (L i1 i0 v) by reflexivity.
      replace (sh I (i1 * s1 + i0 * s0 + v)) with (L i0 i1 v) by (unfold L; f_equal; ring).
      eapply Sw_ext; [|apply (swapk_Sw 1 i0 i1 v); auto; lia]. intros a b w Hr. unfold sy. lia.
    - intros i j a b v Hi Hj Hr. unfold sy. lia.
  Qed.

  Theorem transpose_Sw m : 0 <= n -> Sw (fun a b _ => a < b) m (transpose I n s0 s1 vl m).
  Proof.
    intros Hn. unfold transpose.
    eapply Sw_ext; [|apply (Sw_zfor (fun j a b v => exists i, 0 <= i < j + 1 /\ (a = i /\ b = j + 1)))].
    - intros a b v Hr. unfold sy, rng in *. split.
      + intros [(j & Hj & i & Hi & -> & ->)|(j & Hj & i & Hi & -> & ->)]; lia.
      + intros [H|H]; [left|right].
        * exists (b - 1). split; [lia|]. exists a. lia.
        * exists (a - 1). split; [lia|]. exists b. lia.
    - intros j m' Hj. apply (Sw_zfor (fun i a b v => a = i /\ b = j + 1)).
      + intros i m'' Hi. apply tr_step_Sw; lia.
      + intros i i' a b v Hi Hi' Hr. unfold sy. lia.
    - intros i j a b v Hi Hj Hr. unfold sy. intros [(x & Hx & -> & ->)|(x & Hx & -> & ->)] [(y & Hy & E1 & E2)|(y & Hy & E1 & E2)]; lia.
  Qed.

  (** ** Tiles *)
  Definition rect (off a b c d : Z) : tset := fun i0 i1 _ => a <= i0 - off < b /\ c <= i1 - off < d.

  Section TileSw.
    Context (F : Z -> Z -> Z -> Z -> mem -> mem) (off : Z).
    Hypothesis Hoff : 0 <= off.
    Hypothesis HF : forall a b c d m, 0 <= a <= b -> b <= c -> c <= d -> off + d <= n -> Sw (rect off a b c d) m (F a b c d m).
    Lemma tile2d_fuel_Sw ts fuel a b c d m : 0 < ts -> 0 <= a <= b -> b <= c -> c <= d -> off + d <= n ->
      (Z.to_nat (b - a + (d - c)) < fuel)%nat ->
      Sw (rect off a b c d) m (tile2d_fuel fuel a b c d ts F m).
    Proof.
      intros Hts. revert a b c d m. induction fuel as [|fu IH]; intros a b c d m Ha Hbc Hc Hd Hf; [lia|].
      cbn [tile2d_fuel].
      destruct ((d - c <=? b - a) && (ts <? b - a)) eqn:E1; [|destruct (ts <? d - c) eqn:E2; [|now apply HF]].
      - apply andb_true_iff in E1 as [_ E1]. apply Z.ltb_lt in E1.
        pose proof (quot_mid a b ltac:(lia) ltac:(lia)) as Hm. set (q := Z.quot (b + a) 2) in *.
        eapply Sw_ext; [|eapply Sw_comp; [|apply (IH a q c d); lia|apply (IH q b c d); lia]].
        + intros i0 i1 v Hr. unfold sy, rect. lia.
        + intros i0 i1 v Hr. unfold sy, rect. lia.
      - apply Z.ltb_lt in E2.
        pose proof (quot_mid c d ltac:(lia) ltac:(lia)) as Hm. set (q := Z.quot (d + c) 2) in *.
        eapply Sw_ext; [|eapply Sw_comp; [|apply (IH a b c q); lia|apply (IH a b q d); lia]].
        + intros i0 i1 v Hr. unfold sy, rect. lia.
        + intros i0 i1 v Hr. unfold sy, rect. lia.
    Qed.
  End TileSw.

  Section Rec.
    Context (F : loc -> Z -> Z -> Z -> Z -> mem -> mem).
    Hypothesis HF : forall off a b c d m, 0 <= off -> 0 <= a <= b -> b <= c -> c <= d -> off + d <= n ->
      Sw (rect off a b c d) m (F (sh I (off * (s0 + s1))) a b c d m).
    Lemma transpose_rec_Sw ts fuel off k m : 0 < ts -> 0 <= off -> 0 <= k -> off + k <= n -> (Z.to_nat k <= fuel)%nat ->
      Sw (fun i0 i1 _ => off <= i0 < i1 /\ i1 < off + k) m
         (transpose_rec_fuel fuel (sh I (off * (s0 + s1))) k s0 s1 ts F m).
    Proof.
      intros Hts. revert off k m. induction fuel as [|fu IH]; intros off k m Ho Hk Hle Hf.
      { cbn. apply Sw_id. intros i0 i1 v Hr. unfold sy. lia. }
      cbn [transpose_rec_fuel]. destruct (Z.ltb_spec 1 k) as [H1|H1].
      2:{ apply Sw_id. intros i0 i1 v Hr. unfold sy. lia. }
      assert (Hq : 1 <= Z.quot k 2 < k).
      { rewrite Z.quot_div_nonneg by lia. pose proof (Z.div_mod k 2). pose proof (Z.mod_pos_bound k 2). lia. }
      set (q := Z.quot k 2) in *. cbn zeta.
      assert (A : Sw (rect off 0 q q k) m (tile2d 0 q q k ts (F (sh I (off * (s0 + s1)))) m)).
      { apply tile2d_fuel_Sw; try lia. intros a b c d m' Ha Hb Hc Hd. apply HF; lia. }
      assert (A2 : forall m', Sw (fun i0 i1 _ => off <= i0 < i1 /\ i1 < off + q) m'
          (transpose_rec_fuel fu (sh I (off * (s0 + s1))) q s0 s1 ts F m')) by (intros m'; apply IH; lia).
      assert (B := Sw_comp _ _ _ _ _ (fun i0 i1 v Hr => ltac:(unfold sy, rect; lia) : sy (rect off 0 q q k) i0 i1 v -> sy (fun i0 i1 _ => off <= i0 < i1 /\ i1 < off + q) i0 i1 v -> False) A (A2 _)).
      replace (sh (sh I (off * (s0 + s1))) (q * (s0 + s1))) with (sh I ((off + q) * (s0 + s1))) by (rewrite sh_sh; f_equal; ring).
      eapply Sw_ext; [|eapply Sw_comp; [|exact B|apply (IH (off + q) (k - q)); lia]].
      - intros i0 i1 v Hr. unfold sy, rect. lia.
      - intros i0 i1 v Hr. unfold sy, rect. lia.
    Qed.
  End Rec.

  Lemma tr_step_base off i0 i1 m : tr_step (sh I (off * (s0 + s1))) s0 s1 vl i0 i1 m = tr_step I s0 s1 vl (off + i0) (off + i1) m.
  Proof.
    unfold tr_step. rewrite !sh_sh.
    replace (off * (s0 + s1) + (i1 * s0 + i0 * s1)) with ((off + i1) * s0 + (off + i0) * s1) by ring.
    replace (off * (s0 + s1) + (i1 * s1 + i0 * s0)) with ((off + i1) * s1 + (off + i0) * s0) by ring.
    destruct (vl =? 1); [reflexivity|]. destruct (vl =? 2); [reflexivity|].
    apply zfor_ext. intros v m' _. rewrite !sh_sh.
    replace (off * (s0 + s1) + (i1 * s0 + i0 * s1 + v)) with ((off + i1) * s0 + (off + i0) * s1 + v) by ring.
    replace (off * (s0 + s1) + (i1 * s1 + i0 * s0 + v)) with ((off + i1) * s1 + (off + i0) * s0 + v) by ring.
    reflexivity.
  Qed.

  Lemma tr_dotile_Sw off a b c d m : 0 <= off -> 0 <= a <= b -> b <= c -> c <= d -> off + d <= n ->
    Sw (rect off a b c d) m (tr_dotile (sh I (off * (s0 + s1))) s0 s1 vl a b c d m).
  Proof.
    intros Ho Ha Hb Hc Hd. unfold tr_dotile.
    eapply Sw_ext; [|apply (Sw_zfor (fun j1 i0 i1 _ => exists j0, 0 <= j0 < b - a /\ (i0 = off + (a + j0) /\ i1 = off + (c + j1))))].
    - intros i0 i1 v Hr. unfold sy, rect. split.
      + intros [(j1 & H1 & j0 & H0 & -> & ->)|(j1 & H1 & j0 & H0 & -> & ->)]; lia.
      + intros [H|H]; [left|right].
        * exists (i1 - off - c). split; [lia|]. exists (i0 - off - a). lia.
        * exists (i0 - off - c). split; [lia|]. exists (i1 - off - a). lia.
    - intros j1 m' H1. apply (Sw_zfor (fun j0 i0 i1 _ => i0 = off + (a + j0) /\ i1 = off + (c + j1))).
      + intros j0 m'' H0. rewrite tr_step_base. apply tr_step_Sw; lia.
      + intros i j i0 i1 v Hi Hj Hr. unfold sy. lia.
    - intros i j i0 i1 v Hi Hj Hr. unfold sy.
      intros [(x & Hx & -> & ->)|(x & Hx & -> & ->)] [(y & Hy & E1 & E2)|(y & Hy & E1 & E2)]; lia.
  Qed.

  (** Copying a tile out of, or into, the matrix. *)
  Lemma rect_NoDup p q a b : 0 <= p -> 0 <= q -> p + a <= n -> q + b <= n -> 0 <= a -> 0 <= b -> 0 < vl ->
    NoDup (locs [(a, s0); (b, s1); (vl, 1)]).
  Proof.
    intros Hp Hq Ha Hb H0 H1 Hv.
    apply (inj_NoDup_i [mkdim a s0 s0; mkdim b s1 s1; mkdim vl 1 1]).
    intros ks js Hk Hj E. destruct ks as [|k0 [|k1 [|kv [|]]]]; cbn in Hk; try tauto.
    destruct js as [|j0 [|j1 [|jv [|]]]]; cbn in Hj; try tauto. cbn in E.
    destruct (inj (p + k0) (q + k1) kv (p + j0) (q + j1) jv) as (E0 & E1 & Ev); try (unfold rng; lia); try nia.
    assert (k0 = j0) by lia. assert (k1 = j1) by lia. now subst.
  Qed.
End Sw.

(** [cpy2d] and its variants ignore the allocation counter *)
Lemma cpy2d_ci_nx n0 is0 os0 n1 is1 os1 vl k k' I O m : cpy2d_ci n0 is0 os0 n1 is1 os1 vl k I O m = cpy2d_ci n0 is0 os0 n1 is1 os1 vl k' I O m.
Proof. unfold cpy2d_ci, cpy2d. destruct (_ <? _); reflexivity. Qed.
Lemma cpy2d_co_nx n0 is0 os0 n1 is1 os1 vl k k' I O m : cpy2d_co n0 is0 os0 n1 is1 os1 vl k I O m = cpy2d_co n0 is0 os0 n1 is1 os1 vl k' I O m.
Proof. unfold cpy2d_co, cpy2d. destruct (_ <? _); reflexivity. Qed.

(** Usable forms of the correctness of the two-dimensional copies, between a
    matrix tile and a buffer in another block. *)
Lemma cpy_use (f : rapply) nx n0 is0 os0 n1 is1 os1 vl I O m :
  Correct true false xcopy [mkdim n0 is0 os0; mkdim n1 is1 os1; mkdim vl 1 1] f ->
  (fst I < nx)%nat -> (fst O < nx)%nat -> fst I <> fst O -> 0 <= n0 -> 0 <= n1 -> 0 <= vl ->
  NoDup (locs [(n0, is0); (n1, is1); (vl, 1)]) -> NoDup (locs [(n0, os0); (n1, os1); (vl, 1)]) ->
  (forall i0 i1 v, 0 <= i0 < n0 -> 0 <= i1 < n1 -> 0 <= v < vl ->
     f nx I O m (sh O (i0 * os0 + i1 * os1 + v)) = m (sh I (i0 * is0 + i1 * is1 + v))) /\
  (forall l, (fst l < nx)%nat -> (forall i0 i1 v, 0 <= i0 < n0 -> 0 <= i1 < n1 -> 0 <= v < vl -> l <> sh O (i0 * os0 + i1 * os1 + v)) ->
     f nx I O m l = m l).
Proof.
  intros HC HI HO Hne H0 H1 Hv Ni No. destruct (HC nx I O m) as [V Fr].
  { constructor; auto.
    - repeat constructor; auto.
    - rewrite il_xcopy. exact Ni.
    - rewrite ol_xcopy. exact No.
    - intros l (o & _ & ->) (o' & _ & E). apply Hne. rewrite <- (sh_blk I o), E. reflexivity. }
  split.
  - intros i0 i1 v Hi0 Hi1 Hvv. rewrite vals_xcopy in V. specialize (V [i0; i1; v]). cbn in V.
    rewrite !Z.mul_1_r, !Z.add_0_r, !Z.add_assoc in V. apply V. tauto.
  - intros l Hl Hn. apply Fr; auto. rewrite ol_xcopy. intros (o & Ho & ->).
    apply (in_olocs [mkdim n0 is0 os0; mkdim n1 is1 os1; mkdim vl 1 1]) in Ho as (ks & Hk & ->).
    destruct ks as [|k0 [|k1 [|kv [|]]]]; cbn in Hk; try tauto. cbn in Hn.
    apply (Hn k0 k1 kv); try tauto. cbn. f_equal. ring.
Qed.

Lemma sh_ne_blk p q a b : fst p <> fst q -> sh p a <> sh q b.
Proof. intros H E. apply H. now rewrite <- (sh_blk p a), E. Qed.

Section DoTileBuf.
  Context (nx : nat) (I : loc) (n s0 s1 vl : Z).
  Hypothesis HI : (fst I < nx)%nat.
  Hypothesis Hvl : 0 < vl.
  Hypothesis inj : forall i0 i1 v j0 j1 w, rng n vl i0 i1 v -> rng n vl j0 j1 w ->
    i0 * s0 + i1 * s1 + v = j0 * s0 + j1 * s1 + w -> i0 = j0 /\ i1 = j1 /\ v = w.

  Lemma tr_dotile_buf_Sw off a b c d m : 0 <= off -> 0 <= a <= b -> b <= c -> c <= d -> off + d <= n ->
    Sw nx I n s0 s1 vl (rect off a b c d) m (tr_dotile_buf (nx, 0) (S nx, 0) (sh I (off * (s0 + s1))) s0 s1 vl a b c d m).
  Proof.
    intros Ho Ha Hb Hc Hd. unfold tr_dotile_buf. cbn zeta.
    set (J := sh I (off * (s0 + s1))). set (P := sh J (a * s0 + c * s1)). set (Q := sh J (a * s1 + c * s0)).
    set (n0 := b - a). set (n1 := d - c). set (B0 := (nx, 0) : loc). set (B1 := (S nx, 0) : loc).
    assert (EP : forall i0 i1 v, sh P (i0 * s0 + i1 * s1 + v) = L I s0 s1 (off + a + i0) (off + c + i1) v).
    { intros. unfold P, J, L. rewrite !sh_sh. f_equal. ring. }
    assert (EQ : forall i0 i1 v, sh Q (i0 * s1 + i1 * s0 + v) = L I s0 s1 (off + c + i1) (off + a + i0) v).
    { intros. unfold Q, J, L. rewrite !sh_sh. f_equal. ring. }
    assert (NP : NoDup (locs [(n0, s0); (n1, s1); (vl, 1)])).
    { apply (rect_NoDup nx I n s0 s1 vl HI inj (off + a) (off + c)); unfold n0, n1; lia. }
    assert (NQ : NoDup (locs [(n0, s1); (n1, s0); (vl, 1)])).
    { eapply Permutation_NoDup; [apply locs_perm, perm_swap|].
      apply (rect_NoDup nx I n s0 s1 vl HI inj (off + c) (off + a)); unfold n0, n1; lia. }
    assert (NB : NoDup (locs [(n0, vl); (n1, vl * n0); (vl, 1)])) by (apply NoDup_rowmajor3; unfold n0, n1; lia).
    assert (Hn0 : 0 <= n0) by (unfold n0; lia). assert (Hn1 : 0 <= n1) by (unfold n1; lia).
    rewrite (cpy2d_ci_nx _ _ _ _ _ _ _ 0%nat (S (S nx)) P B0 m).
    destruct (cpy_use _ (S (S nx)) n0 s0 vl n1 s1 (vl * n0) vl P B0 m (cpy2d_ci_correct true _ _ _ _ _ _ vl ltac:(lia)))
      as [A1 F1]; auto; try (cbn; lia).
    set (m1 := cpy2d_ci n0 s0 vl n1 s1 (vl * n0) vl (S (S nx)) P B0 m) in *.
    rewrite (cpy2d_ci_nx _ _ _ _ _ _ _ 0%nat (S (S nx)) Q B1 m1).
    destruct (cpy_use _ (S (S nx)) n0 s1 vl n1 s0 (vl * n0) vl Q B1 m1 (cpy2d_ci_correct true _ _ _ _ _ _ vl ltac:(lia)))
      as [A2 F2]; auto; try (cbn; lia).
    set (m2 := cpy2d_ci n0 s1 vl n1 s0 (vl * n0) vl (S (S nx)) Q B1 m1) in *.
    rewrite (cpy2d_co_nx _ _ _ _ _ _ _ 0%nat (S (S nx)) B1 P m2).
    destruct (cpy_use _ (S (S nx)) n0 vl s0 n1 (vl * n0) s1 vl B1 P m2 (cpy2d_co_correct true _ _ _ _ _ _ vl ltac:(lia)))
      as [A3 F3]; auto; try (cbn; lia).
    set (m3 := cpy2d_co n0 vl s0 n1 (vl * n0) s1 vl (S (S nx)) B1 P m2) in *.
    rewrite (cpy2d_co_nx _ _ _ _ _ _ _ 0%nat (S (S nx)) B0 Q m3).
    destruct (cpy_use _ (S (S nx)) n0 vl s1 n1 (vl * n0) s0 vl B0 Q m3 (cpy2d_co_correct true _ _ _ _ _ _ vl ltac:(lia)))
      as [A4 F4]; auto; try (cbn; lia).
    set (m4 := cpy2d_co n0 vl s1 n1 (vl * n0) s0 vl (S (S nx)) B0 Q m3) in *.
    (* memory of the user's blocks is unchanged by the first two copies *)
    assert (U2 : forall l, (fst l < nx)%nat -> m2 l = m l).
    { intros l Hl. rewrite F2; [|lia|intros i0 i1 v _ _ _ E; rewrite E in Hl; cbn in Hl; lia].
      apply F1; [lia|]. intros i0 i1 v _ _ _ E. rewrite E in Hl. cbn in Hl. lia. }
    assert (U1 : forall l, (fst l < nx)%nat -> m1 l = m l).
    { intros l Hl. apply F1; [lia|]. intros i0 i1 v _ _ _ E. rewrite E in Hl. cbn in Hl. lia. }
    (* values in the two tiles after the third and fourth copy *)
    assert (VP : forall i0 i1 v, 0 <= i0 < n0 -> 0 <= i1 < n1 -> 0 <= v < vl ->
       m3 (sh P (i0 * s0 + i1 * s1 + v)) = m (sh Q (i0 * s1 + i1 * s0 + v))).
    { intros i0 i1 v H0 H1 Hv. rewrite A3 by auto. rewrite A2 by auto. now apply U1. }
    assert (VQ : forall i0 i1 v, 0 <= i0 < n0 -> 0 <= i1 < n1 -> 0 <= v < vl ->
       m4 (sh Q (i0 * s1 + i1 * s0 + v)) = m (sh P (i0 * s0 + i1 * s1 + v))).
    { intros i0 i1 v H0 H1 Hv. rewrite A4 by auto.
      rewrite F3; [|cbn; lia|intros j0 j1 w _ _ _; apply sh_ne_blk; cbn; lia].
      rewrite F2; [|cbn; lia|intros j0 j1 w _ _ _; apply sh_ne_blk; cbn; lia]. now apply A1. }
    split.
    - intros i0 i1 v Hr [Hs|Hs].
      + pose proof Hr as (R0 & R1 & Rv). unfold rect in Hs.
        specialize (VP (i0 - off - a) (i1 - off - c) v ltac:(lia) ltac:(lia) ltac:(lia)). rewrite EP, EQ in VP.
        replace (off + a + (i0 - off - a)) with i0 in VP by ring.
        replace (off + c + (i1 - off - c)) with i1 in VP by ring. rewrite <- VP. apply F4; [cbn; lia|].
        intros j0 j1 w H0 H1 Hw. rewrite EQ. intros E.
        apply (L_inj I n s0 s1 vl inj) in E; [lia|exact Hr|unfold rng; lia].
      + pose proof Hr as (R0 & R1 & Rv). unfold rect in Hs.
        specialize (VQ (i1 - off - a) (i0 - off - c) v ltac:(lia) ltac:(lia) ltac:(lia)). rewrite EP, EQ in VQ.
        replace (off + a + (i1 - off - a)) with i1 in VQ by ring.
        replace (off + c + (i0 - off - c)) with i0 in VQ by ring. exact VQ.
    - intros l Hl Hn. rewrite F4, F3; [now apply U2|lia| |lia|].
      + intros i0 i1 v H0 H1 Hv. rewrite EP. apply Hn; [unfold rng; lia|]. left. unfold rect. lia.
      + intros i0 i1 v H0 H1 Hv. rewrite EQ. apply Hn; [unfold rng; lia|]. right. unfold rect. lia.
  Qed.
End DoTileBuf.

(** ** From [Sw] to a rank-0 in-place problem *)
Lemma Sw_correct nd (f : rapply) n s0 s1 vl : 0 < vl ->
  (forall nx I m, (fst I < nx)%nat ->
    (forall i0 i1 v j0 j1 w, rng n vl i0 i1 v -> rng n vl j0 j1 w ->
      i0 * s0 + i1 * s1 + v = j0 * s0 + j1 * s1 + w -> i0 = j0 /\ i1 = j1 /\ v = w) ->
    Sw nx I n s0 s1 vl (fun a b _ => a < b) m (f nx I I m)) ->
  Correct nd true xcopy [mkdim n s0 s1; mkdim n s1 s0; mkdim vl 1 1] f.
Proof.
  intros Hvl H nx I O m [W1 W2 W3 W4 W5 [<- W6]].
  rewrite il_xcopy in W4.
  assert (inj : forall i0 i1 v j0 j1 w, rng n vl i0 i1 v -> rng n vl j0 j1 w ->
      i0 * s0 + i1 * s1 + v = j0 * s0 + j1 * s1 + w -> i0 = j0 /\ i1 = j1 /\ v = w).
  { intros i0 i1 v j0 j1 w (R0 & R1 & Rv) (R0' & R1' & Rv') E. cbn [ti map dn dis] in W4.
    assert (T : forall i x, 0 <= i < n -> 0 <= x < vl -> In (i * s1 + x) (locs [(n, s1); (vl, 1)])).
    { intros i x Hi Hx. apply in_locs_cons. exists i, x. split; auto. split; auto.
      apply in_locs_cons. exists x, 0. split; auto. split; [now left|ring]. }
    destruct (locs_inj_cons n s0 [(n, s1); (vl, 1)] i0 j0 (i1 * s1 + v) (j1 * s1 + w)) as [-> E2]; auto; try lia.
    apply NoDup_locs_tl in W4; [|lia].
    assert (T2 : forall x, 0 <= x < vl -> In x (locs [(vl, 1)])).
    { intros x Hx. apply in_locs_cons. exists x, 0. split; auto. split; [now left|ring]. }
    destruct (locs_inj_cons n s1 [(vl, 1)] i1 j1 v w) as [-> E3]; auto. }
  destruct (H nx I m W1 inj) as [A F]. split.
  - apply vals_xcopy. intros ks Hk. destruct ks as [|k0 [|k1 [|kv [|]]]]; cbn in Hk; try tauto. cbn [ioff ooff dn dis dos].
    rewrite !Z.mul_1_r, !Z.add_0_r, !Z.add_assoc.
    destruct (Z.eq_dec k0 k1) as [->|Hne].
    + rewrite (Z.add_comm (k1 * s1)). rewrite F; auto. intros i0 i1 v Hr Hs E.
      apply sh_inj in E. apply inj in E; [|unfold rng; tauto|exact Hr]. unfold sy in Hs. lia.
    + specialize (A k1 k0 kv ltac:(unfold rng; tauto) ltac:(unfold sy; lia)). unfold L in A.
      rewrite (Z.add_comm (k0 * s1)). exact A.
  - intros l Hl Hno _. apply F; auto. intros i0 i1 v Hr Hs ->. apply Hno. rewrite ol_xcopy.
    apply InP_intro. apply in_olocs. exists [i1; i0; v]. unfold rng in Hr. cbn. split; [tauto|ring].
Qed.

Theorem transpose_correct nd n s0 s1 vl : 0 <= n -> 0 < vl ->
  Correct nd true xcopy [mkdim n s0 s1; mkdim n s1 s0; mkdim vl 1 1] (fun _ I _ m => transpose I n s0 s1 vl m).
Proof. intros Hn Hv. apply Sw_correct; auto. intros nx I m HI inj. now apply transpose_Sw. Qed.

Lemma sh_off0 I s : I = sh I (0 * s).
Proof. now rewrite Z.mul_0_l, sh_0. Qed.

Theorem transpose_tiled_correct nd n s0 s1 vl : 0 <= n -> 0 < vl <= 512 ->
  Correct nd true xcopy [mkdim n s0 s1; mkdim n s1 s0; mkdim vl 1 1] (fun _ I _ m => transpose_tiled I n s0 s1 vl m).
Proof.
  intros Hn Hv. apply Sw_correct; [lia|]. intros nx I m HI inj. unfold transpose_tiled, transpose_rec.
  rewrite (sh_off0 I (s0 + s1)) at 2.
  eapply Sw_ext; [|apply transpose_rec_Sw; auto; try lia].
  - intros i0 i1 v (R0 & R1 & Rv). unfold sy. lia.
  - intros off a b c d m' H1 H2 H3 H4 H5. apply tr_dotile_Sw; auto.
  - apply compute_tilesz_spec; lia.
Qed.
Theorem transpose_tiledbuf_correct nd n s0 s1 vl : 0 <= n -> 0 < vl <= 512 ->
  Correct nd true xcopy [mkdim n s0 s1; mkdim n s1 s0; mkdim vl 1 1] (fun nx I _ m => transpose_tiledbuf nx I n s0 s1 vl m).
Proof.
  intros Hn Hv. apply Sw_correct; [lia|]. intros nx I m HI inj. unfold transpose_tiledbuf, transpose_rec.
  rewrite (sh_off0 I (s0 + s1)) at 2.
  eapply Sw_ext; [|apply transpose_rec_Sw; auto; try lia].
  - intros i0 i1 v (R0 & R1 & Rv). unfold sy. lia.
  - intros off a b c d m' H1 H2 H3 H4 H5. apply tr_dotile_buf_Sw; auto. lia.
  - apply compute_tilesz_spec; lia.
Qed.
