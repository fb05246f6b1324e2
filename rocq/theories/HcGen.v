(** * rdft/hc2hc-generic.c is a halfcomplex twiddle step (proofs) *)
From Coq Require Import Reals ZArith List Lia Lra Bool Permutation FunctionalExtensionality.
From Verif Require Import NumTheory Cplx Spec SpecR2R TensorModel Offs TensorProofs XForm XKern XSeq CopyModel CopyProofs DftModel HcModel DftTw DftTw2 RSum
  RdftX HcMath HcLib HcStep HcGenMath.
Import ListNotations.
Open Scope Z_scope.

Lemma local_flat n ps G : (forall i, 0 <= i < n -> local (ps i) G) -> local (flat_map ps (zr n)) G.
Proof.
  intros H p Hp x y E. apply in_flat_map in Hp as (i & Hi & Hp). pose proof Hi as Hi'. apply in_zr in Hi'. apply (H i Hi'); auto.
  intros q Hq. apply E. apply in_flat_map. eauto.
Qed.
Definition LC (Q : list Z) (s : Z -> Z) (G : Z -> (Z -> R) -> R) (w : wapply) : Prop :=
  local Q G /\ CorrectW (xp Q s G) [] w.
Lemma LC_body ps s G w : local ps G ->
  (forall nx p mm, w nx p mm = stores p (map (fun q => (s q, G q (fun q' => mm (sh p (s q'))))) ps) mm) -> LC ps s G w.
Proof.
  intros HL E. split; auto. apply CW_ext with (w := fun nx p mm => kern (xp ps s G) nx p p mm).
  - intros nx p mm. rewrite E. unfold kern, xp. cbn [xo]. rewrite map_map. reflexivity.
  - unfold CorrectW. apply (Correct_ip_O true _ [] (kern (xp ps s G))). apply kern_correct.
Qed.
Lemma LC_for n ps s G w : (forall i, 0 <= i < n -> LC (ps i) s G (w i)) ->
  LC (flat_map ps (zr n)) s G (fun nx p m => zfor n (fun i => w i nx p) m).
Proof.
  intros H. split.
  - apply local_flat. intros i Hi. apply H; auto.
  - apply (CW_for [] eq_refl). + intros i Hi. apply H; auto. + intros i Hi. apply H; auto.
Qed.
Lemma split_in (A Q : list Z) : NoDup A -> NoDup Q -> incl A Q ->
  exists B, Permutation Q (A ++ B) /\ forall p, In p B <-> In p Q /\ ~ In p A.
Proof.
  intros NA NQ HI. exists (filter (fun p => if in_dec Z.eq_dec p A then false else true) Q). 
  assert (M : forall p, In p (filter (fun p => if in_dec Z.eq_dec p A then false else true) Q) <-> In p Q /\ ~ In p A).
  { intros p. rewrite filter_In. destruct (in_dec Z.eq_dec p A); intuition congruence. }
  split; [|exact M]. apply NoDup_Permutation; auto.
  - apply NoDup_app_intro; auto.
    + now apply NoDup_filter.
    + intros x Hx Hy. apply M in Hy. tauto.
  - intros p. rewrite in_app_iff, M. destruct (in_dec Z.eq_dec p A); intuition.
Qed.
Lemma LC_pad A Q s G w : NoDup A -> NoDup Q -> incl A Q -> (forall p, In p Q -> ~ In p A -> forall x, G p x = x p) ->
  LC A s G w -> LC Q s G w.
Proof.
  intros NA NQ HI HG [HL HC]. destruct (split_in A Q NA NQ HI) as (B & P & M). split.
  - intros p Hp x y E. destruct (in_dec Z.eq_dec p A) as [i|i].
    + apply HL; auto.
    + rewrite !HG by auto. now apply E.
  - apply (CW_sim [] Q (A ++ B) s G G); auto. apply (CW_pad [] eq_refl ltac:(intros ? ? [E|[]]; congruence) A B s G w); [|exact HC].
    intros p Hp x. apply M in Hp as [Hp1 Hp2]. now apply HG.
Qed.
Lemma in2 (f : Z -> Z -> list Z) n1 n2 p : In p (flat_map (fun k => flat_map (f k) (zr n2)) (zr n1)) <->
  exists k j, 0 <= k < n1 /\ 0 <= j < n2 /\ In p (f k j).
Proof.
  rewrite in_flat_map. split.
  - intros (k & Hk & Hp). apply in_flat_map in Hp as (j & Hj & Hp). apply in_zr in Hk, Hj. eauto 8.
  - intros (k & j & Hk & Hj & Hp). exists k. split; [now apply in_zr|]. apply in_flat_map. exists j. split; [now apply in_zr|auto].
Qed.
Lemma NoDup2 (f : Z -> Z -> list Z) n1 n2 :
  (forall k j, 0 <= k < n1 -> 0 <= j < n2 -> NoDup (f k j)) ->
  (forall k j k' j' x, 0 <= k < n1 -> 0 <= j < n2 -> 0 <= k' < n1 -> 0 <= j' < n2 -> In x (f k j) -> In x (f k' j') -> k = k' /\ j = j') ->
  NoDup (flat_map (fun k => flat_map (f k) (zr n2)) (zr n1)).
Proof.
  intros H1 H2. apply NoDup_flat_map'; [apply NoDup_zr| |].
  - intros k Hk. apply in_zr in Hk. apply NoDup_flat_map'; [apply NoDup_zr| |].
    + intros j Hj. apply in_zr in Hj. auto.
    + intros j j' x Hj Hj' A B. apply in_zr in Hj, Hj'. now destruct (H2 k j k j' x Hk Hj Hk Hj' A B).
  - intros k k' x Hk Hk' A B. apply in_zr in Hk, Hk'. apply in_flat_map in A as (j & Hj & A), B as (j' & Hj' & B). apply in_zr in Hj, Hj'.
    now destruct (H2 k j k' j' x Hk Hj Hk' Hj' A B).
Qed.
Lemma upd_cong3 m m' l l' v v' : m = m' -> l = l' -> v = v' -> upd m l v = upd m' l' v'.
Proof. intros; subst; auto. Qed.

Section Gen.
  Variables (r m s m1 c1 : Z).
  Hypothesis (Hr : 0 < r) (Hm : 0 < m) (Ho : Z.odd r = true) (Hom : Z.odd m = true).
  Hypothesis (H1 : 0 < m1) (Hc : 0 <= c1) (H2 : 2 * (m1 + c1 - 1) < m).
  Notation J := (hrange r m m1 c1).
  Notation sc := (fun p : Z => p * s).
  Lemma in_J p : In p J <-> exists k j, 0 <= k < r /\ m1 <= j < m1 + c1 /\ (p = k * m + j \/ p = k * m + (m - j)).
  Proof.
    rewrite in_hrange. setoid_rewrite in_hcells. setoid_rewrite in_ocells. split.
    - intros (j & Hj & k & c & Hk & Hcc & ->). exists k, j. split; [auto|split; [auto|]]. destruct Hcc as [->|(_ & _ & ->)]; auto.
    - intros (k & j & Hk & Hj & [->| ->]); exists j; (split; [auto|]); [exists k, j|exists k, (m - j)]; (split; [auto|split; [lia|auto]]).
  Qed.
  Lemma NoDup_J : NoDup J.
  Proof. apply hrange_NoDup; lia. Qed.

  (** ** bytwiddle *)
  Definition twc k' j' := [(k' + 1) * m + (m1 + j'); (k' + 1) * m + (m - (m1 + j'))].
  Lemma table_eq k j : 0 <= k -> m1 <= j < m1 + c1 ->
    tw_half0 (r * m) m ((m - 1) * k + 2 * (j - 1)) = fst (cexp (r * m) (j * k)) /\
    tw_half0 (r * m) m ((m - 1) * k + 2 * (j - 1) + 1) = snd (cexp (r * m) (j * k)).
  Proof.
    intros Hk Hj. unfold tw_half0. cbn zeta.
    assert (E1 : ((m - 1) * k + 2 * (j - 1)) / (m - 1) = k) by (symmetry; apply Z.div_unique with (2 * (j - 1)); lia).
    assert (E2 : ((m - 1) * k + 2 * (j - 1)) mod (m - 1) = 2 * (j - 1)) by (symmetry; apply Z.mod_unique with k; lia).
    assert (E3 : ((m - 1) * k + 2 * (j - 1) + 1) / (m - 1) = k).
    { apply Zodd_bool_iff in Hom. apply Zodd_ex in Hom as [h Eh]. symmetry; apply Z.div_unique with (2 * (j - 1) + 1); lia. }
    assert (E4 : ((m - 1) * k + 2 * (j - 1) + 1) mod (m - 1) = 2 * (j - 1) + 1).
    { apply Zodd_bool_iff in Hom. apply Zodd_ex in Hom as [h Eh]. symmetry; apply Z.mod_unique with k; lia. }
    rewrite E1, E2, E3, E4.
    replace (2 * (j - 1) / 2) with (j - 1) by (apply Z.div_unique with 0; lia).
    replace ((2 * (j - 1)) mod 2) with 0 by (apply Z.mod_unique with (j - 1); lia).
    replace ((2 * (j - 1) + 1) / 2) with (j - 1) by (apply Z.div_unique with 1; lia).
    replace ((2 * (j - 1) + 1) mod 2) with 1 by (apply Z.mod_unique with (j - 1); lia).
    replace (j - 1 + 1) with j by ring. unfold part. cbn [Z.eqb].
    assert (E : cexp (r * m) ((j * k) mod (r * m)) = cexp (r * m) (j * k)) by (rewrite !cexp_W, W_mod by nia; auto).
    now rewrite E.
  Qed.
  Lemma twc_local sg k' j' : 0 <= j' < c1 -> local (twc k' j') (gtw r m sg).
  Proof.
    intros Hj p Hp x y E. unfold twc in *.
    assert (Ea := E _ (or_introl eq_refl)). assert (Eb := E _ (or_intror (or_introl eq_refl))).
    destruct Hp as [<-|[<-|[]]]; [rewrite !gtw_lo by lia|rewrite !gtw_hi by lia]; now rewrite Ea, Eb.
  Qed.
  Definition tw1 (sign : R) : wapply := fun _ IO mm =>
    let ms := m * s in
    let wrem := 2 * (Z.quot (m - 1) 2 - c1) in
    let Wt := tw_half0 (r * m) m in
    zfor (r - 1) (fun k' => zfor c1 (fun j mm =>
    let k := k' + 1 in
    let w := (m - 1) + 2 * (m1 - 1) + k' * (2 * c1 + wrem) + 2 * j in
    let pr := sh IO (m1 * s + k * ms + j * s) in
    let pi := sh IO (- (m1 * s) + (k + 1) * ms - j * s) in
    let xr := mm pr in let xi := mm pi in
    let wr := Wt w in let wi := (sign * Wt (w + 1)%Z)%R in
    upd (upd mm pr (xr * wr - xi * wi)%R) pi (xi * wr + xr * wi)%R)) mm.
  Lemma tw1_LC sg : LC J sc (gtw r m sg) (tw1 sg).
  Proof.
    apply LC_pad with (A := flat_map (fun k => flat_map (twc k) (zr c1)) (zr (r - 1))).
    - apply NoDup2.
      + intros k j Hk Hj. unfold twc. constructor; [intros [C|[]]; lia|constructor; [intros []|constructor]].
      + intros k j k' j' x Hk Hj Hk' Hj' A B. unfold twc in A, B. cbn [In] in A, B.
        destruct A as [A|[A|[]]], B as [B|[B|[]]]; rewrite <- A in B; apply row_inj in B; lia.
    - apply NoDup_J.
    - intros p Hp. apply in2 in Hp as (k & j & Hk & Hj & Hp). apply in_J. exists (k + 1), (m1 + j). split; [lia|]. split; [lia|].
      destruct Hp as [<-|[<-|[]]]; auto.
    - intros p Hp Np x. apply in_J in Hp as (k & j & Hk & Hj & Hp).
      assert (k = 0).
      { destruct (Z.eq_dec k 0); auto. exfalso. apply Np. apply in2. exists (k - 1), (j - m1). split; [lia|]. split; [lia|]. unfold twc.
        replace (k - 1 + 1) with k by lia. replace (m1 + (j - m1)) with j by lia. destruct Hp as [->| ->]; cbn; auto. }
      subst k. assert (Z0 : cexp (r * m) (j * 0) = C1) by (rewrite Z.mul_0_r, cexp_W, W_0; apply C_eq; cbn; ring).
      destruct Hp as [->| ->]; [rewrite gtw_lo by lia|rewrite gtw_hi by lia]; rewrite Z0; cbn [fst snd C1]; ring.
    - apply (LC_for (r - 1) (fun k => flat_map (twc k) (zr c1)) sc _ (fun k' nx IO mm => zfor c1 _ mm)). intros k' Hk.
      apply (LC_for c1 (twc k') sc _ (fun j nx IO mm => _ )). intros j Hj.
      apply LC_body; [now apply twc_local|]. intros nx p mm. cbn zeta. unfold twc. cbn [map stores].
      rewrite gtw_lo, gtw_hi by lia. destruct (table_eq (k' + 1) (m1 + j) ltac:(lia) ltac:(lia)) as [T1 T2]. rewrite <- T1, <- T2.
      assert (Q : Z.quot (m - 1) 2 * 2 = m - 1).
      { apply Zodd_bool_iff in Hom. apply Zodd_ex in Hom as [h Eh]. replace (m - 1) with (h * 2) by lia. now rewrite Z.quot_mul by lia. }
      replace (m - 1 + 2 * (m1 - 1) + k' * (2 * c1 + 2 * (Z.quot (m - 1) 2 - c1)) + 2 * j) with ((m - 1) * (k' + 1) + 2 * (m1 + j - 1)) by nia.
      replace (((k' + 1) * m + (m1 + j)) * s) with (m1 * s + (k' + 1) * (m * s) + j * s) by ring.
      replace (((k' + 1) * m + (m - (m1 + j))) * s) with (- (m1 * s) + (k' + 1 + 1) * (m * s) - j * s) by ring.
      reflexivity.
  Qed.

  Ltac four E := assert (Ea := E _ (or_introl eq_refl)); assert (Eb := E _ (or_intror (or_introl eq_refl)));
    assert (Ec := E _ (or_intror (or_intror (or_introl eq_refl)))); assert (Ed := E _ (or_intror (or_intror (or_intror (or_introl eq_refl))))).
  Lemma half_r : exists h, r = 2 * h + 1 /\ Z.quot (r - 1) 2 = h /\ Z.quot (r + 1) 2 = h + 1.
  Proof.
    apply Zodd_bool_iff in Ho. apply Zodd_ex in Ho as [h Eh]. exists h. split; [auto|]. subst r.
    replace (2 * h + 1 - 1) with (h * 2) by ring. replace (2 * h + 1 + 1) with ((h + 1) * 2) by ring. now rewrite !Z.quot_mul by lia.
  Qed.
  (** ** the loops of reorder_dit and reorder_dif *)
  Definition roc k' j' := let k := k' + 1 in let j := m1 + j' in
    [k * m + j; (r - k) * m + (m - j); (r - k) * m + j; k * m + (m - j)].
  Notation ROC := (flat_map (fun k => flat_map (roc k) (zr c1)) (zr (Z.quot (r - 1) 2))).
  Lemma roc_NoDup : NoDup ROC.
  Proof.
    destruct half_r as (h & Eh & -> & _). apply NoDup2.
    - intros k j Hk Hj. unfold roc. cbn zeta.
      repeat (constructor; [cbn [In]; intros C; repeat (destruct C as [C|C]; [apply row_inj in C; lia|]); exact C|]). constructor.
    - intros k j k' j' x Hk Hj Hk' Hj' A B. unfold roc in A, B. cbn [In] in A, B.
      destruct A as [A|[A|[A|[A|[]]]]], B as [B|[B|[B|[B|[]]]]]; rewrite <- A in B; apply row_inj in B; lia.
  Qed.
  Lemma roc_incl : incl ROC J.
  Proof.
    destruct half_r as (h & Eh & -> & _). intros p Hp. apply in2 in Hp as (k & j & Hk & Hj & Hp). apply in_J.
    unfold roc in Hp. cbn [In] in Hp. destruct Hp as [<-|[<-|[<-|[<-|[]]]]];
      [exists (k + 1), (m1 + j)|exists (r - (k + 1)), (m1 + j)|exists (r - (k + 1)), (m1 + j)|exists (k + 1), (m1 + j)]; (split; [lia|split; [lia|auto]]).
  Qed.
  Lemma roc_row0 p : In p J -> ~ In p ROC -> exists j, m1 <= j < m1 + c1 /\ (p = 0 * m + j \/ p = 0 * m + (m - j)).
  Proof.
    intros Hp Np. apply in_J in Hp as (k & j & Hk & Hj & Hp). exists j. split; [auto|].
    destruct (Z.eq_dec k 0) as [->|N0]; [exact Hp|]. exfalso. apply Np. destruct half_r as (h & Eh & -> & _). apply in2.
    destruct (Z_lt_le_dec (2 * k) r) as [L|L].
    - exists (k - 1), (j - m1). split; [lia|]. split; [lia|]. unfold roc. cbn zeta.
      replace (k - 1 + 1) with k by lia. replace (m1 + (j - m1)) with j by lia. destruct Hp as [->| ->]; cbn; auto.
    - exists (r - k - 1), (j - m1). split; [lia|]. split; [lia|]. unfold roc. cbn zeta.
      replace (r - k - 1 + 1) with (r - k) by lia. replace (r - (r - k)) with k by lia. replace (m1 + (j - m1)) with j by lia.
      destruct Hp as [->| ->]; cbn; auto.
  Qed.
  Lemma gr1_val k j x : 1 <= k -> k < r -> 0 < j -> 2 * j < m ->
    gr1 r m (k * m + j) x = (x (k * m + j)%Z - x ((r - k) * m + (m - j))%Z)%R /\
    gr1 r m (k * m + (m - j)) x = (x (k * m + (m - j))%Z + x ((r - k) * m + j)%Z)%R.
  Proof. intros. rewrite gr1_lo, gr1_hi by lia. destruct (Z.eqb_spec k 0); [lia|auto]. Qed.
  Lemma gd1_val k j x : 1 <= k -> k < r -> 0 < j -> 2 * j < m ->
    gd1 r m (k * m + j) x = (/ 2 * x (k * m + j)%Z + / 2 * x ((r - k) * m + (m - j))%Z)%R /\
    gd1 r m (k * m + (m - j)) x = (/ 2 * x (k * m + (m - j))%Z - / 2 * x ((r - k) * m + j)%Z)%R.
  Proof. intros. rewrite gd1_lo, gd1_hi by lia. destruct (Z.eqb_spec k 0); [lia|auto]. Qed.
  Lemma dit_loop_LC : LC J sc (gr1 r m) (fun _ IO mm => hg_dit_loop r m s m1 (m1 + c1) IO mm).
  Proof.
    apply LC_pad with (A := ROC); [apply roc_NoDup|apply NoDup_J|apply roc_incl| |].
    - intros p Hp Np x. destruct (roc_row0 p Hp Np) as (j & Hj & [->| ->]); [rewrite gr1_lo by lia|rewrite gr1_hi by lia]; reflexivity.
    - unfold hg_dit_loop. cbn zeta. replace (m1 + c1 - m1) with c1 by lia.
      apply (LC_for (Z.quot (r - 1) 2) (fun k => flat_map (roc k) (zr c1)) sc _ (fun k' nx IO mm => zfor c1 _ mm)). intros k' Hk.
      apply (LC_for c1 (roc k') sc _ (fun j nx IO mm => _ )). intros j' Hj.
      destruct half_r as (h & Eh & Eq & _). rewrite Eq in Hk.
      destruct (gr1_val (k' + 1) (m1 + j') (fun _ => 0%R)) as [_ _]; try lia.
      apply LC_body.
      + intros p Hp x y E. unfold roc in *. cbn zeta in *. four E.
        destruct (gr1_val (k' + 1) (m1 + j') x) as [X1 X2]; try lia. destruct (gr1_val (r - (k' + 1)) (m1 + j') x) as [X3 X4]; try lia.
        destruct (gr1_val (k' + 1) (m1 + j') y) as [Y1 Y2]; try lia. destruct (gr1_val (r - (k' + 1)) (m1 + j') y) as [Y3 Y4]; try lia.
        replace (r - (r - (k' + 1))) with (k' + 1) in * by lia.
        destruct Hp as [<-|[<-|[<-|[<-|[]]]]]; congruence.
      + intros nx p mm. cbn zeta. unfold roc. cbn zeta. cbn [map stores]. set (x := fun q' => mm (sh p (q' * s))).
        destruct (gr1_val (k' + 1) (m1 + j') x) as [X1 X2]; try lia. destruct (gr1_val (r - (k' + 1)) (m1 + j') x) as [X3 X4]; try lia.
        replace (r - (r - (k' + 1))) with (k' + 1) in * by lia. rewrite X1, X2, X3, X4. unfold x. rewrite !sh_sh.
        replace ((k' + 1) * (m * s) + (m1 + j') * s) with (((k' + 1) * m + (m1 + j')) * s) by ring.
        replace ((r - (k' + 1)) * (m * s) + (m * s - (m1 + j') * s)) with (((r - (k' + 1)) * m + (m - (m1 + j'))) * s) by ring.
        replace ((r - (k' + 1)) * (m * s) + (m1 + j') * s) with (((r - (k' + 1)) * m + (m1 + j')) * s) by ring.
        replace ((k' + 1) * (m * s) + (m * s - (m1 + j') * s)) with (((k' + 1) * m + (m - (m1 + j'))) * s) by ring.
        apply upd_cong3; auto. apply upd_cong3; auto. apply upd_cong3; auto. ring.
  Qed.
  Lemma dif_loop_LC : LC J sc (gd1 r m) (fun _ IO mm => hg_dif_loop r m s m1 (m1 + c1) IO mm).
  Proof.
    apply LC_pad with (A := ROC); [apply roc_NoDup|apply NoDup_J|apply roc_incl| |].
    - intros p Hp Np x. destruct (roc_row0 p Hp Np) as (j & Hj & [->| ->]); [rewrite gd1_lo by lia|rewrite gd1_hi by lia]; reflexivity.
    - unfold hg_dif_loop. cbn zeta. replace (m1 + c1 - m1) with c1 by lia.
      apply (LC_for (Z.quot (r - 1) 2) (fun k => flat_map (roc k) (zr c1)) sc _ (fun k' nx IO mm => zfor c1 _ mm)). intros k' Hk.
      apply (LC_for c1 (roc k') sc _ (fun j nx IO mm => _ )). intros j' Hj.
      destruct half_r as (h & Eh & Eq & _). rewrite Eq in Hk.
      apply LC_body.
      + intros p Hp x y E. unfold roc in *. cbn zeta in *. four E.
        destruct (gd1_val (k' + 1) (m1 + j') x) as [X1 X2]; try lia. destruct (gd1_val (r - (k' + 1)) (m1 + j') x) as [X3 X4]; try lia.
        destruct (gd1_val (k' + 1) (m1 + j') y) as [Y1 Y2]; try lia. destruct (gd1_val (r - (k' + 1)) (m1 + j') y) as [Y3 Y4]; try lia.
        replace (r - (r - (k' + 1))) with (k' + 1) in * by lia.
        destruct Hp as [<-|[<-|[<-|[<-|[]]]]]; congruence.
      + intros nx p mm. cbn zeta. unfold roc. cbn zeta. cbn [map stores]. set (x := fun q' => mm (sh p (q' * s))).
        destruct (gd1_val (k' + 1) (m1 + j') x) as [X1 X2]; try lia. destruct (gd1_val (r - (k' + 1)) (m1 + j') x) as [X3 X4]; try lia.
        replace (r - (r - (k' + 1))) with (k' + 1) in * by lia. rewrite X1, X2, X3, X4. unfold x. rewrite !sh_sh.
        replace ((k' + 1) * (m * s) + (m1 + j') * s) with (((k' + 1) * m + (m1 + j')) * s) by ring.
        replace ((r - (k' + 1)) * (m * s) + (m * s - (m1 + j') * s)) with (((r - (k' + 1)) * m + (m - (m1 + j'))) * s) by ring.
        replace ((r - (k' + 1)) * (m * s) + (m1 + j') * s) with (((r - (k' + 1)) * m + (m1 + j')) * s) by ring.
        replace ((k' + 1) * (m * s) + (m * s - (m1 + j') * s)) with (((k' + 1) * m + (m - (m1 + j'))) * s) by ring.
        reflexivity.
  Qed.
  (** ** swapri *)
  Definition swc k j' := let j := m1 + j' in if 2 * k + 1 =? r then [k * m + (m - j)] else [k * m + (m - j); (r - 1 - k) * m + (m - j)].
  Notation SWC := (flat_map (fun k => flat_map (swc k) (zr c1)) (zr (Z.quot (r + 1) 2))).
  Lemma swapri_LC : LC J sc (gr2 r m) (fun _ IO mm => hg_swapri r m s m1 (m1 + c1) IO mm).
  Proof.
    apply LC_pad with (A := SWC).
    - destruct half_r as (h & Eh & _ & ->). apply NoDup2.
      + intros k j Hk Hj. unfold swc. cbn zeta. destruct (Z.eqb_spec (2 * k + 1) r).
        * constructor; [intros []|constructor].
        * constructor; [intros [C|[]]; apply row_inj in C; lia|]. constructor; [intros []|constructor].
      + intros k j k' j' x Hk Hj Hk' Hj' A B. unfold swc in A, B. cbn zeta in A, B.
        destruct (Z.eqb_spec (2 * k + 1) r); destruct (Z.eqb_spec (2 * k' + 1) r); cbn [In] in A, B;
        repeat match goal with H : _ \/ _ |- _ => destruct H end; try contradiction; subst x;
        match goal with H : _ = _ * _ + _ |- _ => apply row_inj in H; lia end.
    - apply NoDup_J.
    - destruct half_r as (h & Eh & _ & ->). intros p Hp. apply in2 in Hp as (k & j & Hk & Hj & Hp). apply in_J. unfold swc in Hp. cbn zeta in Hp.
      assert (X : p = k * m + (m - (m1 + j)) \/ p = (r - 1 - k) * m + (m - (m1 + j))).
      { destruct (2 * k + 1 =? r); cbn [In] in Hp; intuition. }
      destruct X as [->| ->]; [exists k, (m1 + j)|exists (r - 1 - k), (m1 + j)]; (split; [lia|split; [lia|auto]]).
    - intros p Hp Np x. apply in_J in Hp as (k & j & Hk & Hj & [->| ->]); [now rewrite gr2_lo by lia|].
      exfalso. apply Np. destruct half_r as (h & Eh & _ & ->). apply in2. destruct (Z_lt_le_dec k (h + 1)) as [L|L].
      + exists k, (j - m1). split; [lia|]. split; [lia|]. unfold swc. cbn zeta. replace (m1 + (j - m1)) with j by lia.
        destruct (2 * k + 1 =? r); now left.
      + exists (r - 1 - k), (j - m1). split; [lia|]. split; [lia|]. unfold swc. cbn zeta. replace (m1 + (j - m1)) with j by lia.
        destruct (Z.eqb_spec (2 * (r - 1 - k) + 1) r); [lia|]. right; left. f_equal; f_equal; lia.
    - unfold hg_swapri. cbn zeta. replace (m1 + c1 - m1) with c1 by lia.
      apply (LC_for (Z.quot (r + 1) 2) (fun k => flat_map (swc k) (zr c1)) sc _ (fun k' nx IO mm => zfor c1 _ mm)). intros k Hk.
      apply (LC_for c1 (swc k) sc _ (fun j nx IO mm => _ )). intros j' Hj.
      destruct half_r as (h & Eh & _ & Eq). rewrite Eq in Hk.
      apply LC_body.
      + intros p Hp x y E. unfold swc in *. cbn zeta in *. destruct (Z.eqb_spec (2 * k + 1) r) as [Ek|Nk].
        * destruct Hp as [<-|[]]. rewrite !gr2_hi by lia. replace (r - 1 - k) with k by lia. apply E. now left.
        * assert (Ea := E _ (or_introl eq_refl)). assert (Eb := E _ (or_intror (or_introl eq_refl))).
          destruct Hp as [<-|[<-|[]]]; rewrite !gr2_hi by lia; auto. replace (r - 1 - (r - 1 - k)) with k by lia. auto.
      + intros nx p mm. cbn zeta. unfold swc. cbn zeta.
        replace ((k + 1) * (m * s) - m1 * s - j' * s) with ((k * m + (m - (m1 + j'))) * s) by ring.
        replace ((r - k) * (m * s) - m1 * s - j' * s) with (((r - 1 - k) * m + (m - (m1 + j'))) * s) by ring.
        destruct (Z.eqb_spec (2 * k + 1) r) as [Ek|Nk]; cbn [map stores]; rewrite !gr2_hi by lia.
        * replace (r - 1 - k) with k by lia. extensionality l.
          destruct (loc_eqb (sh p ((k * m + (m - (m1 + j'))) * s)) l) eqn:El.
          -- apply loc_eqb_spec in El. subst l. now rewrite !upd_same.
          -- assert (N : sh p ((k * m + (m - (m1 + j'))) * s) <> l) by (intros C; apply loc_eqb_spec in C; congruence).
             now rewrite !upd_other.
        * replace (r - 1 - (r - 1 - k)) with k by lia. reflexivity.
  Qed.

  (** ** the children *)
  Variables (v vs : Z).
  Notation V := [mkdim v vs vs].
  Lemma V_off a b : In (a, b) (offs V) -> a = b.
  Proof. intros H. apply offs1_inv in H as (i & _ & -> & ->). auto. Qed.
  Definition mst := m - (m1 + c1 - 1) - m1.
  Definition Jg := flat_map (fun k => flat_map (fun i => map (fun j => k * m + (m1 + i * mst + j)) (zr c1)) (zr 2)) (zr r).
  Lemma in_Jg p : In p Jg <-> exists k i j, 0 <= k < r /\ 0 <= i < 2 /\ 0 <= j < c1 /\ p = k * m + (m1 + i * mst + j).
  Proof.
    unfold Jg. rewrite (in2 (fun k i => map (fun j => k * m + (m1 + i * mst + j)) (zr c1))). split.
    - intros (k & i & Hk & Hi & Hp). apply in_map_iff in Hp as (j & <- & Hj). apply in_zr in Hj. exists k, i, j. auto.
    - intros (k & i & j & Hk & Hi & Hj & ->). exists k, i. split; [auto|]. split; [auto|]. apply in_map_iff. exists j. split; [auto|now apply in_zr].
  Qed.
  Lemma Jg_perm : Permutation J Jg.
  Proof.
    apply NoDup_Permutation; [apply NoDup_J| |].
    - unfold Jg. apply (NoDup2 (fun k i => map (fun j => k * m + (m1 + i * mst + j)) (zr c1))).
      + intros k i _ _. apply FinFun.Injective_map_NoDup; [intros a b; lia|apply NoDup_zr].
      + intros k i k' i' x Hk Hi Hk' Hi' A B. apply in_map_iff in A as (j & <- & Hj), B as (j' & E & Hj'). apply in_zr in Hj, Hj'.
        unfold mst in E. assert (i = 0 \/ i = 1) as [->| ->] by lia; assert (i' = 0 \/ i' = 1) as [->| ->] by lia; apply row_inj in E; lia.
    - intros p. rewrite in_J, in_Jg. split.
      + intros (k & j & Hk & Hj & [->| ->]).
        * exists k, 0, (j - m1). split; [auto|]. split; [lia|]. split; [lia|]. ring.
        * exists k, 1, (m1 + c1 - 1 - j). split; [auto|]. split; [lia|]. split; [lia|]. unfold mst. ring.
      + intros (k & i & j & Hk & Hi & Hj & ->). assert (i = 0 \/ i = 1) as [->| ->] by lia.
        * exists k, (m1 + j). split; [auto|]. split; [lia|]. left. ring.
        * exists k, (m1 + c1 - 1 - j). split; [auto|]. split; [lia|]. right. unfold mst. ring.
  Qed.
  Lemma gch_local_J kd : local J (gch r m kd).
  Proof.
    intros p Hp x y E. apply in_J in Hp as (k & j & Hk & Hj & [->| ->]); [rewrite !gch_lo by lia|rewrite !gch_hi by lia];
      apply Rsum_ext; intros q Hq; f_equal; apply E; apply in_J; exists q, j; auto.
  Qed.
  Lemma cld_correct nd kd f :
    Correct nd true (rx [(kd, mkdim r (m * s) (m * s))]) [mkdim 2 (mst * s) (mst * s); mkdim c1 s s; mkdim v vs vs] f ->
    CorrectW (xp J sc (gch r m kd)) V (fun nx p mm => f nx (sh p (m1 * s)) (sh p (m1 * s)) mm).
  Proof.
    intros HC. unfold CorrectW.
    apply (Correct_ip_O true _ V (fun nx I O mm => f nx (sh I (m1 * s)) (sh O (m1 * s)) mm)).
    apply Correct_ip_nd with (nd := nd).
    set (X := rx [(kd, mkdim r (m * s) (m * s))]) in *. set (v1 := [mkdim 2 (mst * s) (mst * s); mkdim c1 s s]).
    assert (HV : Correct nd true (xvec X v1) V f).
    { apply Correct_xvec_inv; [unfold v1; repeat constructor; cbn; lia|exact HC]. }
    eapply Correct_sim with (vec' := V) (X' := xshift (m1 * s) (m1 * s) (xvec X v1)); auto.
    2:{ now apply Correct_shift. }
    assert (EX : xi X = map (fun k => k * (m * s)) (zr r)).
    { unfold X. cbn [rx xi ds map snd ti dn dis locs]. now rewrite lplus_0_r. }
    assert (EO : map fst (xo X) = map (fun k => k * (m * s)) (zr r)).
    { unfold X. rewrite rx_fst. cbn [ds map snd to_ dn dos locs]. now rewrite lplus_0_r. }
    assert (EV : locs (ti v1) = flat_map (fun i => map (fun j => i * (mst * s) + j * s) (zr c1)) (zr 2)).
    { unfold v1. cbn [ti map dn dis locs]. rewrite lplus_0_r. unfold dimlocs, lplus. cbn [fst snd]. rewrite flat_map_map.
      apply flat_map_ext. intros i. now rewrite map_map. }
    assert (EV' : locs (to_ v1) = locs (ti v1)) by reflexivity.
    assert (PJ : map (Z.add (m1 * s)) (lplus (map (fun k => k * (m * s)) (zr r)) (locs (ti v1))) = map sc Jg).
    { rewrite EV. unfold lplus, Jg. rewrite flat_map_map, !map_flat_map. apply flat_map_ext. intros k. rewrite !map_flat_map.
      apply flat_map_ext. intros i. rewrite !map_map. apply map_ext. intros j. ring. }
    split; [|split].
    - cbn [xi xp xshift xvec]. unfold il. rewrite EX, PJ. apply Permutation_map, Jg_perm.
    - rewrite xp_fst. cbn [xo xshift]. rewrite map_map. cbn [fst]. rewrite <- (map_map fst (Z.add (m1 * s))). rewrite xvec_fst, EO, EV'.
      rewrite (Permutation_map (Z.add (m1 * s)) (lplus_comm (locs (ti v1)) (map (fun k => k * (m * s)) (zr r)))). rewrite PJ. apply Permutation_map, Jg_perm.
    - intros o F HF. cbn [xo xp] in HF. apply in_map_iff in HF as (p & E & Hp). injection E as <- <-.
      pose proof Hp as Hp'. apply (Permutation_in _ Jg_perm), in_Jg in Hp' as (k & i & j & Hk & Hi & Hj & Ep).
      set (M := fun x : Z -> R => rmx [(kd, mkdim r (m * s) (m * s))] x [k]). set (a := i * (mst * s) + j * s).
      exists (fun x => M (fun z => x (m1 * s + (a + z)))). split.
      + cbn [xo xshift]. apply in_map_iff. exists (a + k * (m * s), fun x => M (fun z => x (a + z))). split.
        * cbn [fst snd]. apply f_equal2; [|reflexivity]. unfold a. rewrite Ep. ring.
        * apply xvec_xo. exists a, a, (k * (m * s)), M. split; [unfold v1, a; apply offs2_in; auto|]. split; [|split; reflexivity].
          unfold X. apply in_rx. exists [k]. split; [apply in_box1; eauto|]. split; [cbn [ooff ds map snd dos]; ring|reflexivity].
      + intros x. cbn beta. unfold M. pose proof (x1_rmx kd r (m * s) (m * s) (fun z => x (m1 * s + (a + z))) k) as X1. unfold x1 in X1. rewrite X1.
        clear X1. unfold a. apply in_J in Hp as (k0 & j0 & Hk0 & Hj0 & Ec).
        assert (Ei : i = 0 \/ i = 1) by lia.
        destruct Ec as [Ec|Ec]; rewrite Ec in Ep |- *; [rewrite gch_lo by lia|rewrite gch_hi by lia];
          (assert (k0 = k /\ p = p /\ p - k0 * m = m1 + i * mst + j) as (-> & _ & Eq) by
            (destruct Ei as [->| ->]; unfold mst in *; apply row_inj in Ep; lia));
          apply Rsum_ext; intros q Hq; (apply f_equal2; [|reflexivity]); f_equal; unfold mst in *; nia.
  Qed.

  Lemma id_child nd Q f : Q <> [] -> Correct nd true (rx []) V f ->
    CorrectW (xp Q sc (fun p x => x p)) V (fun nx p mm => f nx p p mm).
  Proof.
    intros NQ HC nx I O mm [W1 W2 W3 W4 W5 W6]. destruct W6 as [-> W6].
    assert (NL : NoDup (locs (ti V))).
    { rewrite il_xp in W4. destruct Q as [|q Q]; [congruence|]. unfold lplus in W4. cbn [map flat_map] in W4.
      apply NoDup_app_inv in W4 as (N & _ & _). now apply NoDup_map_inv in N. }
    destruct (HC nx O O mm) as [VV F].
    { rewrite rx_nil. constructor; auto.
      - unfold il, xcopy. cbn [xi]. unfold lplus. cbn [flat_map]. rewrite app_nil_r. erewrite map_ext; [rewrite map_id; exact NL|reflexivity].
      - unfold ol, xcopy. cbn [xo map fst]. unfold lplus. cbn [flat_map]. rewrite app_nil_r. erewrite map_ext; [rewrite map_id; exact NL|reflexivity].
      - split; [auto|]. intros o. reflexivity. }
    assert (A : forall l, (fst l < nx)%nat -> f nx O O mm l = mm l).
    { intros l Hl. rewrite rx_nil in VV.
      destruct (in_dec Z.eq_dec (snd l - snd O) (locs (to_ V))) as [i|i]; [destruct (Nat.eq_dec (fst l) (fst O)) as [e|e]|].
      - rewrite <- olocs_offs in i. apply in_map_iff in i as ((a & b) & Eb & Hab). pose proof (V_off a b Hab) as ->. cbn [snd] in Eb.
        specialize (VV b b Hab 0 _ (or_introl eq_refl)). cbn beta in VV. rewrite Z.add_0_r in VV.
        assert (El : sh O b = l) by (unfold sh; destruct l, O; cbn [fst snd] in *; subst; f_equal; lia). now rewrite El in VV.
      - apply F; auto; [|right]; intros (o & _ & C); apply e; rewrite C; reflexivity.
      - rewrite rx_nil in F. apply F; auto; [|right].
        + intros (o & Hx & C). apply i. unfold ol, xcopy in Hx. cbn [xo map fst] in Hx. unfold lplus in Hx. cbn [flat_map] in Hx. rewrite app_nil_r in Hx.
          apply in_map_iff in Hx as (o' & Eo & Ho'). rewrite C. unfold sh. cbn [fst snd]. replace (snd O + o - snd O) with o' by lia. exact Ho'.
        + intros (o & Hx & C). apply i. unfold il, xcopy in Hx. cbn [xi] in Hx. unfold lplus in Hx. cbn [flat_map] in Hx. rewrite app_nil_r in Hx.
          apply in_map_iff in Hx as (o' & Eo & Ho'). rewrite C. unfold sh. cbn [fst snd]. replace (snd O + o - snd O) with o' by lia. exact Ho'. }
    split.
    - rewrite vals_xp. intros a b Hab p Hp. pose proof (V_off a b Hab) as ->. apply A. exact W1.
    - intros l Hl _ _. now apply A.
  Qed.

  (** ** the whole step *)
  Variable z : bool.
  Hypothesis Hz : z = true \/ 0 < c1.
  Notation C0 := (if z then hcells r m 0 else []).
  Notation Q := (C0 ++ J).
  Definition gn (g : Z -> (Z -> R) -> R) (p : Z) (x : Z -> R) : R := if p mod m =? 0 then x p else g p x.
  Definition gz (g : Z -> (Z -> R) -> R) (p : Z) (x : Z -> R) : R := if p mod m =? 0 then g p x else x p.
  Lemma mod_J p : In p J -> p mod m =? 0 = false.
  Proof.
    intros Hp. apply in_J in Hp as (k & j & Hk & Hj & [->| ->]); [rewrite (pm_mod r m k j) by lia|rewrite (pm_mod r m k (m - j)) by lia]; apply Z.eqb_neq; lia.
  Qed.
  Lemma in_C0 p : In p C0 -> z = true /\ exists k, 0 <= k < r /\ p = k * m.
  Proof.
    destruct z; [|intros []]. intros Hp. split; auto. rewrite hcells_0 in Hp. apply in_map_iff in Hp as (k & <- & Hk). apply in_zr in Hk.
    exists k. split; [auto|ring].
  Qed.
  Lemma mod_C0 p : In p C0 -> p mod m =? 0 = true.
  Proof. intros Hp. apply in_C0 in Hp as (_ & k & Hk & ->). rewrite Z_mod_mult. reflexivity. Qed.
  Lemma gn_local g : local J g -> local Q (gn g).
  Proof.
    intros H p Hp x y E. unfold gn. apply in_app_or in Hp as [Hp|Hp].
    - rewrite mod_C0 by auto. apply E. apply in_or_app. now left.
    - rewrite mod_J by auto. apply H; auto. intros q Hq. apply E. apply in_or_app. now right.
  Qed.
  Lemma gch_0 kd k x : gch r m kd (k * m) x = Rsum r (fun q => x (q * m)%Z * rk kd r q k)%R.
  Proof.
    unfold gch. rewrite Z_mod_mult, Z_div_mult by lia. apply Rsum_ext. intros q _. now rewrite Z.add_0_r.
  Qed.
  Lemma gz_local kd : local Q (gz (gch r m kd)).
  Proof.
    intros p Hp x y E. unfold gz. apply in_app_or in Hp as [Hp|Hp].
    - rewrite mod_C0 by auto. destruct (in_C0 p Hp) as (Ez & k & Hk & ->). rewrite !gch_0. apply Rsum_ext. intros q Hq. f_equal. apply E.
      apply in_or_app. left. rewrite Ez, hcells_0. apply in_map_iff. exists q. split; [ring|now apply in_zr].
    - rewrite mod_J by auto. apply E. apply in_or_app. now right.
  Qed.
  Lemma gn_step g w : CorrectW (xp J sc g) V w -> CorrectW (xp Q sc (gn g)) V w.
  Proof.
    intros H. apply (CW_sim V Q (J ++ C0) sc (gn g) (gn g)); auto; [apply Permutation_app_comm|].
    apply (CW_pad V eq_refl V_off).
    - intros p Hp x. unfold gn. now rewrite mod_C0.
    - apply (CW_sim V J J sc (gn g) g); auto. intros p Hp x. unfold gn. now rewrite mod_J.
  Qed.
  Lemma gz_step nd kd f : kd = R2HC \/ kd = HC2R -> Correct nd true (rx (if z then [(kd, mkdim r (m * s) (m * s))] else [])) V f ->
    CorrectW (xp Q sc (gz (gch r m kd))) V (fun nx p mm => f nx p p mm).
  Proof.
    intros Hkd H. destruct z eqn:Ez.
    - apply (CW_pad V eq_refl V_off).
      + intros p Hp x. unfold gz. now rewrite mod_J.
      + apply (CW_sim V (hcells r m 0) (hcells r m 0) sc _ (hstep kd r m)); auto.
        * intros p Hp x. unfold gz. rewrite hcells_0 in Hp. apply in_map_iff in Hp as (k & <- & Hk). apply in_zr in Hk.
          rewrite Z.add_0_l, Z_mod_mult. cbn [Z.eqb]. now rewrite gch_0, hstep_zero.
        * rewrite hcells_0. eapply CW_ext; [|apply (rx_cells kd r m nd 0 m s kd f V)]; auto.
          -- intros nx p mm. cbn beta. now rewrite Z.mul_0_l, sh_0.
          -- intros k Hk x. rewrite !Z.add_0_l. rewrite hstep_zero by auto. apply Rsum_ext. intros j _. now rewrite Z.add_0_l.
    - rewrite app_nil_l. destruct Hz as [C|C]; [discriminate|]. apply (CW_sim V J J sc _ (fun p x => x p)); auto.
      + intros p Hp x. unfold gz. now rewrite mod_J.
      + apply (id_child nd); auto. assert (N : In (0 * m + m1) J) by (apply in_J; exists 0, m1; split; [lia|split; [lia|auto]]).
        intros C'. now rewrite C' in N.
  Qed.
  Lemma loop_step g w : LC J sc g w -> CorrectW (xp J sc g) V (fun nx p mm => zfor v (fun i => w nx (sh p (i * vs))) mm).
  Proof. intros [HL HC]. apply CorrectW_loop; [now apply xp_wf|now apply same_xp|exact HC]. Qed.
  Lemma comp_local g1 g2 : local J g1 -> local J g2 -> local J (fun p x => g2 p (fun q => g1 q x)).
  Proof. intros L1 L2 p Hp x y E. apply L2; auto. Qed.
  Lemma LC_comp g1 g2 w1 w2 : LC J sc g1 w1 -> LC J sc g2 w2 ->
    LC J sc (fun p x => g2 p (fun q => g1 q x)) (fun nx p mm => w2 nx p (w1 nx p mm)).
  Proof.
    intros [L1 D1] [L2 D2]. split; [now apply comp_local|]. apply (CW_comp [] eq_refl); auto. intros a b [E|[]]. congruence.
  Qed.
  Lemma four_steps g1 g2 kd nd nd' f0 f w1 w2 : kd = R2HC \/ kd = HC2R -> local J g1 -> local J g2 ->
    CorrectW (xp J sc g1) V w1 -> CorrectW (xp J sc g2) V w2 ->
    Correct nd true (rx (if z then [(kd, mkdim r (m * s) (m * s))] else [])) V f0 ->
    Correct nd' true (rx [(kd, mkdim r (m * s) (m * s))]) [mkdim 2 (mst * s) (mst * s); mkdim c1 s s; mkdim v vs vs] f ->
    (forall p, In p J -> forall x, g2 p (fun q => gch r m kd q (fun q' => g1 q' x)) = hstep kd r m p x) ->
    CorrectW (xp Q sc (hstep kd r m)) V
      (fun nx p mm => w2 nx p (f nx (sh p (m1 * s)) (sh p (m1 * s)) (f0 nx p p (w1 nx p mm)))).
  Proof.
    intros Hkd L1 L2 D1 D2 D0 D HE.
    apply (CW_sim V Q Q sc _ (fun p x => gn g2 p (fun q => gn (gch r m kd) q (fun q' => gz (gch r m kd) q' (fun q'' => gn g1 q'' x))))); auto.
    - intros p Hp x. apply in_app_or in Hp as [Hp|Hp].
      + unfold gn at 1 2. rewrite mod_C0 by auto. unfold gz. rewrite mod_C0 by auto.
        destruct (in_C0 p Hp) as (Ez & k & Hk & ->). rewrite gch_0, hstep_zero by auto. apply Rsum_ext. intros q Hq. f_equal.
        unfold gn. now rewrite Z_mod_mult.
      + rewrite <- HE by auto. unfold gn at 1. rewrite mod_J by auto. apply L2; auto. intros q Hq. symmetry.
        unfold gn at 1. rewrite mod_J by auto. apply gch_local_J; auto. intros q' Hq'. unfold gz, gn. rewrite mod_J by auto. reflexivity.
    - pose proof (cld_correct nd' kd f D) as Dc.
      apply (CW_comp V eq_refl V_off Q sc (fun q x => gn (gch r m kd) q (fun q' => gz (gch r m kd) q' (fun q'' => gn g1 q'' x))) (gn g2)
        (fun nx p mm => f nx (sh p (m1 * s)) (sh p (m1 * s)) (f0 nx p p (w1 nx p mm))) w2).
      { now apply gn_local. }
      2:{ now apply gn_step. }
      apply (CW_comp V eq_refl V_off Q sc (fun q' x => gz (gch r m kd) q' (fun q'' => gn g1 q'' x)) (gn (gch r m kd))
        (fun nx p mm => f0 nx p p (w1 nx p mm)) (fun nx p mm => f nx (sh p (m1 * s)) (sh p (m1 * s)) mm)).
      { apply gn_local, gch_local_J. }
      2:{ now apply gn_step. }
      apply (CW_comp V eq_refl V_off Q sc (gn g1) (gz (gch r m kd)) w1 (fun nx p mm => f0 nx p p mm)).
      { apply gz_local. }
      { now apply gn_step. }
      now apply (gz_step nd).
  Qed.
End Gen.

Lemma hc_generic_correct kd r m s v vs mstart mcount nd f0 f :
  kd = R2HC \/ kd = HC2R -> 0 < r -> 0 < m -> Z.rem m 2 <> 0 -> Z.rem r 2 <> 0 ->
  0 <= mstart -> 0 < mcount -> 2 * (mstart + mcount - 1) <= m ->
  Correct nd true (rx (if mstart =? 0 then [(kd, mkdim r (m * s) (m * s))] else [])) [mkdim v vs vs] f0 ->
  (let mst := m - (mstart + mcount - 1) - hg_mstart1 mstart in
   Correct nd true (rx [(kd, mkdim r (m * s) (m * s))]) [mkdim 2 (mst * s) (mst * s); mkdim (hg_mcount1 mstart mcount) s s; mkdim v vs vs] f) ->
  CorrectW (xp (hrange r m mstart mcount) (fun p => p * s) (hstep kd r m)) [mkdim v vs vs] (hc_generic kd r m s v vs mstart mcount f0 f).
Proof.
  intros Hkd Hr Hm Om Or H0 H1 H2 D0 D. cbn zeta in D.
  assert (Hom : Z.odd m = true) by (rewrite Z.rem_mod_nonneg in Om by lia; rewrite Zmod_odd in Om; destruct (Z.odd m); auto).
  assert (Hor : Z.odd r = true) by (rewrite Z.rem_mod_nonneg in Or by lia; rewrite Zmod_odd in Or; destruct (Z.odd r); auto).
  assert (Nm : 2 * (mstart + mcount - 1) <> m).
  { apply Zodd_bool_iff, Zodd_ex in Hom as [h Eh]. lia. }
  set (m1 := hg_mstart1 mstart) in *. set (c1 := hg_mcount1 mstart mcount) in *.
  assert (A1 : 0 < m1) by (unfold m1, hg_mstart1; destruct (Z.eqb_spec mstart 0); lia).
  assert (A2 : 0 <= c1) by (unfold c1, hg_mcount1; destruct (Z.eqb_spec mstart 0); lia).
  assert (A3 : m1 + c1 = mstart + mcount) by (unfold m1, c1, hg_mstart1, hg_mcount1; lia).
  assert (A4 : 2 * (m1 + c1 - 1) < m) by lia.
  assert (A5 : (mstart =? 0) = true \/ 0 < c1) by (unfold c1, hg_mcount1; destruct (Z.eqb_spec mstart 0); [now left|right; lia]).
  assert (EQ : hrange r m mstart mcount = (if mstart =? 0 then hcells r m 0 else []) ++ hrange r m m1 c1).
  { unfold m1, c1, hg_mstart1, hg_mcount1. destruct (Z.eqb_spec mstart 0) as [->|].
    - replace mcount with (1 + (mcount - 1)) at 1 by lia. rewrite hrange_add, hrange_1 by lia. reflexivity.
    - rewrite Z.add_0_r, Z.sub_0_r. reflexivity. }
  rewrite EQ.
  assert (EM : m - (mstart + mcount - 1) - m1 = mst m m1 c1) by (unfold mst; lia). rewrite EM in D.
  pose proof (fun sg => tw1_LC r m s m1 c1 Hr Hm Hom A1 A4 sg) as TW.
  pose proof (swapri_LC r m s m1 c1 Hr Hm Hor A1 A4) as SW.
  destruct Hkd as [->| ->].
  - pose proof (LC_comp r m s m1 c1 _ _ _ _ (dit_loop_LC r m s m1 c1 Hr Hm Hor A1 A4) SW) as RO.
    eapply (CW_ext [mkdim v vs vs] _ (fun nx p mm =>
      zfor v (fun i => (fun (nx : nat) p mm => hg_swapri r m s m1 (m1 + c1) p (hg_dit_loop r m s m1 (m1 + c1) p mm)) nx (sh p (i * vs)))
        (f nx (sh p (m1 * s)) (sh p (m1 * s)) (f0 nx p p (zfor v (fun i => tw1 r m s m1 c1 (-1)%R nx (sh p (i * vs))) mm))))).
    { intros nx p mm. reflexivity. }
    apply (four_steps r m s m1 c1 Hr Hm A1 A2 A4 v vs (mstart =? 0) A5 (gtw r m (-1)%R) (fun p x => gr2 r m p (fun q => gr1 r m q x)) R2HC nd nd f0 f
      (fun nx p mm => zfor v (fun i => tw1 r m s m1 c1 (-1)%R nx (sh p (i * vs))) mm)
      (fun nx p mm => zfor v (fun i => (fun (nx : nat) p mm => hg_swapri r m s m1 (m1 + c1) p (hg_dit_loop r m s m1 (m1 + c1) p mm)) nx (sh p (i * vs))) mm)); auto.
    + apply TW. 
    + apply RO.
    + apply loop_step, TW.
    + apply (loop_step r m s m1 c1 v vs _ _ RO).
    + intros p Hp x. apply (in_J r m m1 c1 Hm A1) in Hp as (k & j & Hk & Hj & Ep). unfold hstep. cbn [isR2HC].
      destruct Ep as [->| ->]; [apply gen_dit_lo|apply gen_dit_hi]; auto; lia.
  - pose proof (LC_comp r m s m1 c1 _ _ _ _ SW (dif_loop_LC r m s m1 c1 Hr Hm Hor A1 A4)) as RO.
    eapply (CW_ext [mkdim v vs vs] _ (fun nx p mm =>
      zfor v (fun i => tw1 r m s m1 c1 1%R nx (sh p (i * vs)))
        (f nx (sh p (m1 * s)) (sh p (m1 * s)) (f0 nx p p
        (zfor v (fun i => (fun (nx : nat) p mm => hg_dif_loop r m s m1 (m1 + c1) p (hg_swapri r m s m1 (m1 + c1) p mm)) nx (sh p (i * vs))) mm))))).
    { intros nx p mm. reflexivity. }
    apply (four_steps r m s m1 c1 Hr Hm A1 A2 A4 v vs (mstart =? 0) A5 (fun p x => gd1 r m p (fun q => gr2 r m q x)) (gtw r m 1%R) HC2R nd nd f0 f
      (fun nx p mm => zfor v (fun i => (fun (nx : nat) p mm => hg_dif_loop r m s m1 (m1 + c1) p (hg_swapri r m s m1 (m1 + c1) p mm)) nx (sh p (i * vs))) mm)
      (fun nx p mm => zfor v (fun i => tw1 r m s m1 c1 1%R nx (sh p (i * vs))) mm)); auto.
    + apply RO.
    + apply TW.
    + apply (loop_step r m s m1 c1 v vs _ _ RO).
    + apply loop_step, TW.
    + intros p Hp x. apply (in_J r m m1 c1 Hm A1) in Hp as (k & j & Hk & Hj & Ep). unfold hstep. cbn [isR2HC].
      destruct Ep as [->| ->]; [apply gen_dif_lo|apply gen_dif_hi]; auto; lia.
Qed.
