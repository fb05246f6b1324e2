(** * The halfcomplex twiddle step as an in-place transform; codelets and rdft/hc2hc-direct.c (proofs) *)
From Coq Require Import Reals ZArith List Lia Lra Bool Permutation.
From Verif Require Import NumTheory Cplx Spec SpecR2R TensorModel Offs TensorProofs XForm XKern XSeq CopyModel CopyProofs DftModel HcModel DftTw DftTw2 RSum
  RdftX HcMath HcLib.
Import ListNotations.
Open Scope Z_scope.

Definition isR2HC (kd : rkind) : bool := match kd with R2HC => true | _ => false end.
Definition hstep (kd : rkind) (r m p : Z) (x : Z -> R) : R := if isR2HC kd then hdit r m p x else hdif r m p x.

(** the elements of a row that butterfly j works on, and its cells *)
Definition ocells (m j : Z) : list Z := if (j =? 0) || (2 * j =? m) then [j] else [j; m - j].
Definition hcells (r m j : Z) : list Z := flat_map (fun k => map (fun c => k * m + c) (ocells m j)) (zr r).
Definition hrange (r m mb mc : Z) : list Z := flat_map (fun i => hcells r m (mb + i)) (zr mc).

Lemma in_ocells m j c : In c (ocells m j) <-> c = j \/ (j <> 0 /\ 2 * j <> m /\ c = m - j).
Proof.
  unfold ocells. destruct (Z.eqb_spec j 0); destruct (Z.eqb_spec (2 * j) m); cbn [orb In]; intuition lia.
Qed.
Lemma in_hcells r m j p : In p (hcells r m j) <-> exists k c, 0 <= k < r /\ In c (ocells m j) /\ p = k * m + c.
Proof.
  unfold hcells. rewrite in_flat_map. split.
  - intros (k & Hk & Hp). apply in_zr in Hk. apply in_map_iff in Hp as (c & <- & Hc). eauto.
  - intros (k & c & Hk & Hc & ->). exists k. split; [now apply in_zr|]. apply in_map_iff. eauto.
Qed.
Lemma in_hrange r m mb mc p : In p (hrange r m mb mc) <-> exists j, mb <= j < mb + mc /\ In p (hcells r m j).
Proof.
  unfold hrange. rewrite in_flat_map. split.
  - intros (i & Hi & Hp). apply in_zr in Hi. exists (mb + i). split; [lia|auto].
  - intros (j & Hj & Hp). exists (j - mb). split; [apply in_zr; lia|]. now replace (mb + (j - mb)) with j by lia.
Qed.
Lemma hrange_add r m mb c1 c2 : 0 <= c1 -> 0 <= c2 -> hrange r m mb (c1 + c2) = hrange r m mb c1 ++ hrange r m (mb + c1) c2.
Proof.
  intros H1 H2. unfold hrange. rewrite zr_add by lia. rewrite flat_map_app_r. f_equal. rewrite flat_map_map.
  apply flat_map_ext. intros i. f_equal. lia.
Qed.
Lemma hrange_1 r m j : hrange r m j 1 = hcells r m j.
Proof. unfold hrange. change (zr 1) with [0]. cbn [flat_map]. now rewrite app_nil_r, Z.add_0_r. Qed.
Lemma hrange_0 r m j : hrange r m j 0 = [].
Proof. reflexivity. Qed.

Lemma NoDup_flat_map' {A B} (f : A -> list B) l : NoDup l -> (forall i, In i l -> NoDup (f i)) ->
  (forall i j x, In i l -> In j l -> In x (f i) -> In x (f j) -> i = j) -> NoDup (flat_map f l).
Proof.
  induction l as [|a l IH]; intros HL H1 H2; [constructor|]. cbn. inversion HL as [|? ? Ha HL']; subst.
  apply NoDup_app_intro.
  - apply H1. now left.
  - apply IH; auto; [intros; apply H1; now right|]. intros i j x Hi Hj. apply H2; now right.
  - intros x Hx Hx'. apply in_flat_map in Hx' as (b & Hb & Hx'). apply Ha.
    rewrite (H2 a b x); auto; [now left|now right].
Qed.
Lemma row_inj m k l c d : 0 <= c < m -> 0 <= d < m -> k * m + c = l * m + d -> k = l /\ c = d.
Proof. intros H1 H2 E. assert (k = l) by nia. split; [auto|]. subst. lia. Qed.
Lemma ocells_bound m j c : 0 < m -> 0 <= j -> 2 * j <= m -> In c (ocells m j) -> 0 <= c < m.
Proof. rewrite in_ocells. lia. Qed.
Lemma hrange_NoDup r m mb mc : 0 < m -> 0 <= mb -> 2 * (mb + mc - 1) <= m -> NoDup (hrange r m mb mc).
Proof.
  intros Hm H0 H2. apply NoDup_flat_map'; [apply NoDup_zr| |].
  - intros i Hi. apply in_zr in Hi. apply NoDup_flat_map'; [apply NoDup_zr| |].
    + intros k _. apply FinFun.Injective_map_NoDup; [intros a b; lia|]. unfold ocells.
      destruct (Z.eqb_spec (mb + i) 0); destruct (Z.eqb_spec (2 * (mb + i)) m); cbn [orb]; repeat constructor; cbn [In]; try tauto. lia.
    + intros k l x Hk Hl Hx Hy. apply in_map_iff in Hx as (c & <- & Hc), Hy as (d & E & Hd).
      apply ocells_bound in Hc, Hd; try lia. destruct (row_inj _ _ _ _ _ Hd Hc E); auto.
  - intros i j x Hi Hj Hx Hy. apply in_zr in Hi, Hj. apply in_hcells in Hx as (k & c & Hk & Hc & ->), Hy as (l & d & Hl & Hd & E).
    pose proof (ocells_bound m (mb + i) c ltac:(lia) ltac:(lia) ltac:(lia) Hc) as Bc.
    pose proof (ocells_bound m (mb + j) d ltac:(lia) ltac:(lia) ltac:(lia) Hd) as Bd.
    destruct (row_inj _ _ _ _ _ Bc Bd E) as [_ ->]. apply in_ocells in Hc, Hd. lia.
Qed.
Lemma hrange_all r m : 0 < r -> 0 < m -> Permutation (hrange r m 0 ((m + 2) / 2)) (zr (r * m)).
Proof.
  intros Hr Hm. pose proof (Z.div_mod (m + 2) 2 ltac:(lia)). pose proof (Z.mod_pos_bound (m + 2) 2 ltac:(lia)).
  set (N := (m + 2) / 2) in *.
  apply NoDup_Permutation.
  - apply hrange_NoDup; lia.
  - apply NoDup_zr.
  - intros p. rewrite in_hrange, in_zr. setoid_rewrite in_hcells. setoid_rewrite in_ocells. split.
    + intros (j & Hj & k & c & Hk & Hc & ->). assert (0 <= c < m) by lia. nia.
    + intros Hp. pose proof (Z.div_mod p m ltac:(lia)) as E. pose proof (Z.mod_pos_bound p m Hm) as B.
      assert (0 <= p / m < r) by (split; [apply Z.div_pos; lia|apply Z.div_lt_upper_bound; lia]).
      destruct (Z_le_gt_dec (2 * (p mod m)) m).
      * exists (p mod m). split; [lia|]. exists (p / m), (p mod m). split; auto. split; [auto|lia].
      * exists (m - p mod m). split; [lia|]. exists (p / m), (p mod m). split; auto. split; [right|]; lia.
Qed.

(** ** The butterflies *)
Lemma hc_bfly kd r m j x f k : 0 < r -> 0 < j -> 2 * j < m -> 0 <= k < r ->
  (forall i, 0 <= i < r -> f i = (x (i * m + j), x (i * m + (m - j)))) ->
  (if isR2HC kd then hc_dit else hc_dif) r m j f k = (hstep kd r m (k * m + j) x, hstep kd r m (k * m + (m - j)) x).
Proof.
  intros Hr H1 H2 Hk Hf. unfold hstep. destruct (isR2HC kd).
  - rewrite hdit_lo, hdit_hi by lia. cbn zeta. unfold hc_dit, sym1, sym2.
    assert (E : forall q, Csum r (fun i => cmul (cmul (f i) (W (r * m) (j * i))) (W r (i * q))) = dit_bfly r m j x q).
    { intros q. apply Csum_ext. intros i Hi. now rewrite Hf. }
    rewrite !E. f_equal.
    + destruct (Z.ltb_spec k (r - k)); destruct (Z.ltb_spec (2 * k) r); try lia; auto. unfold cmul. cbn [fst snd]. ring.
    + set (q := r - 1 - k). destruct (Z.ltb_spec q (r - q)); destruct (Z.ltb_spec (2 * q) r); try lia; auto. unfold cmul. cbn [fst snd]. ring.
  - rewrite hdif_lo, hdif_hi by lia. unfold hc_dif, dif_bfly.
    rewrite (Csum_ext r (fun i => cmul (sym2i r (sym1 r f) i) (W r (- (i * k)))) (fun q => cmul (dif_in r m j x q) (W r (- (q * k))))).
    + now destruct (cmul _ _).
    + intros q Hq. f_equal. unfold sym2i, sym1, dif_in. rewrite !Hf by lia. cbn [fst snd].
      destruct (Z.ltb_spec q (r - q)); destruct (Z.ltb_spec (2 * q) r); try lia; auto. unfold cmul. cbn [fst snd]. f_equal; ring.
Qed.
Lemma hstep_zero kd r m x k : kd = R2HC \/ kd = HC2R -> 0 < r -> 0 < m -> 0 <= k < r ->
  hstep kd r m (k * m) x = Rsum r (fun j => x (j * m)%Z * rk kd r j k)%R.
Proof. intros [->| ->] Hr Hm Hk; unfold hstep; cbn [isR2HC]; [now apply hdit_zero|now apply hdif_zero]. Qed.
Lemma hstep_middle kd r m u x k : kd = R2HC \/ kd = HC2R -> 0 < r -> 0 < m -> 2 * u = m -> 0 <= k < r ->
  hstep kd r m (u + k * m) x = Rsum r (fun j => x (u + j * m)%Z * rk (kd_mid kd) r j k)%R.
Proof. intros [->| ->] Hr Hm Hu Hk; unfold hstep, kd_mid; cbn [isR2HC]; [now apply hdit_middle|now apply hdif_middle]. Qed.

Lemma hc_ext kd r m j f g k : (forall i, 0 <= i < r -> f i = g i) -> 0 <= k < r ->
  (if isR2HC kd then hc_dit else hc_dif) r m j f k = (if isR2HC kd then hc_dit else hc_dif) r m j g k.
Proof.
  intros E Hk. destruct (isR2HC kd).
  - unfold hc_dit, sym1, sym2.
    assert (F : forall q, Csum r (fun i => cmul (cmul (f i) (W (r * m) (j * i))) (W r (i * q))) =
      Csum r (fun i => cmul (cmul (g i) (W (r * m) (j * i))) (W r (i * q)))).
    { intros q. apply Csum_ext. intros i Hi. now rewrite E. }
    now rewrite !F.
  - unfold hc_dif. f_equal. apply Csum_ext. intros i Hi. f_equal. unfold sym2i, sym1. now rewrite !E by lia.
Qed.

Section Step.
  Variables (kd : rkind) (r m : Z).
  Hypothesis Hkd : kd = R2HC \/ kd = HC2R.
  Hypothesis (Hr : 0 < r) (Hm : 0 < m).

  Lemma hcells_local j : 0 <= j -> 2 * j <= m -> local (hcells r m j) (hstep kd r m).
  Proof.
    intros H0 H2 p Hp x y E. apply in_hcells in Hp as (k & c & Hk & Hc & ->).
    destruct (Z.eq_dec j 0) as [->|Nj]; [|destruct (Z.eq_dec (2 * j) m) as [Em|Nm]].
    - apply in_ocells in Hc as [->|Hc]; [|lia]. rewrite Z.add_0_r, !hstep_zero by auto.
      apply Rsum_ext. intros i Hi. f_equal. apply E. apply in_hcells. exists i, 0. split; auto. split; [apply in_ocells; now left|ring].
    - apply in_ocells in Hc as [->|Hc]; [|lia]. rewrite (Z.add_comm (k * m)), !hstep_middle by auto.
      apply Rsum_ext. intros i Hi. f_equal. apply E. apply in_hcells. exists i, j. split; auto. split; [apply in_ocells; now left|ring].
    - assert (F : (hstep kd r m (k * m + j) x, hstep kd r m (k * m + (m - j)) x) = (hstep kd r m (k * m + j) y, hstep kd r m (k * m + (m - j)) y)).
      { rewrite <- (hc_bfly kd r m j x (fun i => (x (i * m + j), x (i * m + (m - j)))) k) by (auto; lia).
        rewrite <- (hc_bfly kd r m j y (fun i => (y (i * m + j), y (i * m + (m - j)))) k) by (auto; lia).
        apply hc_ext; auto. intros i Hi. f_equal; apply E; apply in_hcells;
          [exists i, j|exists i, (m - j)]; (split; [auto|]; split; [apply in_ocells; lia|auto]). }
      apply in_ocells in Hc as [->|(_ & _ & ->)]; [exact (f_equal fst F)|exact (f_equal snd F)].
  Qed.
  Lemma hrange_local mb mc : 0 <= mb -> 2 * (mb + mc - 1) <= m -> local (hrange r m mb mc) (hstep kd r m).
  Proof.
    intros H0 H2 p Hp x y E. apply in_hrange in Hp as (j & Hj & Hp). apply (hcells_local j); [lia|lia|auto|].
    intros q Hq. apply E. apply in_hrange. eauto.
  Qed.

  (** one butterfly of a codelet, anywhere *)
  Lemma hcells_split j : 0 < j -> 2 * j < m ->
    Permutation (hcells r m j) (map (fun k => k * m + j) (zr r) ++ map (fun k => k * m + (m - j)) (zr r)).
  Proof.
    intros H1 H2. unfold hcells, ocells. destruct (Z.eqb_spec j 0); [lia|]. destruct (Z.eqb_spec (2 * j) m); [lia|]. cbn [orb map].
    induction (zr r) as [|k l IH]; cbn; [constructor|]. apply perm_skip. rewrite <- Permutation_middle. now apply perm_skip.
  Qed.
  Lemma kern_hc j rs D base phi : 0 < j -> 2 * j < m ->
    (forall k, 0 <= k < r -> phi (k * m + j) = base + k * rs) ->
    (forall k, 0 <= k < r -> phi (k * m + (m - j)) = base + (D + k * rs)) ->
    CorrectW (xp (hcells r m j) phi (hstep kd r m)) [] (fun nx p mm => kern (xhc2hc kd r m rs D j) nx (sh p base) (sh p base) mm).
  Proof.
    intros H1 H2 P1 P2. unfold CorrectW.
    apply (Correct_ip_O true _ [] (fun nx I O => kern (xhc2hc kd r m rs D j) nx (sh I base) (sh O base))).
    eapply Correct_sim with (vec' := []) (X' := xshift base base (xhc2hc kd r m rs D j)); auto.
    2:{ apply Correct_shift; [auto|]. apply kern_correct. }
    pose proof (hcells_split j H1 H2) as P.
    assert (E1 : map phi (map (fun k => k * m + j) (zr r)) = map (fun k => base + k * rs) (zr r)).
    { rewrite map_map. apply map_ext_in. intros k Hk. apply in_zr in Hk. auto. }
    assert (E2 : map phi (map (fun k => k * m + (m - j)) (zr r)) = map (fun k => base + (D + k * rs)) (zr r)).
    { rewrite map_map. apply map_ext_in. intros k Hk. apply in_zr in Hk. auto. }
    split; [|split].
    - cbn [xi xp xshift xhc2hc]. rewrite map_app, !map_map.
      rewrite (Permutation_map phi P), map_app, E1, E2. reflexivity.
    - rewrite xp_fst. cbn [xo xshift xhc2hc]. rewrite map_map. cbn [fst]. rewrite !map_app, !map_map. cbn [fst].
      rewrite (Permutation_map phi P), map_app, E1, E2. reflexivity.
    - intros o F HF. cbn [xo xp] in HF. apply in_map_iff in HF as (p & E & Hp). injection E as <- <-.
      assert (Hb : forall k, 0 <= k < r -> forall x,
        (if isR2HC kd then hc_dit else hc_dif) r m j (fun i => (x (base + i * rs), x (base + (D + i * rs)))) k =
        (hstep kd r m (k * m + j) (fun q => x (phi q)), hstep kd r m (k * m + (m - j)) (fun q => x (phi q)))).
      { intros k Hk x. apply (hc_bfly kd r m j (fun q => x (phi q))); auto. intros i Hi. now rewrite P1, P2. }
      apply in_hcells in Hp as (k & c & Hk & Hc & ->). apply in_ocells in Hc as [->|(_ & _ & ->)].
      + eexists. split.
        * cbn [xo xshift xhc2hc]. apply in_map_iff. eexists. split; [|apply in_or_app; left; apply in_map_iff; exists k; split; [reflexivity|now apply in_zr]].
          cbn [fst snd]. rewrite P1 by auto. reflexivity.
        * intros x. cbn beta. fold (isR2HC kd). rewrite Hb by auto. reflexivity.
      + eexists. split.
        * cbn [xo xshift xhc2hc]. apply in_map_iff. eexists. split; [|apply in_or_app; right; apply in_map_iff; exists k; split; [reflexivity|now apply in_zr]].
          cbn [fst snd]. rewrite P2 by auto. reflexivity.
        * intros x. cbn beta. fold (isR2HC kd). rewrite Hb by auto. reflexivity.
  Qed.
  (** a codelet call: butterflies mb <= j < mb + mc *)
  Lemma khc2hc_correct mb mc ms rs D base phi : 0 < mb -> 2 * (mb + mc - 1) < m ->
    (forall k j, 0 <= k < r -> mb <= j < mb + mc -> phi (k * m + j) = base + (j - mb) * ms + k * rs) ->
    (forall k j, 0 <= k < r -> mb <= j < mb + mc -> phi (k * m + (m - j)) = base + D - (j - mb) * ms + k * rs) ->
    CorrectW (xp (hrange r m mb mc) phi (hstep kd r m)) []
      (fun nx p mm => khc2hc kd r m rs mb (mb + mc) ms nx (sh p base) D mm).
  Proof.
    intros H1 H2 P1 P2.
    eapply CW_ext; [|apply (CW_for [] eq_refl mc (fun i => hcells r m (mb + i)) phi (hstep kd r m)
      (fun i nx p => kern (xhc2hc kd r m rs (D - 2 * i * ms) (mb + i)) nx (sh p (base + i * ms)) (sh p (base + i * ms))))].
    - intros nx p mm. unfold khc2hc. replace (mb + mc - mb) with mc by ring. apply zfor_ext. intros i m' Hi. now rewrite !sh_sh.
    - intros i Hi. apply hcells_local; lia.
    - intros i Hi. apply kern_hc; try lia.
      + intros k Hk. rewrite P1 by lia. f_equal. ring.
      + intros k Hk. rewrite P2 by lia. ring.
  Qed.

  (** the children for the 0th and the middle butterfly *)
  Lemma rx_cells nd base c s kd' f vec : 
    (forall k, 0 <= k < r -> forall x, hstep kd r m (base + k * c) x = Rsum r (fun j => x (base + j * c)%Z * rk kd' r j k)%R) ->
    Correct nd true (rx [(kd', mkdim r (c * s) (c * s))]) vec f ->
    CorrectW (xp (map (fun k => base + k * c) (zr r)) (fun p => p * s) (hstep kd r m)) vec
      (fun nx p mm => f nx (sh p (base * s)) (sh p (base * s)) mm).
  Proof.
    intros HE HC. unfold CorrectW.
    apply (Correct_ip_O true _ vec (fun nx I O mm => f nx (sh I (base * s)) (sh O (base * s)) mm)).
    apply Correct_ip_nd with (nd := nd).
    eapply Correct_sim with (vec' := vec) (X' := xshift (base * s) (base * s) (rx [(kd', mkdim r (c * s) (c * s))])); auto.
    2:{ now apply Correct_shift. }
    split; [|split].
    - cbn [xi xp xshift]. rewrite map_map.
      replace (xi (rx [(kd', mkdim r (c * s) (c * s))])) with (map (fun k => k * (c * s)) (zr r)).
      + rewrite map_map. erewrite map_ext; [reflexivity|]. intros k. cbn beta. ring.
      + cbn [rx xi ds map snd ti dn dis locs]. now rewrite lplus_0_r.
    - rewrite xp_fst. cbn [xo xshift]. rewrite !map_map. cbn [fst]. change (fun x : Z * ((Z -> R) -> R) => base * s + fst x) with (fun x : Z * ((Z -> R) -> R) => (base * s + fst x)%Z).
      rewrite <- (map_map fst (Z.add (base * s))). rewrite rx_fst. cbn [ds map snd to_ dn dos locs]. rewrite lplus_0_r. unfold dimlocs. cbn [fst snd]. rewrite map_map.
      erewrite map_ext; [reflexivity|]. intros k. cbn beta. ring.
    - intros o F HF. cbn [xo xp] in HF. apply in_map_iff in HF as (p & E & Hp). injection E as <- <-.
      apply in_map_iff in Hp as (k & <- & Hk). apply in_zr in Hk.
      exists (fun x => rmx [(kd', mkdim r (c * s) (c * s))] (fun z => x (base * s + z)) [k]). split.
      + cbn [xo xshift]. apply in_map_iff. exists (k * (c * s), fun x => rmx [(kd', mkdim r (c * s) (c * s))] x [k]). split.
        * cbn [fst snd]. replace (base * s + k * (c * s)) with ((base + k * c) * s) by ring. reflexivity.
        * apply in_rx. exists [k]. split; [apply in_box1; eauto|]. split; [cbn [ooff ds map snd dos]; ring|reflexivity].
      + intros x. cbn beta. rewrite HE by auto. cbn [snd].
        pose proof (x1_rmx kd' r (c * s) (c * s) (fun z => x (base * s + z)) k) as X1. unfold x1 in X1. rewrite X1.
        apply Rsum_ext. intros j Hj. f_equal. f_equal. ring.
  Qed.
  Lemma rx_none nd s G f : Correct nd true (rx []) [] f -> CorrectW (xp [] s G) [] (fun nx p mm => f nx p p mm).
  Proof.
    intros HC nx I O mm [W1 W2 W3 W4 W5 W6]. destruct (HC nx O O mm) as [V F].
    { constructor; auto; rewrite rx_nil; cbn; (repeat constructor; cbn; tauto). }
    split; [intros a b _ o F' []|]. intros l Hl _ _.
    destruct (loc_eqb O l) eqn:E.
    - apply loc_eqb_spec in E. subst l. rewrite rx_nil in V.
      specialize (V 0 0 (or_introl eq_refl) 0 _ (or_introl eq_refl)). cbn beta in V. now rewrite Z.add_0_r, sh_0 in V.
    - assert (N : O <> l) by (intros C; apply loc_eqb_spec in C; congruence).
      apply F; auto; [|right]; rewrite rx_nil; intros (o & [<-|[]] & C); rewrite sh_0 in C; congruence.
  Qed.
  Lemma hcells_0 : hcells r m 0 = map (fun k => 0 + k * m) (zr r).
  Proof.
    unfold hcells, ocells. cbn [Z.eqb orb map]. induction (zr r) as [|k l IH]; cbn [flat_map map app]; auto. f_equal; [ring|auto].
  Qed.
  Lemma hcells_mid u : 2 * u = m -> hcells r m u = map (fun k => u + k * m) (zr r).
  Proof.
    intros Hu. unfold hcells, ocells. destruct (Z.eqb_spec (2 * u) m); [|lia]. rewrite orb_true_r. cbn [map].
    induction (zr r) as [|k l IH]; cbn [flat_map map app]; auto. f_equal; [ring|auto].
  Qed.

  (** the range of butterflies: 0th, codelet, middle *)
  Variables (mstart mcount : Z).
  Hypothesis (H0 : 0 <= mstart) (H1 : 0 < mcount) (H2 : 2 * (mstart + mcount - 1) <= m).
  Let mb := hc_mb mstart.
  Let me := hc_me m mstart mcount.
  Lemma hc_parts : mb <= me /\ 0 < mb /\ 2 * (me - 1) < m /\
    hrange r m mstart mcount = (if CLD0P mstart then hcells r m 0 else []) ++ hrange r m mb (me - mb) ++
      (if CLDMP m mstart mcount then hcells r m (m / 2) else []).
  Proof.
    unfold mb, me, hc_mb, hc_me, CLD0P, CLDMP. pose proof (Z.div_mod m 2 ltac:(lia)). pose proof (Z.mod_pos_bound m 2 ltac:(lia)).
    destruct (Z.eqb_spec mstart 0) as [E0|N0]; destruct (Z.eqb_spec (2 * (mstart + mcount)) (m + 2)) as [Em|Nm];
      (split; [lia|split; [lia|split; [lia|]]]); rewrite ?app_nil_r, ?app_nil_l.
    - subst mstart. replace mcount with (1 + ((0 + mcount - 1 - (0 + 1)) + 1)) at 1 by lia.
      rewrite !hrange_add by lia. rewrite !hrange_1. f_equal. f_equal. f_equal. lia.
    - subst mstart. replace mcount with (1 + (0 + mcount - 0 - (0 + 1))) at 1 by lia. rewrite hrange_add, hrange_1 by lia. reflexivity.
    - replace mcount with ((mstart + mcount - 1 - (mstart + 0)) + 1) at 1 by lia. rewrite hrange_add, hrange_1 by lia.
      rewrite !Z.add_0_r. f_equal. f_equal. lia.
    - f_equal; lia.
  Qed.
  Lemma hc_three nd0 ndm ms wk f0 fm :
    Correct nd0 true (rx (if CLD0P mstart then [(kd, mkdim r (m * ms) (m * ms))] else [])) [] f0 ->
    Correct ndm true (rx (if CLDMP m mstart mcount then [(kd_mid kd, mkdim r (m * ms) (m * ms))] else [])) [] fm ->
    CorrectW (xp (hrange r m mb (me - mb)) (fun p => p * ms) (hstep kd r m)) [] wk ->
    CorrectW (xp (hrange r m mstart mcount) (fun p => p * ms) (hstep kd r m)) []
      (fun nx p mm => fm nx (sh p (Z.quot m 2 * ms)) (sh p (Z.quot m 2 * ms)) (wk nx p (f0 nx p p mm))).
  Proof.
    intros C0 Cm Ck. destruct hc_parts as (P1 & P2 & P3 & ->). rewrite Z.quot_div_nonneg by lia.
    apply (CW_app [] eq_refl _ _ _ _ (fun nx p mm => f0 nx p p mm)
      (fun nx p mm => fm nx (sh p (m / 2 * ms)) (sh p (m / 2 * ms)) (wk nx p mm))).
    - intros p Hp x y E. apply in_app_or in Hp as [Hp|Hp].
      + apply (hrange_local mb (me - mb)); auto; try lia. intros q Hq. apply E. apply in_or_app. now left.
      + unfold CLDMP in *. destruct (Z.eqb_spec (2 * (mstart + mcount)) (m + 2)) as [E2|]; [|destruct Hp].
        pose proof (Z.div_mod m 2 ltac:(lia)). pose proof (Z.mod_pos_bound m 2 ltac:(lia)).
        apply (hcells_local (m / 2)); auto; try lia. intros q Hq. apply E. apply in_or_app. now right.
    - destruct (CLD0P mstart).
      + rewrite hcells_0. eapply CW_ext; [|apply (rx_cells nd0 0 m ms kd f0 [])]; auto.
        * intros nx p mm. cbn beta. now rewrite Z.mul_0_l, sh_0.
        * intros k Hk x. rewrite !Z.add_0_l. rewrite hstep_zero by auto. apply Rsum_ext. intros j _. now rewrite Z.add_0_l.
      + now apply (rx_none nd0).
    - apply (CW_app [] eq_refl _ _ _ _ wk (fun nx p mm => fm nx (sh p (m / 2 * ms)) (sh p (m / 2 * ms)) mm)); auto.
      + unfold CLDMP in *. destruct (Z.eqb_spec (2 * (mstart + mcount)) (m + 2)) as [E2|]; [|intros p []].
        pose proof (Z.div_mod m 2 ltac:(lia)). pose proof (Z.mod_pos_bound m 2 ltac:(lia)). apply hcells_local; lia.
      + unfold CLDMP in *. destruct (Z.eqb_spec (2 * (mstart + mcount)) (m + 2)) as [E2|].
        * pose proof (Z.div_mod m 2 ltac:(lia)). pose proof (Z.mod_pos_bound m 2 ltac:(lia)).
          rewrite hcells_mid by lia. apply (rx_cells ndm (m / 2) m ms (kd_mid kd) fm []); auto.
          intros k Hk x. apply hstep_middle; auto. lia.
        * pose proof (rx_none ndm (fun p => p * ms) (hstep kd r m) fm Cm) as C.
          intros nx I O mm HW. destruct (C nx (sh I (m / 2 * ms)) (sh O (m / 2 * ms)) mm) as [V F].
          { destruct HW as [W1 W2 W3 W4 W5 W6]. constructor; auto. destruct W6 as [-> W6]. split; auto. }
          split; [intros a b _ o F' []|]. intros l Hl _ _. apply F; auto; intros (o & [] & _).
  Qed.

  (** rdft/hc2hc-direct.c: apply *)
  Lemma hc_direct_correct nd0 ndm ms v vs f0 fm :
    Correct nd0 true (rx (if CLD0P mstart then [(kd, mkdim r (m * ms) (m * ms))] else [])) [] f0 ->
    Correct ndm true (rx (if CLDMP m mstart mcount then [(kd_mid kd, mkdim r (m * ms) (m * ms))] else [])) [] fm ->
    CorrectW (xp (hrange r m mstart mcount) (fun p => p * ms) (hstep kd r m)) [mkdim v vs vs]
      (hc_direct kd r m ms v vs mb me f0 fm).
  Proof.
    intros C0 Cm. destruct hc_parts as (P1 & P2 & P3 & _).
    apply (CorrectW_loop _ v vs (fun nx p mm => fm nx (sh p (Z.quot m 2 * ms)) (sh p (Z.quot m 2 * ms))
      (khc2hc kd r m (m * ms) mb me ms nx (sh p (ms * mb)) ((m - mb) * ms - ms * mb) (f0 nx p p mm)))).
    - apply xp_wf, hrange_local; auto.
    - now apply same_xp.
    - apply (hc_three nd0 ndm ms (fun nx p mm => khc2hc kd r m (m * ms) mb me ms nx (sh p (ms * mb)) ((m - mb) * ms - ms * mb) mm)); auto.
      pose proof (khc2hc_correct mb (me - mb) ms (m * ms) ((m - mb) * ms - ms * mb) (ms * mb) (fun p => p * ms)) as K.
      replace (mb + (me - mb)) with me in K by lia. apply K; try lia; intros; ring.
  Qed.
End Step.
