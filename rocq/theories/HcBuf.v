(** * rdft/hc2hc-direct.c with a buffer (proofs) *)
From Coq Require Import Reals ZArith List Lia Lra Bool Permutation.
From Verif Require Import NumTheory Cplx Spec SpecR2R TensorModel Offs TensorProofs XForm XKern XSeq CopyModel CopyProofs DftModel HcModel DftTw DftTw2 RSum
  RdftX RdftLib HcMath HcLib HcStep.
Import ListNotations.
Open Scope Z_scope.

Lemma Correct_S nd ip X vec f : Correct nd ip X vec f -> Correct nd ip X vec (fun nx => f (S nx)).
Proof.
  intros C nx I O m [W1 W2 W3 W4 W5 W6]. destruct (C (S nx) I O m) as [V F]; [constructor; auto; lia|].
  split; auto. intros l Hl. apply F. lia.
Qed.

(** cells read at [si] and written at [so] *)
Definition xq (ps : list Z) (si so : Z -> Z) (G : Z -> (Z -> R) -> R) : xform :=
  mkX (map (fun p => si p) ps) (map (fun p => (so p, fun x => G p (fun q => x (si q)))) ps).
Lemma xq_wf ps si so G : local ps G -> xwf (xq ps si so G).
Proof.
  intros H o F HF x y E. cbn in *. apply in_map_iff in HF as (p & E' & Hp). injection E' as <- <-.
  apply H; auto. intros q Hq. apply E. apply in_map_iff. eauto.
Qed.
Lemma xq_fst ps si so G : map fst (xo (xq ps si so G)) = map (fun p => so p) ps.
Proof. cbn. rewrite map_map. reflexivity. Qed.
Lemma vals_xq ps si so G I O m m' : vals (xq ps si so G) [] I O m m' <->
  forall p, In p ps -> m' (sh O (so p)) = G p (fun q => m (sh I (si q))).
Proof.
  unfold vals. split.
  - intros H p Hp. exact (H 0 0 (or_introl eq_refl) (so p) _ (in_map (fun p => (so p, fun x => G p (fun q => x (si q)))) ps p Hp)).
  - intros H a b [E|[]] o F HF. injection E as <- <-. cbn in HF. apply in_map_iff in HF as (p & E & Hp). injection E as <- <-.
    now apply H.
Qed.
Lemma il_xq ps si so G : il (xq ps si so G) [] = map (fun p => si p) ps.
Proof. unfold il. cbn [xi xq ti map locs]. now rewrite lplus_0_r. Qed.
Lemma ol_xq ps si so G : ol (xq ps si so G) [] = map (fun p => so p) ps.
Proof. unfold ol. rewrite xq_fst. cbn [to_ map locs]. now rewrite lplus_0_r. Qed.
Definition idc (p : Z) (x : Z -> R) : R := x p.
Lemma idc_local ps : local ps idc.
Proof. intros p Hp x y E. now apply E. Qed.

Definition grid (n0 n1 : Z) (cell : Z -> Z -> Z) : list Z := flat_map (fun i => map (fun j => cell i j) (zr n1)) (zr n0).
Lemma in_grid n0 n1 cell p : In p (grid n0 n1 cell) <-> exists i j, 0 <= i < n0 /\ 0 <= j < n1 /\ p = cell i j.
Proof.
  unfold grid. rewrite in_flat_map. split.
  - intros (i & Hi & Hp). apply in_map_iff in Hp as (j & <- & Hj). apply in_zr in Hi, Hj. eauto 6.
  - intros (i & j & Hi & Hj & ->). exists i. split; [now apply in_zr|]. apply in_map_iff. exists j. split; auto. now apply in_zr.
Qed.
Lemma NoDup_grid n0 n1 cell :
  (forall i j i' j', 0 <= i < n0 -> 0 <= j < n1 -> 0 <= i' < n0 -> 0 <= j' < n1 -> cell i j = cell i' j' -> i = i' /\ j = j') ->
  NoDup (grid n0 n1 cell).
Proof.
  intros H. apply NoDup_flat_map'; [apply NoDup_zr| |].
  - intros i Hi. apply in_zr in Hi. apply NoDup_map_inj; [|apply NoDup_zr].
    intros a b Ha Hb E. apply in_zr in Ha, Hb. now apply (H i a i b).
  - intros i j x Hi Hj Hx Hy. apply in_zr in Hi, Hj. apply in_map_iff in Hx as (a & <- & Ha), Hy as (b & E & Hb). apply in_zr in Ha, Hb.
    symmetry. now apply (H j b i a).
Qed.
Lemma flat_map_eq {A B} (f g : A -> list B) l : (forall x, In x l -> f x = g x) -> flat_map f l = flat_map g l.
Proof. intros H. induction l as [|a l IH]; cbn; auto. rewrite (H a) by now left. f_equal. apply IH. intros x Hx. apply H. now right. Qed.
Lemma map_grid n0 n1 cell s a c0 c1 : (forall i j, 0 <= i < n0 -> 0 <= j < n1 -> s (cell i j) = a + i * c0 + j * c1) ->
  map (fun p => s p) (grid n0 n1 cell) = map (Z.add a) (locs [(n0, c0); (n1, c1)]).
Proof.
  intros E. unfold grid. rewrite map_flat_map. cbn [locs]. rewrite lplus_0_r. unfold lplus, dimlocs. cbn [fst snd].
  rewrite flat_map_map, map_flat_map. apply flat_map_eq. intros i Hi. apply in_zr in Hi. rewrite !map_map.
  apply map_ext_in. intros j Hj. apply in_zr in Hj. rewrite E by auto. ring.
Qed.
Lemma copy_grid nd n0 is0 os0 n1 is1 os1 cell a b si so f : 0 <= n0 -> 0 <= n1 ->
  (forall i j, 0 <= i < n0 -> 0 <= j < n1 -> si (cell i j) = a + i * is0 + j * is1) ->
  (forall i j, 0 <= i < n0 -> 0 <= j < n1 -> so (cell i j) = b + i * os0 + j * os1) ->
  Correct nd false xcopy [mkdim n0 is0 os0; mkdim n1 is1 os1] f ->
  Correct nd false (xq (grid n0 n1 cell) si so idc) [] (fun nx I O m => f nx (sh I a) (sh O b) m).
Proof.
  intros H0 H1 Ei Eo C.
  eapply Correct_sim with (vec' := []) (X' := xshift a b (xvec xcopy [mkdim n0 is0 os0; mkdim n1 is1 os1])); auto.
  2:{ apply Correct_shift; [discriminate|]. apply Correct_xvec_inv; [repeat constructor; cbn; lia|exact C]. }
  split; [|split].
  - cbn [xi xq xshift xvec]. rewrite (map_grid n0 n1 cell si a is0 is1 Ei). unfold il. cbn [xi xcopy ti map dn dis].
    rewrite lplus_0_l. reflexivity.
  - rewrite xq_fst, (map_grid n0 n1 cell so b os0 os1 Eo). cbn [xo xshift]. rewrite map_map. cbn [fst].
    rewrite <- (map_map fst (Z.add b)), xvec_fst. cbn [to_ map dn dos xo xcopy fst]. rewrite lplus_0_r. reflexivity.
  - intros o F HF. cbn [xo xq] in HF. apply in_map_iff in HF as (p & E & Hp). injection E as <- <-.
    apply in_grid in Hp as (i & j & Hi & Hj & ->).
    exists (fun x => x (a + (i * is0 + j * is1 + 0))). split.
    + cbn [xo xshift]. apply in_map_iff. exists (i * os0 + j * os1 + 0, fun x => x (i * is0 + j * is1 + 0)). split.
      * cbn [fst snd]. f_equal. rewrite Eo by auto. ring.
      * apply xvec_xo. exists (i * is0 + j * is1), (i * os0 + j * os1), 0, (fun x => x 0).
        split; [now apply offs2_in|]. split; [now left|]. split; auto.
    + intros x. unfold idc. rewrite Ei by auto. f_equal. ring.
Qed.
Lemma xq_sim A B si so G : Permutation A B -> xsim (xq A si so G) (xq B si so G).
Proof.
  intros P. split; [|split].
  - cbn. now apply Permutation_map.
  - rewrite !xq_fst. now apply Permutation_map.
  - intros o F HF. exists F. split; auto. cbn in *. eapply Permutation_in; [|exact HF]. now apply Permutation_map.
Qed.
Lemma xq_app A B si so G : xapp (xq A si so G) (xq B si so G) = xq (A ++ B) si so G.
Proof. unfold xapp, xq. cbn. now rewrite !map_app. Qed.
Lemma copy_grids nd A B si so f g : Correct nd false (xq A si so idc) [] f -> Correct nd false (xq B si so idc) [] g ->
  Correct nd false (xq (A ++ B) si so idc) [] (fun nx I O m => g nx I O (f nx I O m)).
Proof.
  intros C1 C2. rewrite <- xq_app. apply Correct_xapp; auto; [apply xq_wf, idc_local|discriminate].
Qed.

Section Buf.
  Variables (kd : rkind) (r m : Z).
  Hypothesis Hkd : kd = R2HC \/ kd = HC2R.
  Hypothesis (Hr : 0 < r) (Hm : 0 < m).

  Section Batch.
    Variables (B mb mc ms : Z).
    Hypothesis (Hmb : 0 < mb) (Hmc : 0 <= mc <= B) (Hme : 2 * (mb + mc - 1) < m).
    Let b := 2 * B.
    Definition bpos (p : Z) : Z :=
      let k := p / m in let c := p mod m in
      if 2 * c <? m then k * (2 * B) + (c - mb) else k * (2 * B) + (2 * B - 1 - (m - c - mb)).
    Lemma bpos_lo k j : 0 <= k < r -> mb <= j < mb + mc -> bpos (k * m + j) = k * b + (j - mb).
    Proof. intros Hk Hj. unfold bpos, b. cbn zeta. rewrite (pm_div r m k j), (pm_mod r m k j) by lia. destruct (Z.ltb_spec (2 * j) m); lia. Qed.
    Lemma bpos_hi k j : 0 <= k < r -> mb <= j < mb + mc -> bpos (k * m + (m - j)) = k * b + (b - 1 - (j - mb)).
    Proof. intros Hk Hj. unfold bpos, b. cbn zeta. rewrite (pm_div r m k (m - j)), (pm_mod r m k (m - j)) by lia. destruct (Z.ltb_spec (2 * (m - j)) m); lia. Qed.
    Definition glo : list Z := grid r mc (fun k i => k * m + (mb + i)).
    Definition ghi : list Z := grid r mc (fun k i => k * m + (m - (mb + i))).
    Lemma batch_perm : Permutation (hrange r m mb mc) (glo ++ ghi).
    Proof.
      apply NoDup_Permutation.
      - apply hrange_NoDup; lia.
      - apply NoDup_app_intro.
        + apply NoDup_grid. intros k i k' i' Hk Hi Hk' Hi' E. apply row_inj in E; lia.
        + apply NoDup_grid. intros k i k' i' Hk Hi Hk' Hi' E. apply row_inj in E; lia.
        + intros x Hx Hy. apply in_grid in Hx as (k & i & Hk & Hi & ->), Hy as (k' & i' & Hk' & Hi' & E). apply row_inj in E; lia.
      - intros p. rewrite in_hrange, in_app_iff. unfold glo, ghi. rewrite !in_grid. setoid_rewrite in_hcells. setoid_rewrite in_ocells. split.
        + intros (j & Hj & k & c & Hk & [->|(_ & _ & ->)] & ->); [left|right]; exists k, (j - mb); split; auto; (split; [lia|]); lia.
        + intros [(k & i & Hk & Hi & ->)|(k & i & Hk & Hi & ->)]; exists (mb + i); (split; [lia|]); exists k; eexists; (split; [auto|]); (split; [|reflexivity]); [now left|right; lia].
    Qed.
    Lemma bpos_NoDup : NoDup (map (fun p => bpos p) (hrange r m mb mc)).
    Proof.
      eapply Permutation_NoDup; [symmetry; apply Permutation_map, batch_perm|]. rewrite map_app. unfold glo, ghi, grid. rewrite !map_flat_map.
      assert (L : forall k, In k (zr r) -> map (fun p => bpos p) (map (fun i => k * m + (mb + i)) (zr mc)) = map (fun i => k * b + i) (zr mc)).
      { intros k Hk. apply in_zr in Hk. rewrite map_map. apply map_ext_in. intros i Hi. apply in_zr in Hi. rewrite bpos_lo by lia. lia. }
      assert (H : forall k, In k (zr r) -> map (fun p => bpos p) (map (fun i => k * m + (m - (mb + i))) (zr mc)) = map (fun i => k * b + (b - 1 - i)) (zr mc)).
      { intros k Hk. apply in_zr in Hk. rewrite map_map. apply map_ext_in. intros i Hi. apply in_zr in Hi. rewrite bpos_hi by lia. lia. }
      rewrite (flat_map_eq _ _ _ L), (flat_map_eq _ _ _ H).
      change (NoDup (grid r mc (fun k i => k * b + i) ++ grid r mc (fun k i => k * b + (b - 1 - i)))). unfold b.
      apply NoDup_app_intro.
      + apply NoDup_grid. intros k i k' i' Hk Hi Hk' Hi' E. apply row_inj in E; lia.
      + apply NoDup_grid. intros k i k' i' Hk Hi Hk' Hi' E. apply row_inj in E; lia.
      + intros x Hx Hy. apply in_grid in Hx as (k & i & Hk & Hi & ->), Hy as (k' & i' & Hk' & Hi' & E). apply row_inj in E; lia.
    Qed.
    (** rdft/hc2hc-direct.c: dobatch *)
    Lemma hc_dobatch_correct : CorrectW (xp (hrange r m mb mc) (fun p => p * ms) (hstep kd r m)) []
      (fun nx p mm => hc_dobatch kd r m ms B mb (mb + mc) (S nx) (nx, 0) p (sh p (m * ms)) mm).
    Proof.
      unfold CorrectW.
      set (cpi := fun (nx : nat) I O mm => cpy2d_ci r (m * ms) b mc (- ms) (-1) 1 nx (sh I (m * ms - mb * ms)) (sh O (b - 1))
                    (cpy2d_ci r (m * ms) b mc ms 1 1 nx (sh I (mb * ms)) (sh O 0) mm)).
      set (cpo := fun (nx : nat) I O mm => cpy2d_co r b (m * ms) mc (-1) (- ms) 1 nx (sh I (b - 1)) (sh O (m * ms - mb * ms))
                    (cpy2d_co r b (m * ms) mc 1 ms 1 nx (sh I 0) (sh O (mb * ms)) mm)).
      eapply Correct_ext; [|refine (proj1 (Correct_ip_O true _ [] (fun nx I O mm =>
         cpo (S nx) (nx, 0) O (khc2hc kd r m b mb (mb + mc) 1 (S nx) (sh (nx, 0) 0) (b - 1) (cpi (S nx) I (nx, 0) mm)))) _)].
      { intros nx I O mm. unfold cpo, cpi, hc_dobatch. cbn zeta. replace (mb + mc - mb) with mc by ring. rewrite !sh_sh, !sh_0. reflexivity. }
      assert (Ci : forall nd, Correct nd false (xq (hrange r m mb mc) (fun p => p * ms) bpos idc) [] cpi).
      { intros nd. eapply Correct_sim with (vec' := []) (X' := xq (glo ++ ghi) (fun p => p * ms) bpos idc); auto.
        - apply xq_sim, batch_perm.
        - apply (copy_grids nd _ _ _ _ (fun nx I O mm => cpy2d_ci r (m * ms) b mc ms 1 1 nx (sh I (mb * ms)) (sh O 0) mm)
            (fun nx I O mm => cpy2d_ci r (m * ms) b mc (- ms) (-1) 1 nx (sh I (m * ms - mb * ms)) (sh O (b - 1)) mm)).
          + apply (copy_grid nd r (m * ms) b mc ms 1 (fun k i => k * m + (mb + i)) (mb * ms) 0); [lia|lia| | |].
            * intros i j Hi Hj. cbn beta. ring.
            * intros i j Hi Hj. rewrite bpos_lo by lia. lia.
            * apply drop_vl1, cpy2d_ci_correct. lia.
          + apply (copy_grid nd r (m * ms) b mc (- ms) (-1) (fun k i => k * m + (m - (mb + i))) (m * ms - mb * ms) (b - 1)); [lia|lia| | |].
            * intros i j Hi Hj. cbn beta. ring.
            * intros i j Hi Hj. rewrite bpos_hi by lia. lia.
            * apply drop_vl1, cpy2d_ci_correct. lia. }
      assert (Co : forall nd, Correct nd false (xq (hrange r m mb mc) bpos (fun p => p * ms) idc) [] cpo).
      { intros nd. eapply Correct_sim with (vec' := []) (X' := xq (glo ++ ghi) bpos (fun p => p * ms) idc); auto.
        - apply xq_sim, batch_perm.
        - apply (copy_grids nd _ _ _ _ (fun nx I O mm => cpy2d_co r b (m * ms) mc 1 ms 1 nx (sh I 0) (sh O (mb * ms)) mm)
            (fun nx I O mm => cpy2d_co r b (m * ms) mc (-1) (- ms) 1 nx (sh I (b - 1)) (sh O (m * ms - mb * ms)) mm)).
          + apply (copy_grid nd r b (m * ms) mc 1 ms (fun k i => k * m + (mb + i)) 0 (mb * ms)); [lia|lia| | |].
            * intros i j Hi Hj. rewrite bpos_lo by lia. lia.
            * intros i j Hi Hj. cbn beta. ring.
            * apply drop_vl1, cpy2d_co_correct. lia.
          + apply (copy_grid nd r b (m * ms) mc (-1) (- ms) (fun k i => k * m + (m - (mb + i))) (b - 1) (m * ms - mb * ms)); [lia|lia| | |].
            * intros i j Hi Hj. rewrite bpos_hi by lia. lia.
            * intros i j Hi Hj. cbn beta. ring.
            * apply drop_vl1, cpy2d_co_correct. lia. }
      pose proof (khc2hc_correct kd r m Hkd Hr Hm mb mc 1 b (b - 1) 0 bpos Hmb Hme) as K. unfold CorrectW in K.
      assert (Loc : local (hrange r m mb mc) (hstep kd r m)) by (apply hrange_local; auto; lia).
      assert (C1 : Correct (true && negb true) false (xq (hrange r m mb mc) (fun p => p * ms) bpos (hstep kd r m)) []
        (fun nx I O mm => khc2hc kd r m b mb (mb + mc) 1 nx (sh O 0) (b - 1) (cpi nx I O mm))).
      { refine (Correct_after _ true false _ [] (xq (hrange r m mb mc) (fun p => p * ms) bpos idc) []
          (xp (hrange r m mb mc) bpos (hstep kd r m)) [] cpi
          (fun nx I O mm => khc2hc kd r m b mb (mb + mc) 1 nx (sh O 0) (b - 1) mm) _ _ _ _ _ _ _ (Ci _) _).
        - auto.
        - auto.
        - now rewrite !il_xq.
        - now rewrite !ol_xq.
        - rewrite ol_xq, il_xp. cbn [ti map locs]. now rewrite lplus_0_r.
        - rewrite ol_xq, ol_xp. cbn [to_ map locs]. now rewrite lplus_0_r.
        - intros I O m0 m1 m2. rewrite !vals_xq, vals_xp. intros V1 V2 p Hp.
          specialize (V2 0 0 (or_introl eq_refl) p Hp). rewrite !Z.add_0_l in V2. rewrite V2. apply Loc; [auto|].
          intros q Hq. now apply V1.
        - apply K; intros; [rewrite bpos_lo by lia|rewrite bpos_hi by lia]; lia. }
      refine (Correct_buf2 true true _ [] _ [] (xq (hrange r m mb mc) bpos (fun p => p * ms) idc) [] _ cpo
        (fun nx => (nx, 0)) _ _ _ _ _ _ _ _ C1 (Co _)).
      - reflexivity.
      - constructor.
      - constructor.
      - rewrite il_xq, il_xp. cbn [ti map locs]. now rewrite lplus_0_r.
      - rewrite ol_xq, ol_xp. cbn [to_ map locs]. now rewrite lplus_0_r.
      - rewrite ol_xq. apply bpos_NoDup.
      - now rewrite ol_xq, il_xq.
      - intros nx I O m0 m1 m2. rewrite !vals_xq, vals_xp. intros V1 V2 a c [E|[]] p Hp. injection E as <- <-.
        rewrite Z.add_0_l. rewrite V2 by auto. unfold idc. now rewrite V1.
    Qed.
  End Batch.

  Lemma hc_batches ms mb c B rest w w2 : 0 <= mb -> 0 <= c -> 0 <= B -> 0 <= rest -> 2 * (mb + (c * B + rest) - 1) <= m ->
    (forall j, 0 <= j < c -> CorrectW (xp (hrange r m (mb + j * B) B) (fun p => p * ms) (hstep kd r m)) [] (w j)) ->
    CorrectW (xp (hrange r m (mb + c * B) rest) (fun p => p * ms) (hstep kd r m)) [] w2 ->
    CorrectW (xp (hrange r m mb (c * B + rest)) (fun p => p * ms) (hstep kd r m)) [] (fun nx p mm => w2 nx p (zfor c (fun j => w j nx p) mm)).
  Proof.
    intros Hmb Hc HB Hre Hb H1 H2. rewrite hrange_add by nia.
    assert (E : hrange r m mb (c * B) = flat_map (fun j => hrange r m (mb + j * B) B) (zr c)).
    { clear Hb H1 H2. pattern c. apply natlike_ind; [reflexivity| |auto]. intros j Hj IH. rewrite <- Z.add_1_r, zr_add by lia.
      rewrite flat_map_app_r, <- IH. change (zr 1) with [0]. cbn [map flat_map]. rewrite app_nil_r, Z.add_0_r.
      rewrite <- hrange_add by nia. f_equal. ring. }
    rewrite E.
    apply (CW_app [] eq_refl _ _ _ _ (fun nx p mm => zfor c (fun j => w j nx p) mm) w2); auto.
    - apply hrange_local; auto; nia.
    - apply (CW_for [] eq_refl c (fun j => hrange r m (mb + j * B) B)); auto.
      intros j Hj. apply hrange_local; auto; nia.
  Qed.
  (** rdft/hc2hc-direct.c: apply_buf *)
  Lemma hc_direct_buf_correct mstart mcount nd0 ndm ms v vs f0 fm :
    0 <= mstart -> 0 < mcount -> 2 * (mstart + mcount - 1) <= m ->
    Correct nd0 true (rx (if CLD0P mstart then [(kd, mkdim r (m * ms) (m * ms))] else [])) [] f0 ->
    Correct ndm true (rx (if CLDMP m mstart mcount then [(kd_mid kd, mkdim r (m * ms) (m * ms))] else [])) [] fm ->
    CorrectW (xp (hrange r m mstart mcount) (fun p => p * ms) (hstep kd r m)) [mkdim v vs vs]
      (hc_direct_buf kd r m ms v vs (hc_mb mstart) (hc_me m mstart mcount) f0 fm).
  Proof.
    intros H0 H1 H2 C0 Cm. destruct (hc_parts r m Hm mstart mcount H0 H1 H2) as (P1 & P2 & P3 & _).
    set (mb := hc_mb mstart) in *. set (me := hc_me m mstart mcount) in *.
    unfold hc_direct_buf. set (B := compute_batchsize r). pose proof (batchsize_pos r ltac:(lia)) as HB. fold B in HB.
    pose proof (nsteps_spec mb (me - B) B HB) as (Hc & Hc1 & Hc2). set (c := nsteps mb (me - B) B) in *. cbn zeta in *.
    apply (CorrectW_loop _ v vs (fun nx p mm => fm (S nx) (sh p (ms * Z.quot m 2)) (sh p (ms * Z.quot m 2))
      (hc_dobatch kd r m ms B (mb + c * B) me (S nx) (nx, 0) p (sh p (m * ms))
        (zfor c (fun j => hc_dobatch kd r m ms B (mb + j * B) (mb + j * B + B) (S nx) (nx, 0) p (sh p (m * ms)))
        (f0 (S nx) p p mm))))).
    - apply xp_wf, hrange_local; auto.
    - now apply same_xp.
    - apply Correct_S in C0, Cm.
      eapply CW_ext; [|apply (hc_three kd r m Hkd Hr Hm mstart mcount H0 H1 H2 nd0 ndm ms (fun nx p mm =>
        hc_dobatch kd r m ms B (mb + c * B) me (S nx) (nx, 0) p (sh p (m * ms))
        (zfor c (fun j => hc_dobatch kd r m ms B (mb + j * B) (mb + j * B + B) (S nx) (nx, 0) p (sh p (m * ms))) mm)) _ _ C0 Cm)].
      + intros nx p mm. cbn beta. now rewrite (Z.mul_comm ms).
      + fold mb me. replace (me - mb) with (c * B + (me - (mb + c * B))) at 1 by ring.
        apply (hc_batches ms mb c B (me - (mb + c * B))
          (fun j nx p mm => hc_dobatch kd r m ms B (mb + j * B) (mb + j * B + B) (S nx) (nx, 0) p (sh p (m * ms)) mm)
          (fun nx p mm => hc_dobatch kd r m ms B (mb + c * B) me (S nx) (nx, 0) p (sh p (m * ms)) mm)); try nia.
        * intros j Hj. apply hc_dobatch_correct; nia.
        * pose proof (hc_dobatch_correct B (mb + c * B) (me - (mb + c * B)) ms) as D.
          replace (mb + c * B + (me - (mb + c * B))) with me in D by ring. apply D; nia.
  Qed.
End Buf.
