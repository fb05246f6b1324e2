(** * Twiddle steps of the complex DFT: the solvers of dft/dftw-*.c (proofs). *)
From Coq Require Import Reals ZArith List Lia Bool Permutation FunctionalExtensionality.
From Verif Require Import NumTheory Cplx Spec Base PrimesModel TensorModel Offs TensorProofs XForm XKern XSeq
  CopyModel CopyProofs CopyBounds TransProofs Rank0Model Rank0Proofs Rank0Plans DftModel DftTw.
Import ListNotations.
Open Scope Z_scope.

Lemma nsteps_spec lo hi step : 0 < step -> let c := nsteps lo hi step in
  0 <= c /\ hi <= lo + c * step /\ (c = 0 \/ lo + (c - 1) * step < hi).
Proof.
  intros Hs. unfold nsteps. destruct (hi <=? lo) eqn:E; cbn zeta; [lia|].
  set (c := (hi - lo + step - 1) / step).
  pose proof (Z.div_mod (hi - lo + step - 1) step ltac:(lia)). pose proof (Z.mod_pos_bound (hi - lo + step - 1) step Hs).
  fold c in H. assert (0 <= c) by (apply Z.div_pos; lia). nia.
Qed.
Lemma batchsize_pos r : 0 <= r -> 0 < compute_batchsize r.
Proof.
  intros H. unfold compute_batchsize. assert (0 <= Z.land (r + 3) (-4)); [|lia]. apply Z.land_nonneg. lia.
Qed.

Lemma CorrectW_batches dit di r rs m ms mb c b rest w w2 : 0 <= c -> 0 <= b -> 0 <= rest ->
  (forall j, 0 <= j < c -> CorrectW (xtw dit di r rs rs m (mb + j * b) b ms) [] (w j)) ->
  CorrectW (xtw dit di r rs rs m (mb + c * b) rest ms) [] w2 ->
  CorrectW (xtw dit di r rs rs m mb (c * b + rest) ms) [] (fun nx p mm => w2 nx p (zfor c (fun j => w j nx p) mm)).
Proof.
  intros Hc Hb Hr H1 H2. unfold CorrectW in *. rewrite xtw_add by nia. rewrite xtw_mul by auto.
  apply (Correct_xapp true true _ _ [] (fun nx I O mm => zfor c (fun j => w j nx O) mm) (fun nx I O => w2 nx O)).
  - apply xtw_wf.
  - intros _. split; [|now apply same_set_xtw]. rewrite <- xtw_mul by auto. now apply same_set_xtw.
  - apply (Correct_xfor true true c _ [] (fun j nx I O => w j nx O)).
    + intros. apply xtw_wf.
    + intros. now apply same_set_xtw.
    + exact H1.
  - exact H2.
Qed.

Lemma dftw_direct_buf_correct dit di r rs m ms v vs mb mc : 0 <= mc -> 0 <= r ->
  CorrectW (xtw dit di r rs rs m mb mc ms) [mkdim v vs vs] (dftw_direct_buf dit di r rs m ms v vs mb (mb + mc)).
Proof.
  intros Hmc Hr. unfold dftw_direct_buf. set (B := compute_batchsize r). pose proof (batchsize_pos r Hr) as HB. fold B in HB.
  pose proof (nsteps_spec mb (mb + mc - B) B HB) as (Hc & Hc1 & Hc2). set (c := nsteps mb (mb + mc - B) B) in *. cbn zeta in *.
  apply (CorrectW_loop _ v vs (fun nx q mm => dftw_dobatch dit di r rs m ms B (mb + c * B) (mb + mc) (nx, 0) q
     (zfor c (fun j => dftw_dobatch dit di r rs m ms B (mb + j * B) (mb + j * B + B) (nx, 0) q) mm)) (xtw_wf _ _ _ _ _ _ _ _ _)
     (same_set_xtw dit di r rs m mb mc ms [] eq_refl)).
  replace mc with (c * B + (mc - c * B)) at 1 by ring.
  apply (CorrectW_batches dit di r rs m ms mb c B (mc - c * B)
    (fun j nx q => dftw_dobatch dit di r rs m ms B (mb + j * B) (mb + j * B + B) (nx, 0) q)
    (fun nx q => dftw_dobatch dit di r rs m ms B (mb + c * B) (mb + mc) (nx, 0) q)); try nia.
  - intros j Hj. apply dftw_dobatch_correct; lia.
  - replace (mb + mc) with (mb + c * B + (mc - c * B)) by ring. apply dftw_dobatch_correct; auto. nia.
Qed.

(** ** Pointwise multiplication by twiddle factors *)
Lemma cexp_W n k : cexp n k = Cplx.conj (W n k).
Proof. unfold cexp, W, Cplx.conj, cis. cbn [fst snd]. rewrite cos_neg, sin_neg. f_equal. ring. Qed.
Lemma cexp_W2 n k : Cplx.conj (cexp n k) = W n k.
Proof. rewrite cexp_W. apply conj_conj. Qed.

Definition xpm (di do_ n t : Z) : xform := cxf di do_ [0] [[]] (fun _ => 0) (fun _ x => x 0 * W n t)%C.
Lemma xpm_wf di do_ n t : xwf (xpm di do_ n t).
Proof. apply cxf_wf. intros ks _ x y E. rewrite (E 0); [reflexivity|now left]. Qed.
Lemma il_xpm di do_ n t vec : il (xpm di do_ n t) vec = locs ((2, di) :: ti vec).
Proof. unfold il, xpm, cxf. cbn [xi locs]. now rewrite lplus_0_r. Qed.
Lemma ol_xpm di do_ n t vec : ol (xpm di do_ n t) vec = locs ((2, do_) :: to_ vec).
Proof. unfold ol, xpm. rewrite cxf_fst. cbn [map locs]. now rewrite lplus_0_r. Qed.
Lemma vals_xpm di do_ n t vec I O mm mm' : vals (xpm di do_ n t) vec I O mm mm' <->
  (forall a b, In (a, b) (offs vec) -> rdc mm' (O, sh O do_) b = (rdc mm (I, sh I di) a * W n t)%C).
Proof.
  unfold xpm. rewrite vals_cxf. unfold cvals. split; intros H a b Hab.
  - specialize (H a b Hab [] (or_introl eq_refl)). now rewrite !Z.add_0_r in H.
  - intros ks _. rewrite !Z.add_0_r. now apply H.
Qed.
Lemma xpm_kern di do_ n t (I O : loc) mm : let z := (rdc mm (I, sh I di) 0 * W n t)%C in
  kern (xpm di do_ n t) 0%nat I O mm = upd (upd mm (sh O 0) (fst z)) (sh O do_) (snd z).
Proof.
  cbn zeta. unfold kern, xpm, cxf. cbn [xo]. change (zr 2) with [0; 1]. cbn [flat_map map app fst snd stores].
  rewrite Z.mul_0_l, Z.mul_1_l, !Z.add_0_r. unfold part. change (0 =? 0) with true. change (1 =? 0) with false. cbn iota.
  assert (E : cview di (fun z => mm (sh I z)) 0 = rdc mm (I, sh I di) 0); [|now rewrite E].
  unfold cview, rdc. cbn [fst snd]. now rewrite sh_sh.
Qed.

Definition xpmul (di do_ n r irs ors mb mc ims oms : Z) : xform :=
  xcat r (fun j => xshift (j * irs) (j * ors) (xcat mc (fun i => xshift (i * ims) (i * oms) (xpm di do_ n (j * (mb + i)))))).
Lemma xpmul_wf di do_ n r irs ors mb mc ims oms : xwf (xpmul di do_ n r irs ors mb mc ims oms).
Proof. apply xcat_wf. intros. apply xshift_wf, xcat_wf. intros. apply xshift_wf, xpm_wf. Qed.
Lemma il_xpmul di do_ n r irs ors mb mc ims oms vec :
  il (xpmul di do_ n r irs ors mb mc ims oms) vec = locs ((r, irs) :: (mc, ims) :: (2, di) :: ti vec).
Proof.
  apply (il_xcat_sh _ _ _ irs). intros j Hj. rewrite il_xshift. f_equal.
  apply (il_xcat_sh _ _ _ ims). intros i Hi. now rewrite il_xshift, il_xpm.
Qed.
Lemma ol_xpmul di do_ n r irs ors mb mc ims oms vec :
  ol (xpmul di do_ n r irs ors mb mc ims oms) vec = locs ((r, ors) :: (mc, oms) :: (2, do_) :: to_ vec).
Proof.
  apply (ol_xcat_sh _ _ _ ors). intros j Hj. rewrite ol_xshift. f_equal.
  apply (ol_xcat_sh _ _ _ oms). intros i Hi. now rewrite ol_xshift, ol_xpm.
Qed.
Lemma vals_xpmul di do_ n r irs ors mb mc ims oms vec I O mm mm' :
  vals (xpmul di do_ n r irs ors mb mc ims oms) vec I O mm mm' <->
  (forall a b, In (a, b) (offs vec) -> forall i j, 0 <= i < mc -> 0 <= j < r ->
     rdc mm' (O, sh O do_) (b + j * ors + i * oms) = (rdc mm (I, sh I di) (a + j * irs + i * ims) * W n (j * (mb + i)))%C).
Proof.
  unfold xpmul. rewrite vals_xcat. split.
  - intros H a b Hab i j Hi Hj. specialize (H j Hj). rewrite vals_xshift, vals_xcat in H. specialize (H i Hi).
    rewrite vals_xshift, vals_xpm in H. specialize (H a b Hab). rewrite !rdc_sh in H.
    replace (b + j * ors + i * oms) with (j * ors + (i * oms + b)) by ring. rewrite H. do 2 f_equal. ring.
  - intros H j Hj. rewrite vals_xshift, vals_xcat. intros i Hi. rewrite vals_xshift, vals_xpm. intros a b Hab.
    specialize (H a b Hab i j Hi Hj). rewrite !rdc_sh.
    replace (j * ors + (i * oms + b)) with (b + j * ors + i * oms) by ring. rewrite H. do 2 f_equal. ring.
Qed.

Lemma zfor_first n f m : 0 < n -> zfor n f m = zfor (n - 1) (fun i => f (i + 1)) (f 0 m).
Proof.
  intros H. replace n with (n - 1 + 1) at 1 by ring. assert (0 <= n - 1) by lia. revert H0. generalize (n - 1). clear H n.
  intros n Hn. pattern n. apply natlike_ind; [reflexivity| |exact Hn].
  intros k Hk IH. rewrite <- Z.add_1_r. rewrite (zfor_succ (k + 1)) by lia. rewrite IH. now rewrite (zfor_succ k) by lia.
Qed.
Lemma zfor_id n f m : (forall i m', 0 <= i < n -> f i m' = m') -> zfor n f m = m.
Proof.
  intros H. rewrite (zfor_ext n f (fun _ m => m) m).
  - unfold zfor. induction (Z.to_nat n); cbn; auto.
  - intros i m' Hi. now apply H.
Qed.

(** dft/dftw-generic.c: bytwiddle in place *)
Lemma tw_full_val n r j i : 0 < r - 1 -> 1 <= i < r -> 0 <= j ->
  tw_full n r (2 * i + 2 * (r - 1) * j - 2) = fst (cexp n (j * i)) /\ tw_full n r (2 * i + 2 * (r - 1) * j - 1) = snd (cexp n (j * i)).
Proof.
  intros H1 H2 H3. unfold tw_full.
  assert (D : forall c, 0 <= c < 2 -> (2 * i + 2 * (r - 1) * j - 2 + c) / (2 * (r - 1)) = j /\ (2 * i + 2 * (r - 1) * j - 2 + c) mod (2 * (r - 1)) = 2 * (i - 1) + c).
  { intros c Hc. replace (2 * i + 2 * (r - 1) * j - 2 + c) with (2 * (i - 1) + c + j * (2 * (r - 1))) by ring.
    rewrite Z.div_add, Z.mod_add by lia. rewrite Z.div_small, Z.mod_small by lia. lia. }
  split.
  - destruct (D 0 ltac:(lia)) as [E1 E2]. rewrite Z.add_0_r in *. rewrite E1, E2.
    rewrite ?Z.add_0_r, (Z.mul_comm 2 (i - 1)). rewrite Z.mod_mul by lia. rewrite Z.div_mul by lia. unfold part. cbn. repeat f_equal; ring.
  - destruct (D 1 ltac:(lia)) as [E1 E2]. replace (2 * i + 2 * (r - 1) * j - 2 + 1) with (2 * i + 2 * (r - 1) * j - 1) in * by ring. rewrite E1, E2.
    replace (2 * (i - 1) + 1) with (1 + (i - 1) * 2) by ring. rewrite Z.mod_add, Z.div_add by lia.
    change (1 mod 2) with 1. change (1 / 2) with 0. unfold part. cbn [Z.eqb]. change (1 =? 0) with false. cbn iota. repeat f_equal; ring.
Qed.

Lemma gen_bytwiddle_correct di r rs m mb mc ms v vs : 0 < r -> 0 <= mb -> 0 <= mc -> mb + mc <= m ->
  CorrectW (xshift (mb * ms) (mb * ms) (xpmul di di (r * m) r rs rs mb mc ms ms)) [mkdim v vs vs]
    (fun _ p mm => gen_bytwiddle di r rs m mb (mb + mc) ms v vs p mm).
Proof.
  intros Hr Hmb Hmc Hm. unfold gen_bytwiddle.
  set (X := xshift _ _ _).
  assert (HX : xwf X) by apply xshift_wf, xpmul_wf.
  assert (HS : same_set X []) by (apply same_set_xshift; intros o; now rewrite il_xpmul, ol_xpmul).
  set (wt := fun j i mm p => let pr := sh p (ms * i + rs * j) in
    let z := (rdc mm (pr, sh pr di) 0 * W (r * m) (j * i))%C in
    if (j =? 0) || (i =? 0) then mm else upd (upd mm (sh pr 0) (fst z)) (sh pr di) (snd z)).
  assert (K : CorrectW X [] (fun _ p mm => zfor r (fun j => zfor mc (fun i mm => wt j (mb + i) mm p)) mm)).
  { unfold CorrectW. 
    eapply Correct_ext; [|refine (proj1 (Correct_ip_O true X [] (fun nx I O mm => zfor r (fun j => zfor mc (fun i mm => wt j (mb + i) mm O)) mm)) _)].
    { reflexivity. }
    eapply Correct_ext; [|eapply (Correct_shift true true (mb * ms) (mb * ms)); [reflexivity|
      apply Correct_xfor with (f := fun j nx I O mm => zfor mc (fun i mm => wt j (mb + i) mm (sh O (- (mb * ms)))) mm)]].
    - intros nx I O mm. cbn beta. apply zfor_ext. intros j m1 Hj. apply zfor_ext. intros i m2 Hi. rewrite sh_sh.
      replace (mb * ms + - (mb * ms)) with 0 by ring. now rewrite sh_0.
    - intros. apply xshift_wf, xcat_wf. intros. apply xshift_wf, xpm_wf.
    - intros _ j Hj. apply same_set_xshift. intros o. rewrite in_il_xcat, in_ol_xcat.
      split; intros (i & Hi & H); exists i; (split; [auto|]); revert H; apply same_set_xshift; intros o'; now rewrite il_xpm, ol_xpm.
    - intros j Hj.
      eapply Correct_ext; [|eapply (Correct_shift true true (j * rs) (j * rs)); [reflexivity|
        apply Correct_xfor with (f := fun i nx I O mm => wt j (mb + i) mm (sh O (- (mb * ms) - j * rs)))]].
      + intros nx I O mm. cbn beta. apply zfor_ext. intros i m2 Hi. rewrite sh_sh. do 2 f_equal. ring.
      + intros. apply xshift_wf, xpm_wf.
      + intros _ i Hi. apply same_set_xshift. intros o'. now rewrite il_xpm, ol_xpm.
      + intros i Hi.
        eapply Correct_ext; [|refine (proj1 (Correct_ip_O true _ [] (fun nx I O mm => 
           if (j =? 0) || (mb + i =? 0) then mm else kern (xpm di di (r * m) (j * (mb + i))) 0%nat (sh I (i * ms)) (sh O (i * ms)) mm)) _)].
        { intros nx I O mm. cbn beta. unfold wt. cbn zeta. destruct (_ || _); [reflexivity|].
          rewrite xpm_kern. cbn zeta. rewrite !(sh_sh O).
          replace (- (mb * ms) - j * rs + (ms * (mb + i) + rs * j)) with (i * ms) by ring. reflexivity. }
        destruct ((j =? 0) || (mb + i =? 0)) eqn:E.
        * assert (j * (mb + i) = 0) as -> by (apply orb_true_iff in E; lia).
          intros nx I O mm HW. split; [|intros l _ _ _; reflexivity].
          rewrite vals_xshift, vals_xpm. intros a b [Eab|[]]. injection Eab as <- <-.
          pose proof (wf_x _ _ _ _ _ _ HW) as [-> _]. rewrite W_0. apply C_eq; cbn; ring.
        * eapply Correct_ext; [|apply (Correct_shift true true (i * ms) (i * ms) _ [] (kern (xpm di di (r * m) (j * (mb + i)))) (fun _ => eq_refl)); apply kern_correct].
          reflexivity. }
  eapply Correct_ext; [|apply (CorrectW_loop X v vs _ HX HS K)].
  intros nx I O mm. cbn beta. apply zfor_ext. intros iv m0 Hiv.
  rewrite (zfor_first r) by auto.
  rewrite (zfor_id mc) by (intros; reflexivity).
  apply zfor_ext. intros j m1 Hj.
  set (b0 := if mb =? 0 then 1 else 0).
  assert (ST : forall i m2, 0 < i < m -> wt (j + 1) i m2 (sh O (iv * vs)) =
    let pr := sh O (iv * vs + (ms * i + rs * (j + 1))) in let pi := sh (sh O di) (iv * vs + (ms * i + rs * (j + 1))) in
    let xr := m2 pr in let xi := m2 pi in
    let wr := tw_full (r * m) m (2 * i + 2 * (m - 1) * (j + 1) - 2) in
    let wi := tw_full (r * m) m (2 * i + 2 * (m - 1) * (j + 1) - 1) in
    upd (upd m2 pr (xr * wr + xi * wi)%R) pi (xi * wr - xr * wi)%R).
  { intros i m2 Hi. unfold wt. replace ((j + 1 =? 0) || (i =? 0)) with false by lia.
    destruct (tw_full_val (r * m) m (j + 1) i ltac:(lia) ltac:(lia) ltac:(lia)) as [-> ->]. cbn zeta.
    rewrite !sh_sh. rewrite Z.add_0_r. replace (di + (iv * vs + (ms * i + rs * (j + 1)))) with (iv * vs + (ms * i + rs * (j + 1)) + di) by ring.
    rewrite cexp_W. unfold rdc. cbn [fst snd Cplx.conj cmul]. rewrite !sh_sh, !Z.add_0_r. f_equal; [f_equal|]; ring. }
  cbn zeta. destruct (Z.eq_dec mb 0) as [E|E].
  - replace b0 with 1 by (unfold b0; now rewrite E). clearbody X. clear K b0. subst mb. rewrite !Z.add_0_l. destruct (Z.eq_dec mc 0) as [->|Hmc0]; [reflexivity|].
    rewrite (zfor_first mc) by lia. replace (wt (j + 1) (0 + 0) m1 (sh O (iv * vs))) with m1 by (unfold wt; now rewrite orb_true_r).
    apply zfor_ext. intros i m2 Hi. rewrite Z.add_0_l, ST by lia. reflexivity.
  - unfold b0. replace (mb =? 0) with false by lia. rewrite Z.add_0_r. replace (mb + mc - mb) with mc by ring.
    apply zfor_ext. intros i m2 Hi. rewrite ST by lia. now rewrite (Z.add_comm mb i).
Qed.

Lemma mdft1 n is os x k : mdft [mkdim n is os] x [k] = Csum n (fun j => x (j * is)%Z * W n (j * k)%Z)%C.
Proof. cbn [mdft dn dis]. apply Csum_ext. intros j _. now rewrite Z.add_0_r. Qed.
Lemma vals_cx1 di do_ n is os vec I O m m' : vals (cx di do_ [mkdim n is os]) vec I O m m' <->
  (forall a b, In (a, b) (offs vec) -> forall k, 0 <= k < n ->
    rdc m' (O, sh O do_) (b + k * os) = Csum n (fun j => rdc m (I, sh I di) (a + j * is)%Z * W n (j * k)%Z)%C).
Proof.
  rewrite vals_cx. split; intros H a b Hab.
  - intros k Hk. specialize (H a b Hab [k]). cbn [ooff dos] in H. rewrite Z.add_0_r, mdft1 in H. apply H. cbn. auto.
  - intros ks Hks. apply in_box1 in Hks as (k & Hk & ->). cbn [ooff dos]. rewrite Z.add_0_r, mdft1. now apply H.
Qed.

Lemma perm_4a {A} (a b c d : A) : Permutation [a; b; c; d] [b; c; a; d].
Proof. apply perm_rot3. Qed.
Lemma perm_4b {A} (a b c d : A) : Permutation [a; b; c; d] [c; a; b; d].
Proof. symmetry. apply perm_rot3. Qed.

Lemma dftw_generic_correct dit nd di r rs m ms v vs mb mc f : 0 < r -> 0 <= mb -> 0 <= mc -> mb + mc <= m -> 0 <= v ->
  Correct nd true (cx di di [mkdim r rs rs]) [mkdim mc ms ms; mkdim v vs vs] f ->
  CorrectW (xtw dit di r rs rs m mb mc ms) [mkdim v vs vs] (dftw_generic dit di r rs m ms v vs mb (mb + mc) f).
Proof.
  intros Hr Hmb Hmc Hm Hv HC. pose proof (gen_bytwiddle_correct di r rs m mb mc ms v vs Hr Hmb Hmc Hm) as HB.
  pose proof (Correct_shift nd true (mb * ms) (mb * ms) _ _ _ (fun _ => eq_refl) HC) as HC'.
  apply (Correct_ip_nd _ true) in HC'. unfold CorrectW in *. unfold dftw_generic. rewrite (Z.mul_comm ms mb).
  assert (Pcx : Permutation (il (xtw dit di r rs rs m mb mc ms) [mkdim v vs vs])
     (il (xshift (mb * ms) (mb * ms) (cx di di [mkdim r rs rs])) [mkdim mc ms ms; mkdim v vs vs])).
  { rewrite il_xtw, il_xshift, il_cx. apply Permutation_map, locs_perm. cbn. apply perm_4a. }
  assert (Qcx : Permutation (ol (xtw dit di r rs rs m mb mc ms) [mkdim v vs vs])
     (ol (xshift (mb * ms) (mb * ms) (cx di di [mkdim r rs rs])) [mkdim mc ms ms; mkdim v vs vs])).
  { rewrite ol_xtw, ol_xshift, ol_cx. apply Permutation_map, locs_perm. cbn. apply perm_4a. }
  assert (Ppm : Permutation (il (xtw dit di r rs rs m mb mc ms) [mkdim v vs vs])
     (il (xshift (mb * ms) (mb * ms) (xpmul di di (r * m) r rs rs mb mc ms ms)) [mkdim v vs vs])).
  { rewrite il_xtw, il_xshift, il_xpmul. apply Permutation_map, locs_perm. cbn. apply perm_4b. }
  assert (Qpm : Permutation (ol (xtw dit di r rs rs m mb mc ms) [mkdim v vs vs])
     (ol (xshift (mb * ms) (mb * ms) (xpmul di di (r * m) r rs rs mb mc ms ms)) [mkdim v vs vs])).
  { rewrite ol_xtw, ol_xshift, ol_xpmul. apply Permutation_map, locs_perm. cbn. apply perm_4b. }
  assert (IO : forall mb mc, il (xtw dit di r rs rs m mb mc ms) [mkdim v vs vs] = ol (xtw dit di r rs rs m mb mc ms) [mkdim v vs vs])
    by (intros; now rewrite il_xtw, ol_xtw).
  destruct dit.
  - refine (Correct_after true true true _ _ _ _ _ _ (fun nx I O mm => gen_bytwiddle di r rs m mb (mb + mc) ms v vs O mm)
      (fun nx I O mm => f nx (sh I (mb * ms)) (sh O (mb * ms)) mm) _ _ Ppm Qpm _ Qcx _ HB HC').
    + auto.
    + intros _. repeat constructor; cbn; lia.
    + now rewrite <- IO.
    + intros I O m0 m1 m2 V1 V2. rewrite xtw_xtwg, vals_xtwg. rewrite vals_xshift, vals_xpmul in V1. rewrite vals_xshift, vals_cx1 in V2.
      intros a b Hab i Hi k1 Hk1. apply offs1_inv in Hab as (iv & Hiv & -> & ->).
      specialize (V2 _ _ (offs2_in mc ms ms v vs vs i iv Hi Hiv) k1 Hk1). rewrite rdc_sh in V2.
      replace (mb * ms + iv * vs + i * ms + k1 * rs) with (mb * ms + (i * ms + iv * vs + k1 * rs)) by ring. rewrite V2.
      cbn [bfly]. apply Csum_ext. intros j Hj. f_equal. rewrite rdc_sh.
      specialize (V1 _ _ (offs1_in v vs vs iv Hiv) i j Hi Hj). rewrite !rdc_sh in V1.
      replace (mb * ms + (i * ms + iv * vs + j * rs)) with (mb * ms + (iv * vs + j * rs + i * ms)) by ring. rewrite V1. do 2 f_equal. ring.
  - refine (Correct_ext _ _ _ _ (fun nx I O mm => gen_bytwiddle di r rs m mb (mb + mc) ms v vs O (f nx (sh O (mb * ms)) (sh O (mb * ms)) mm)) _ (fun _ _ _ _ => eq_refl) _).
    refine (Correct_after true true true _ _ _ _ _ _ (fun nx I O mm => f nx (sh O (mb * ms)) (sh O (mb * ms)) mm)
      (fun nx I O mm => gen_bytwiddle di r rs m mb (mb + mc) ms v vs O mm) _ _ Pcx Qcx _ Qpm _ _ HB).
    + intros _. repeat constructor; cbn; lia.
    + auto.
    + now rewrite <- IO.
    + intros I O m0 m1 m2 V1 V2. rewrite xtw_xtwg, vals_xtwg. rewrite vals_xshift, vals_xpmul in V2. rewrite vals_xshift, vals_cx1 in V1.
      intros a b Hab i Hi k1 Hk1. apply offs1_inv in Hab as (iv & Hiv & -> & ->).
      specialize (V2 _ _ (offs1_in v vs vs iv Hiv) i k1 Hi Hk1). rewrite !rdc_sh in V2.
      replace (mb * ms + iv * vs + i * ms + k1 * rs) with (mb * ms + (iv * vs + k1 * rs + i * ms)) by ring. rewrite V2.
      cbn [bfly]. f_equal.
      specialize (V1 _ _ (offs2_in mc ms ms v vs vs i iv Hi Hiv) k1 Hk1). rewrite rdc_sh in V1.
      replace (mb * ms + (iv * vs + k1 * rs + i * ms)) with (mb * ms + (i * ms + iv * vs + k1 * rs)) by ring. rewrite V1.
      apply Csum_ext. intros j Hj. f_equal. rewrite rdc_sh. f_equal. ring.
    + exact (proj1 (Correct_ip_O true _ _ (fun nx I O mm => f nx (sh I (mb * ms)) (sh O (mb * ms)) mm)) HC').
Qed.

(** ** dft/dftw-genericbuf.c *)
Lemma gbuf_bytwiddle_correct nd di r rs m ms mb mc :
  Correct nd false (xshift (mb * ms) 0 (xpmul di 1 (r * m) r rs 2 mb mc ms (2 * BATCHDIST r))) []
    (fun _ I O mm => gbuf_bytwiddle di r rs m ms mb (mb + mc) O I mm).
Proof.
  unfold gbuf_bytwiddle.
  set (bd := 2 * BATCHDIST r).
  eapply Correct_ext; [|eapply (Correct_shift nd false (mb * ms) 0); [discriminate|
      apply Correct_xfor with (f := fun j nx I O mm => zfor mc (fun i mm =>
         kern (xpm di 1 (r * m) (j * (mb + i))) 0%nat (sh (sh I (j * rs)) (i * ms)) (sh (sh O (j * 2)) (i * bd)) mm) mm)]].
  - intros nx I O mm. cbn beta. replace (mb + mc - mb) with mc by ring. apply zfor_ext. intros j m1 Hj. apply zfor_ext. intros i m2 Hi.
    rewrite xpm_kern. cbn zeta. rewrite cexp_W2. rewrite (Z.add_comm i mb).
    assert (E : (m2 (sh I (j * rs + (mb + i) * ms)), m2 (sh (sh I di) (j * rs + (mb + i) * ms))) =
       rdc m2 (sh (sh (sh I (mb * ms)) (j * rs)) (i * ms), sh (sh (sh (sh I (mb * ms)) (j * rs)) (i * ms)) di) 0).
    { unfold rdc. cbn [fst snd]. rewrite !sh_sh. f_equal; do 2 f_equal; ring. }
    rewrite E. rewrite !sh_sh. f_equal; [f_equal|]; f_equal; ring.
  - intros. apply xshift_wf, xcat_wf. intros. apply xshift_wf, xpm_wf.
  - discriminate.
  - intros j Hj. eapply Correct_ext; [|eapply (Correct_shift nd false (j * rs) (j * 2)); [discriminate|
        apply Correct_xfor with (f := fun i nx I O mm => kern (xpm di 1 (r * m) (j * (mb + i))) nx (sh I (i * ms)) (sh O (i * bd)) mm)]].
    + reflexivity.
    + intros. apply xshift_wf, xpm_wf.
    + discriminate.
    + intros i Hi. apply Correct_shift; [discriminate|]. apply kern_correct.
Qed.

Lemma NoDup_buf r mc B : 0 <= r <= B -> 0 <= mc -> NoDup (locs [(mc, 2 * B); (2, 1); (r, 2)]).
Proof.
  intros Hr Hmc. refine (proj1 (locs_nest mc (2 * B) _ (mc * (2 * B)) Hmc ltac:(lia) ltac:(lia) _ _)).
  - eapply Permutation_NoDup; [apply locs_perm, perm_swap|].
    refine (proj1 (locs_nest r 2 _ (2 * B) _ _ _ _ _)); try lia.
    * apply (locs_nest 2 1 [] 2); try lia; [constructor; [easy|constructor]|]. cbn. lia.
    * apply (locs_nest 2 1 [] 2); try lia; [constructor; [easy|constructor]|]. cbn. lia.
  - intros x Hx. apply (Permutation_in x (locs_perm _ _ (perm_swap _ _ _))) in Hx. revert x Hx.
    refine (proj2 (locs_nest r 2 _ (2 * B) _ _ _ _ _)); try lia.
    * apply (locs_nest 2 1 [] 2); try lia; [constructor; [easy|constructor]|]. cbn. lia.
    * apply (locs_nest 2 1 [] 2); try lia; [constructor; [easy|constructor]|]. cbn. lia.
Qed.

Lemma map_add0 l : map (Z.add 0) l = l.
Proof. rewrite <- (map_id l) at 2. now apply map_ext. Qed.
Lemma gbuf_dobatch_correct nd di r rs m ms mb mc f : 0 < r -> 0 <= mc ->
  Correct nd true (cx 1 1 [mkdim r 2 2]) [mkdim mc (2 * BATCHDIST r) (2 * BATCHDIST r)] f ->
  CorrectW (xtw true di r rs rs m mb mc ms) [] (fun nx p mm => gbuf_dobatch di r rs m ms mb (mb + mc) f (S nx) (nx, 0) p mm).
Proof.
  intros Hr Hmc HC. set (bd := 2 * BATCHDIST r) in *. unfold CorrectW.
  eapply Correct_ext; [|refine (proj1 (Correct_ip_O true _ [] (fun nx I O mm =>
     cpy2d_pair_co mc bd ms r 2 rs (nx, 0) (sh (nx, 0) 1) (sh O (mb * ms)) (sh (sh O (mb * ms)) di)
       (f (S nx) (nx, 0) (nx, 0) (gbuf_bytwiddle di r rs m ms mb (mb + mc) (nx, 0) I mm)))) _)].
  { intros nx I O mm. cbn beta. unfold gbuf_dobatch. cbn zeta. fold bd. replace (mb + mc - mb) with mc by ring.
    rewrite (Z.mul_comm ms mb). rewrite !(sh_sh O). now rewrite (Z.add_comm di). }
  set (X1 := xtwg true di 1 r rs 2 m mb mc ms bd (mb * ms) 0).
  assert (C1 : Correct (true && negb true) false X1 [] (fun nx I O mm => f nx O O (gbuf_bytwiddle di r rs m ms mb (mb + mc) O I mm))).
  { refine (Correct_after _ nd false X1 [] (xshift (mb * ms) 0 (xpmul di 1 (r * m) r rs 2 mb mc ms bd)) []
       (cx 1 1 [mkdim r 2 2]) [mkdim mc bd bd]
       (fun _ I O mm => gbuf_bytwiddle di r rs m ms mb (mb + mc) O I mm) f _ _ _ _ _ _ _ (gbuf_bytwiddle_correct _ di r rs m ms mb mc) HC).
    - auto.
    - intros _. repeat constructor; cbn; lia.
    - unfold X1. rewrite il_xtwg, il_xshift, il_xpmul. apply Permutation_map, locs_perm. symmetry. apply perm_rot3.
    - unfold X1. rewrite ol_xtwg, ol_xshift, ol_xpmul. apply Permutation_map, locs_perm. symmetry. apply perm_rot3.
    - unfold X1. rewrite ol_xtwg, il_cx, map_add0. apply (locs_perm _ _ (perm_rot3 (mc, bd) (2, 1) (r, 2) [])).
    - unfold X1. rewrite ol_xtwg, ol_cx, map_add0. apply (locs_perm _ _ (perm_rot3 (mc, bd) (2, 1) (r, 2) [])).
    - intros I O m0 m1 m2 V1 V2. unfold X1. rewrite vals_xtwg. rewrite vals_xshift, vals_xpmul in V1. rewrite vals_cx1 in V2.
      intros a b [E|[]] i Hi k1 Hk1. injection E as <- <-.
      specialize (V2 _ _ (offs1_in mc bd bd i Hi) k1 Hk1). rewrite <- Z.add_assoc, !Z.add_0_l. rewrite V2. cbn [bfly].
      apply Csum_ext. intros j Hj. f_equal. specialize (V1 0 0 (or_introl eq_refl) i j Hi Hj). rewrite !rdc_sh in V1.
      replace (i * bd + j * 2) with (0 + (0 + j * 2 + i * bd)) by ring. rewrite V1. do 2 f_equal. ring. }
  refine (Correct_buf2 true true _ [] X1 [] (xshift 0 (mb * ms) (cx 1 di [])) [mkdim mc bd ms; mkdim r 2 rs] _
     (fun _ I O mm => cpy2d_pair_co mc bd ms r 2 rs I (sh I 1) (sh O (mb * ms)) (sh (sh O (mb * ms)) di) mm)
     (fun nx => (nx, 0)) _ _ _ _ _ _ _ _ C1 _).
  - reflexivity.
  - constructor.
  - repeat constructor; cbn; lia.
  - rewrite il_xtw. unfold X1. now rewrite il_xtwg.
  - rewrite ol_xtw, ol_xshift, ol_cx. apply Permutation_map. apply (locs_perm _ _ (perm_swap _ _ _)).
  - unfold X1. rewrite ol_xtwg. apply NoDup_map_shift. cbn [to_ map]. apply NoDup_buf; unfold BATCHDIST; lia.
  - unfold X1. rewrite ol_xtwg, il_xshift, il_cx. apply Permutation_map. apply (locs_perm _ _ (perm_swap _ _ _)).
  - intros nx I O m0 m1 m2 V1 V2. unfold X1 in V1. rewrite vals_xtwg in V1. rewrite vals_xshift, vals_copy in V2.
    rewrite xtw_xtwg, vals_xtwg. intros a b [E|[]] i Hi k1 Hk1. injection E as <- <-.
    specialize (V1 0 0 (or_introl eq_refl) i Hi k1 Hk1). rewrite <- V1.
    specialize (V2 _ _ (offs2_in mc bd ms r 2 rs i k1 Hi Hk1)).
    rewrite !rdc_sh in V2.
    transitivity (rdc m2 (O, sh O di) (mb * ms + (i * ms + k1 * rs))); [f_equal; ring|]. rewrite V2. reflexivity.
  - eapply Correct_ext; [|apply (Correct_shift false false 0 (mb * ms) _ _ _ ltac:(discriminate) (cpy2d_pair_co_correct _ 1 di mc bd ms r 2 rs))].
    intros nx I O mm. cbn beta. now rewrite !sh_0.
Qed.

Lemma dftw_genericbuf_correct nd di r rs m ms ivs ovs mb mc bsz f : 0 < r -> 0 < bsz -> 0 <= mc -> Z.rem mc bsz = 0 ->
  Correct nd true (cx 1 1 [mkdim r 2 2]) [mkdim bsz (2 * BATCHDIST r) (2 * BATCHDIST r)] f ->
  CorrectW (xtw true di r rs rs m mb mc ms) [mkdim 1 ivs ovs] (dftw_genericbuf di r rs m ms bsz mb (mb + mc) f).
Proof.
  intros Hr Hb Hmc Hd HC. apply Correct_dim1.
  assert (E : mc = nsteps mb (mb + mc) bsz * bsz).
  { rewrite Z.rem_mod_nonneg in Hd by lia. pose proof (Z.div_mod mc bsz ltac:(lia)) as D. rewrite Hd in D. clear Hd.
    set (q := mc / bsz) in *. clearbody q. subst mc. unfold nsteps. destruct (_ <=? _) eqn:E.
    - assert (bsz * q = 0) by lia. lia.
    - replace (mb + (bsz * q + 0) - mb + bsz - 1) with (bsz - 1 + q * bsz) by ring. rewrite Z.div_add by lia. rewrite Z.div_small by lia. ring. }
  unfold dftw_genericbuf. set (c := nsteps mb (mb + mc) bsz) in *.
  assert (Hc : 0 <= c) by nia. rewrite E, xtw_mul by lia.
  apply (Correct_xfor true true c _ [] (fun i nx I O => gbuf_dobatch di r rs m ms (mb + i * bsz) (mb + i * bsz + bsz) f (S nx) (nx, 0) O)).
  - intros. apply xtw_wf.
  - intros. now apply same_set_xtw.
  - intros i Hi. apply (gbuf_dobatch_correct nd); auto; lia.
Qed.
