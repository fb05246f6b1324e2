(** * Twiddle steps of the complex DFT: library (proofs). *)
From Coq Require Import Reals ZArith List Lia Bool Permutation FunctionalExtensionality.
From Verif Require Import NumTheory Cplx Spec Base PrimesModel TensorModel Offs TensorProofs XForm XKern XSeq
  CopyModel CopyProofs CopyBounds TransProofs Rank0Model Rank0Proofs Rank0Plans DftModel.
Import ListNotations.
Open Scope Z_scope.

(** ** More xform algebra *)
Lemma flat_map_ext_in' {A B} (f g : A -> list B) l : (forall x, In x l -> f x = g x) -> flat_map f l = flat_map g l.
Proof. induction l as [|x l IH]; intros H; [reflexivity|]. cbn. rewrite (H x) by (now left). f_equal. apply IH. intros; apply H; now right. Qed.
Lemma flat_map_flat_map' {A B D} (f : B -> list D) (g : A -> list B) l : flat_map f (flat_map g l) = flat_map (fun x => flat_map f (g x)) l.
Proof. induction l; cbn; [auto|]. now rewrite flat_map_app_r, IHl. Qed.
Lemma vals_xcat n X vec I O m m' : vals (xcat n X) vec I O m m' <-> forall i, 0 <= i < n -> vals (X i) vec I O m m'.
Proof.
  split.
  - intros H i Hi a b Hab o F HF. apply H; auto. cbn. apply in_flat_map. exists i. split; [now apply in_zr|auto].
  - intros H a b Hab o F HF. cbn in HF. apply in_flat_map in HF as (i & Hi & HF). apply in_zr in Hi. now apply (H i Hi).
Qed.
Lemma vals_xshift a b X vec I O m m' : vals (xshift a b X) vec I O m m' <-> vals X vec (sh I a) (sh O b) m m'.
Proof.
  split; intros H p q Hpq o F HF.
  - specialize (H p q Hpq (b + o) (fun x => F (fun z => x (a + z)))). rewrite sh_sh.
    replace (b + (q + o)) with (q + (b + o)) by ring. rewrite H.
    + f_equal. apply functional_extensionality. intros z. rewrite sh_sh. do 2 f_equal. ring.
    + cbn. apply in_map_iff. exists (o, F). auto.
  - cbn in HF. apply in_map_iff in HF as ([o' F'] & E & HF). injection E as <- <-.
    specialize (H p q Hpq o' F' HF). rewrite sh_sh in H. cbn [fst snd].
    replace (q + (b + o')) with (b + (q + o')) by ring. rewrite H.
    f_equal. apply functional_extensionality. intros z. rewrite sh_sh. do 2 f_equal. ring.
Qed.
Lemma flat_map_map {A B D} (f : B -> list D) (g : A -> B) l : flat_map f (map g l) = flat_map (fun x => f (g x)) l.
Proof. induction l; cbn; congruence. Qed.
Lemma map_flat_map {A B D} (f : B -> D) (g : A -> list B) l : map f (flat_map g l) = flat_map (fun x => map f (g x)) l.
Proof. induction l; cbn; [auto|]. now rewrite map_app, IHl. Qed.
Lemma xcat_add a b X : 0 <= a -> 0 <= b -> xcat (a + b) X = xapp (xcat a X) (xcat b (fun i => X (a + i))).
Proof.
  intros Ha Hb. unfold xcat, xapp. cbn [xi xo]. rewrite zr_add by auto.
  rewrite !flat_map_app_r, !flat_map_map. reflexivity.
Qed.
Lemma xcat_ext n X Y : (forall i, 0 <= i < n -> X i = Y i) -> xcat n X = xcat n Y.
Proof.
  intros H. unfold xcat. f_equal; apply flat_map_ext_in'; intros i Hi; apply in_zr in Hi; now rewrite H.
Qed.
Lemma xcat_mul n b X : 0 <= n -> 0 <= b -> xcat (n * b) X = xcat n (fun j => xcat b (fun i => X (j * b + i))).
Proof.
  intros Hn Hb. pattern n. apply natlike_ind; [reflexivity| |exact Hn].
  intros j Hj IH. rewrite <- Z.add_1_r. rewrite (xcat_succ j) by auto. rewrite <- IH.
  replace ((j + 1) * b) with (j * b + b) by ring. now rewrite xcat_add by nia.
Qed.
Lemma xshift_xcat a b n X : xshift a b (xcat n X) = xcat n (fun i => xshift a b (X i)).
Proof. unfold xshift, xcat. cbn [xi xo]. now rewrite !map_flat_map. Qed.
Lemma xshift_xshift a b c d X : xshift a b (xshift c d X) = xshift (a + c) (b + d) X.
Proof.
  unfold xshift. cbn [xi xo]. rewrite !map_map. f_equal.
  - apply map_ext. intros; ring.
  - apply map_ext. intros [o F]. cbn. f_equal; [ring|]. apply functional_extensionality. intros x. f_equal.
    apply functional_extensionality. intros z. f_equal. ring.
Qed.
Lemma xshift_0 X : xshift 0 0 X = X.
Proof.
  destruct X as [i o]. unfold xshift. cbn [xi xo]. f_equal.
  - rewrite <- (map_id i) at 2. apply map_ext. auto.
  - rewrite <- (map_id o) at 2. apply map_ext. intros [o' F]. reflexivity.
Qed.
Lemma il_xcat_sh n X vec s A : (forall i, 0 <= i < n -> il (X i) vec = map (Z.add (i * s)) A) ->
  il (xcat n X) vec = lplus (dimlocs (n, s)) A.
Proof.
  intros H. unfold il, xcat, lplus, dimlocs. cbn [xi fst snd]. rewrite flat_map_map.
  rewrite flat_map_flat_map'. apply flat_map_ext_in'. intros i Hi. apply in_zr in Hi. specialize (H i Hi).
  unfold il in H. rewrite <- H. reflexivity.
Qed.

Lemma ol_xcat_sh n X vec s A : (forall i, 0 <= i < n -> ol (X i) vec = map (Z.add (i * s)) A) ->
  ol (xcat n X) vec = lplus (dimlocs (n, s)) A.
Proof.
  intros H. unfold ol, xcat, lplus, dimlocs. cbn [xo fst snd]. rewrite map_flat_map, flat_map_map.
  rewrite flat_map_flat_map'. apply flat_map_ext_in'. intros i Hi. apply in_zr in Hi. specialize (H i Hi).
  unfold ol in H. rewrite <- H. reflexivity.
Qed.

(** in place the input is the output *)
Lemma Correct_ip_nd nd nd' X vec f : Correct nd true X vec f -> Correct nd' true X vec f.
Proof.
  intros H nx I O m HW. destruct (H nx I O m HW) as [V F]. split; auto. intros l Hl Ho Hi. apply F; auto.
  right. intros (o & C & ->). apply Ho. pose proof (wf_x _ _ _ _ _ _ HW) as [-> S]. apply InP_intro. now apply S.
Qed.
Lemma Correct_ip_O nd X vec f : Correct nd true X vec f <-> Correct nd true X vec (fun nx I O m => f nx O O m).
Proof.
  split; intros H nx I O m HW; destruct (H nx I O m HW) as [V F];
    pose proof (wf_x _ _ _ _ _ _ HW) as [E _]; rewrite E in *; split; auto.
Qed.
Lemma Correct_zero_nd ip X vec f nd : Correct nd ip X vec f -> Correct false ip X vec f.
Proof.
  intros H nx I O m HW. destruct (H nx I O m HW) as [V F]. split; auto. intros l Hl Ho [Hi|Hi]; [discriminate|]. apply F; auto.
Qed.

(** mixed-radix offsets are distinct *)
Lemma locs_nest n s t B : 0 <= n -> 0 <= s -> n * s <= B -> NoDup (locs t) -> (forall x, In x (locs t) -> 0 <= x < s) ->
  NoDup (locs ((n, s) :: t)) /\ (forall x, In x (locs ((n, s) :: t)) -> 0 <= x < B).
Proof.
  intros Hn Hs HB ND R. split.
  - cbn [locs]. destruct (locs t) as [|x l] eqn:E; [rewrite lplus_nil_r; constructor|]. rewrite <- E in *.
    assert (0 < s) by (specialize (R x ltac:(rewrite E; now left)); lia).
    apply NoDup_lplus; auto.
    + unfold dimlocs. cbn [fst snd]. apply NoDup_map_inj; [|apply NoDup_zr]. intros; nia.
    + intros p p' q q' Hp Hp' Hq Hq' E1. apply in_dimlocs in Hp as (i & Hi & ->), Hp' as (j & Hj & ->).
      specialize (R q Hq) as R1. specialize (R q' Hq') as R2. assert (i = j) by nia. subst. split; lia.
  - intros x Hx. apply in_locs_cons in Hx as (i & o & Hi & Ho & ->). specialize (R o Ho). nia.
Qed.

(** ** Twiddle steps *)
Lemma rdc_sh mm p a d o : rdc mm (sh p a, sh (sh p a) d) o = rdc mm (p, sh p d) (a + o).
Proof. unfold rdc. cbn [fst snd]. rewrite !sh_sh. f_equal; do 2 f_equal; ring. Qed.
Lemma in_box1 n is os ks : in_box [mkdim n is os] ks <-> exists k, 0 <= k < n /\ ks = [k].
Proof.
  split.
  - destruct ks as [|k [|? ?]]; cbn; try tauto. intros [H _]. eauto.
  - intros (k & H & ->). cbn. auto.
Qed.
Lemma offs1_in n s u i : 0 <= i < n -> In (i * s, i * u) (offs [mkdim n s u]).
Proof. intros H. apply in_offs_cons. exists i, (0, 0). cbn. split; auto. split; [auto|]. f_equal; ring. Qed.
Lemma offs2_in n0 s0 u0 n1 s1 u1 i j : 0 <= i < n0 -> 0 <= j < n1 ->
  In (i * s0 + j * s1, i * u0 + j * u1) (offs [mkdim n0 s0 u0; mkdim n1 s1 u1]).
Proof.
  intros Hi Hj. apply in_offs_cons. exists i, (j * s1, j * u1). cbn [dn dis dos fst snd]. split; auto.
  split; [|reflexivity]. now apply offs1_in.
Qed.
Lemma offs1_inv n s u a b : In (a, b) (offs [mkdim n s u]) -> exists i, 0 <= i < n /\ a = i * s /\ b = i * u.
Proof.
  intros H. apply in_offs_cons in H as (i & q & Hi & Hq & E). cbn in Hq. destruct Hq as [<-|[]]. cbn in E. injection E as -> ->.
  exists i. split; auto. split; ring.
Qed.

(** the butterfly with a complex array described by di resp. do_ *)
Definition xw2 (dit : bool) (di do_ r irs ors m k : Z) : xform :=
  cxf di do_ (locs [(r, irs)]) (boxl [mkdim r irs ors]) (ooff [mkdim r irs ors])
      (fun ks x => bfly dit r m k (fun j => x (j * irs)) (hd 0 ks)).
Lemma il_xw2 dit di do_ r irs ors m k vec : il (xw2 dit di do_ r irs ors m k) vec = locs ((2, di) :: (r, irs) :: ti vec).
Proof. unfold il, xw2, cxf. cbn [xi locs]. now rewrite lplus_0_r, lplus_assoc. Qed.
Lemma ol_xw2 dit di do_ r irs ors m k vec : ol (xw2 dit di do_ r irs ors m k) vec = locs ((2, do_) :: (r, ors) :: to_ vec).
Proof.
  unfold ol, xw2. rewrite cxf_fst, boxl_ooff. cbn [locs to_ map dn dos]. now rewrite lplus_0_r, lplus_assoc.
Qed.
Lemma bfly_ext dit r m k x y k1 : (forall j, 0 <= j < r -> x j = y j) -> bfly dit r m k x k1 = bfly dit r m k y k1.
Proof.
  intros H. unfold bfly. destruct dit; [|f_equal]; apply Csum_ext; intros j Hj; now rewrite H.
Qed.
Lemma xw2_wf dit di do_ r irs ors m k : xwf (xw2 dit di do_ r irs ors m k).
Proof.
  apply cxf_wf. intros ks _ x y E. apply bfly_ext. intros j Hj. apply E. cbn [locs]. rewrite lplus_0_r.
  apply in_dimlocs. eauto.
Qed.
Lemma vals_xw2 dit di do_ r irs ors m k vec I O mm mm' : vals (xw2 dit di do_ r irs ors m k) vec I O mm mm' <->
  (forall a b, In (a, b) (offs vec) -> forall k1, 0 <= k1 < r ->
    rdc mm' (O, sh O do_) (b + k1 * ors) = bfly dit r m k (fun j => rdc mm (I, sh I di) (a + j * irs)) k1).
Proof.
  unfold xw2. rewrite vals_cxf. unfold cvals. split; intros H a b Hab.
  - intros k1 Hk1. specialize (H a b Hab [k1]). cbn [ooff dos hd] in H. rewrite Z.add_0_r in H. apply H.
    apply in_boxl, in_box1. eauto.
  - intros ks Hks. apply in_boxl, in_box1 in Hks as (k1 & Hk1 & ->). cbn [ooff dos hd]. rewrite Z.add_0_r. now apply H.
Qed.
Lemma xw1_xw2 dit di r irs ors m k : xw1 dit di r irs ors m k = xw2 dit di di r irs ors m k.
Proof. reflexivity. Qed.
Lemma il_xw1 dit di r irs ors m k vec : il (xw1 dit di r irs ors m k) vec = locs ((2, di) :: (r, irs) :: ti vec).
Proof. apply il_xw2. Qed.
Lemma ol_xw1 dit di r irs ors m k vec : ol (xw1 dit di r irs ors m k) vec = locs ((2, di) :: (r, ors) :: to_ vec).
Proof. apply ol_xw2. Qed.
Lemma xw1_wf dit di r irs ors m k : xwf (xw1 dit di r irs ors m k).
Proof. apply xw2_wf. Qed.

(** mc butterflies, number mb + i reading at ib + i*ims and writing at ob + i*oms *)
Definition xtwg (dit : bool) (di do_ r irs ors m mb mc ims oms ib ob : Z) : xform :=
  xcat mc (fun i => xshift (ib + i * ims) (ob + i * oms) (xw2 dit di do_ r irs ors m (mb + i))).
Lemma xtwg_wf dit di do_ r irs ors m mb mc ims oms ib ob : xwf (xtwg dit di do_ r irs ors m mb mc ims oms ib ob).
Proof. apply xcat_wf. intros. apply xshift_wf, xw2_wf. Qed.
Lemma vals_xtwg dit di do_ r irs ors m mb mc ims oms ib ob vec I O mm mm' :
  vals (xtwg dit di do_ r irs ors m mb mc ims oms ib ob) vec I O mm mm' <->
  (forall a b, In (a, b) (offs vec) -> forall i, 0 <= i < mc -> forall k1, 0 <= k1 < r ->
    rdc mm' (O, sh O do_) (ob + b + i * oms + k1 * ors) =
    bfly dit r m (mb + i) (fun j => rdc mm (I, sh I di) (ib + a + i * ims + j * irs)) k1).
Proof.
  unfold xtwg. rewrite vals_xcat. split.
  - intros H a b Hab i Hi k1 Hk1. specialize (H i Hi). rewrite vals_xshift, vals_xw2 in H.
    specialize (H a b Hab k1 Hk1). rewrite rdc_sh in H.
    replace (ob + b + i * oms + k1 * ors) with (ob + i * oms + (b + k1 * ors)) by ring. rewrite H. apply bfly_ext. intros j _.
    rewrite rdc_sh. f_equal. ring.
  - intros H i Hi. rewrite vals_xshift, vals_xw2. intros a b Hab k1 Hk1.
    specialize (H a b Hab i Hi k1 Hk1). rewrite rdc_sh.
    replace (ob + i * oms + (b + k1 * ors)) with (ob + b + i * oms + k1 * ors) by ring. rewrite H. apply bfly_ext. intros j _.
    rewrite rdc_sh. f_equal. ring.
Qed.
Lemma xtwg_sh dit di do_ r irs ors m mb mc ims oms ib ob :
  xtwg dit di do_ r irs ors m mb mc ims oms ib ob = xshift ib ob (xtwg dit di do_ r irs ors m mb mc ims oms 0 0).
Proof.
  unfold xtwg. rewrite xshift_xcat. apply xcat_ext. intros i Hi. rewrite xshift_xshift. f_equal; ring.
Qed.
Lemma il_xtwg dit di do_ r irs ors m mb mc ims oms ib ob vec :
  il (xtwg dit di do_ r irs ors m mb mc ims oms ib ob) vec = map (Z.add ib) (locs ((mc, ims) :: (2, di) :: (r, irs) :: ti vec)).
Proof.
  rewrite xtwg_sh, il_xshift. f_equal. apply (il_xcat_sh _ _ _ ims). intros i Hi. now rewrite il_xshift, il_xw2, Z.add_0_l.
Qed.
Lemma ol_xtwg dit di do_ r irs ors m mb mc ims oms ib ob vec :
  ol (xtwg dit di do_ r irs ors m mb mc ims oms ib ob) vec = map (Z.add ob) (locs ((mc, oms) :: (2, do_) :: (r, ors) :: to_ vec)).
Proof.
  rewrite xtwg_sh, ol_xshift. f_equal. apply (ol_xcat_sh _ _ _ oms). intros i Hi. now rewrite ol_xshift, ol_xw2, Z.add_0_l.
Qed.

Definition xtw (dit : bool) (di r irs ors m mb mc ms : Z) : xform :=
  xcat mc (fun i => xshift ((mb + i) * ms) ((mb + i) * ms) (xw1 dit di r irs ors m (mb + i))).
Lemma xtw_xtwg dit di r irs ors m mb mc ms : xtw dit di r irs ors m mb mc ms =
  xtwg dit di di r irs ors m mb mc ms ms (mb * ms) (mb * ms).
Proof. unfold xtw, xtwg. apply xcat_ext. intros. now rewrite Z.mul_add_distr_r, xw1_xw2. Qed.
Lemma xtw_wf dit di r irs ors m mb mc ms : xwf (xtw dit di r irs ors m mb mc ms).
Proof. apply xcat_wf. intros. apply xshift_wf, xw1_wf. Qed.
Lemma vals_xtw dit di r irs ors m mb mc ms vec I O mm mm' : vals (xtw dit di r irs ors m mb mc ms) vec I O mm mm' <->
  (forall a b, In (a, b) (offs vec) -> forall k, mb <= k < mb + mc -> forall k1, 0 <= k1 < r ->
    rdc mm' (O, sh O di) (b + k * ms + k1 * ors) =
    bfly dit r m k (fun j => rdc mm (I, sh I di) (a + k * ms + j * irs)) k1).
Proof.
  rewrite xtw_xtwg, vals_xtwg. split; intros H a b Hab.
  - intros k Hk k1 Hk1. specialize (H a b Hab (k - mb) ltac:(lia) k1 Hk1). replace (mb + (k - mb)) with k in H by ring.
    replace (b + k * ms + k1 * ors) with (mb * ms + b + (k - mb) * ms + k1 * ors) by ring. rewrite H. apply bfly_ext. intros j _.
    f_equal. ring.
  - intros i Hi k1 Hk1. specialize (H a b Hab (mb + i) ltac:(lia) k1 Hk1).
    replace (mb * ms + b + i * ms + k1 * ors) with (b + (mb + i) * ms + k1 * ors) by ring. rewrite H. apply bfly_ext. intros j _.
    f_equal. ring.
Qed.
Lemma il_xtw dit di r irs ors m mb mc ms vec :
  il (xtw dit di r irs ors m mb mc ms) vec = map (Z.add (mb * ms)) (locs ((mc, ms) :: (2, di) :: (r, irs) :: ti vec)).
Proof. rewrite xtw_xtwg. apply il_xtwg. Qed.
Lemma ol_xtw dit di r irs ors m mb mc ms vec :
  ol (xtw dit di r irs ors m mb mc ms) vec = map (Z.add (mb * ms)) (locs ((mc, ms) :: (2, di) :: (r, ors) :: to_ vec)).
Proof. rewrite xtw_xtwg. apply ol_xtwg. Qed.
Lemma xtw_add dit di r irs ors m mb c1 c2 ms : 0 <= c1 -> 0 <= c2 ->
  xtw dit di r irs ors m mb (c1 + c2) ms = xapp (xtw dit di r irs ors m mb c1 ms) (xtw dit di r irs ors m (mb + c1) c2 ms).
Proof.
  intros H1 H2. unfold xtw. rewrite xcat_add by auto. f_equal. apply xcat_ext. intros i _. now rewrite Z.add_assoc.
Qed.
Lemma xtw_mul dit di r irs ors m mb n b ms : 0 <= n -> 0 <= b ->
  xtw dit di r irs ors m mb (n * b) ms = xcat n (fun j => xtw dit di r irs ors m (mb + j * b) b ms).
Proof.
  intros Hn Hb. unfold xtw. rewrite xcat_mul by auto. apply xcat_ext. intros j _. apply xcat_ext. intros i _. now rewrite Z.add_assoc.
Qed.
Lemma same_set_xtw dit di r s m mb mc ms vec : tensor_inplace_strides vec = true ->
  same_set (xtw dit di r s s m mb mc ms) vec.
Proof.
  intros H o. rewrite il_xtw, ol_xtw. replace (to_ vec) with (ti vec); [reflexivity|].
  unfold ti, to_. apply map_ext_in. intros d Hd. unfold tensor_inplace_strides in H. rewrite forallb_forall in H.
  specialize (H d Hd). f_equal. lia.
Qed.

Definition CorrectW (X : xform) (vec : list iodim) (w : wapply) : Prop :=
  Correct true true X vec (fun nx I O m => w nx O m).

(** kdftw with the pointer at butterfly mb *)
Lemma kdftw_correct dit di r rs m mb mc ms : CorrectW (xtw dit di r rs rs m mb mc ms) []
  (fun _ p mm => kdftw dit di r rs m mb (mb + mc) ms (sh p (mb * ms)) mm).
Proof.
  unfold CorrectW. eapply Correct_ext; [|apply Correct_xfor with
    (f := fun i nx I O => kern (xw1 dit di r rs rs m (mb + i)) nx (sh O ((mb + i) * ms)) (sh O ((mb + i) * ms)))].
  - intros nx I O mm. unfold kdftw. replace (mb + mc - mb) with mc by ring. apply zfor_ext. intros i m' _.
    rewrite !sh_sh. replace (mb * ms + i * ms) with ((mb + i) * ms) by ring. reflexivity.
  - intros. apply xshift_wf, xw1_wf.
  - intros _ i _. apply same_set_xshift. intros o. now rewrite il_xw1, ol_xw1.
  - intros i _. apply (Correct_ip_O true _ [] (fun nx I O => kern (xw1 dit di r rs rs m (mb + i)) nx (sh I ((mb + i) * ms)) (sh O ((mb + i) * ms)))).
    apply Correct_shift; [auto|]. apply kern_correct.
Qed.

Lemma CorrectW_loop X v vs w : xwf X -> same_set X [] -> CorrectW X [] w ->
  CorrectW X [mkdim v vs vs] (fun nx p mm => zfor v (fun i => w nx (sh p (i * vs))) mm).
Proof.
  intros HX HS H. unfold CorrectW in *.
  pose proof (Correct_loop true true X [] v vs vs _ HX (fun _ => Logic.conj eq_refl HS) H) as G. exact G.
Qed.

Lemma dftw_direct_correct dit di r rs m ms v vs mb mc :
  CorrectW (xtw dit di r rs rs m mb mc ms) [mkdim v vs vs] (dftw_direct dit di r rs m ms v vs mb (mb + mc)).
Proof.
  unfold CorrectW, dftw_direct. eapply Correct_ext; [|apply (CorrectW_loop _ v vs _ (xtw_wf _ _ _ _ _ _ _ _ _)
     (same_set_xtw dit di r rs m mb mc ms [] eq_refl) (kdftw_correct dit di r rs m mb mc ms))].
  intros nx I O mm. apply zfor_ext. intros i m' _. now rewrite sh_sh.
Qed.

Lemma dftw_directsq_correct dit di r irs ivs m ms mb mc : 0 <= r ->
  CorrectW (xtw dit di r irs ivs m mb mc ms) [mkdim r ivs irs] (dftw_directsq dit di r irs ivs m ms mb (mb + mc)).
Proof.
  intros Hr. unfold CorrectW, dftw_directsq, kdftwsq.
  eapply Correct_ext; [|apply Correct_xfor with
    (f := fun i nx I O => kern (xvec (xw1 dit di r irs ivs m (mb + i)) [mkdim r ivs irs]) nx (sh O ((mb + i) * ms)) (sh O ((mb + i) * ms)))].
  - intros nx I O mm. replace (mb + mc - mb) with mc by ring. apply zfor_ext. intros i m' _.
    rewrite !sh_sh. replace (mb * ms + i * ms) with ((mb + i) * ms) by ring. reflexivity.
  - intros. apply xshift_wf, xw1_wf.
  - intros _ i _. apply same_set_xshift. intros o. rewrite il_xw1, ol_xw1. cbn [ti to_ map dn dis dos].
    split; apply Permutation_in, locs_perm; apply perm_skip, perm_swap.
  - intros i _. apply (Correct_ip_O true _ _ (fun nx I O => kern (xvec (xw1 dit di r irs ivs m (mb + i)) [mkdim r ivs irs]) nx (sh I ((mb + i) * ms)) (sh O ((mb + i) * ms)))).
    apply Correct_shift; [auto|]. apply kern_vec_correct. repeat constructor. exact Hr.
Qed.

(** ** Buffered twiddle codelets *)
Lemma vals_copy di do_ vec I O m m' : vals (cx di do_ []) vec I O m m' <->
  (forall a b, In (a, b) (offs vec) -> rdc m' (O, sh O do_) b = rdc m (I, sh I di) a).
Proof.
  rewrite vals_cx. split; intros H a b Hab.
  - specialize (H a b Hab [] Logic.I). cbn [ooff mdft] in H. now rewrite !Z.add_0_r in H.
  - intros [|k ks] Hk; [|easy]. cbn [ooff mdft]. rewrite !Z.add_0_r. now apply H.
Qed.
Lemma zfor_flat n b X : 0 <= n -> 0 <= b -> forall m, zfor (n * b) X m = zfor n (fun j => zfor b (fun i => X (j * b + i))) m.
Proof.
  intros Hn Hb m. pattern n. apply natlike_ind; [reflexivity| |exact Hn].
  intros j Hj IH. rewrite <- Z.add_1_r, (zfor_succ j) by auto. rewrite <- IH. clear IH.
  replace ((j + 1) * b) with (j * b + b) by ring. assert (0 <= j * b) by nia. revert H. generalize (j * b) as k. intros k Hk.
  pattern b. apply natlike_ind; [|intros i Hi IH|exact Hb].
  - now rewrite Z.add_0_r.
  - rewrite <- Z.add_1_r, Z.add_assoc, !zfor_succ by lia. now rewrite IH.
Qed.
Lemma perm_rot3 {A} (a b c : A) l : Permutation (a :: b :: c :: l) (b :: c :: a :: l).
Proof. etransitivity; [apply perm_swap|]. apply perm_skip, perm_swap. Qed.

Lemma dftw_dobatch_correct dit di r rs m ms B mb mc : 0 <= mc <= B -> 0 <= r ->
  CorrectW (xtw dit di r rs rs m mb mc ms) [] (fun nx p => dftw_dobatch dit di r rs m ms B mb (mb + mc) (nx, 0) p).
Proof.
  intros Hmc Hr. unfold CorrectW.
  eapply Correct_ext; [|refine (proj1 (Correct_ip_O true _ [] (fun nx I O mm => 
    let m2 := kdftw dit 1 r (2 * B) m mb (mb + mc) 2 (nx, 0)
       (cpy2d_pair_ci r rs (2 * B) mc ms 2 (sh I (mb * ms)) (sh (sh I (mb * ms)) di) (nx, 0) (sh (nx, 0) 1) mm) in
    cpy2d_pair_co r (2 * B) rs mc 2 ms (nx, 0) (sh (nx, 0) 1) (sh O (mb * ms)) (sh (sh O (mb * ms)) di) m2)) _)].
  { intros nx I O mm. unfold dftw_dobatch. cbn zeta. replace (mb + mc - mb) with mc by ring.
    rewrite !sh_sh. rewrite (Z.add_comm di). reflexivity. }
  cbn zeta.
  set (X1 := xtwg dit di 1 r rs (2 * B) m mb mc ms 2 (mb * ms) 0).
  assert (C1 : Correct (true && negb true) false X1 [] (fun _ I O mm =>
     kdftw dit 1 r (2 * B) m mb (mb + mc) 2 O (cpy2d_pair_ci r rs (2 * B) mc ms 2 (sh I (mb * ms)) (sh (sh I (mb * ms)) di) O (sh O 1) mm))).
  { refine (Correct_after _ true false X1 [] (xshift (mb * ms) 0 (cx di 1 [])) [mkdim r rs (2 * B); mkdim mc ms 2]
       (xtwg dit 1 1 r (2 * B) (2 * B) m mb mc 2 2 0 0) []
       (fun _ I O mm => cpy2d_pair_ci r rs (2 * B) mc ms 2 (sh I (mb * ms)) (sh (sh I (mb * ms)) di) O (sh O 1) mm)
       (fun _ I O mm => kdftw dit 1 r (2 * B) m mb (mb + mc) 2 O mm) _ _ _ _ _ _ _ _ _).
    - intros _. repeat constructor; cbn; lia.
    - auto.
    - unfold X1. rewrite il_xtwg, il_xshift, il_cx. apply Permutation_map. apply (locs_perm _ _ (perm_rot3 _ _ _ _)).
    - unfold X1. rewrite ol_xtwg, ol_xshift, ol_cx. apply Permutation_map. apply (locs_perm _ _ (perm_rot3 _ _ _ _)).
    - unfold X1. rewrite ol_xtwg, il_xtwg. reflexivity.
    - unfold X1. rewrite !ol_xtwg. reflexivity.
    - intros I O m0 m1 m2 V1 V2. unfold X1. rewrite vals_xtwg in *. rewrite vals_xshift, vals_copy in V1.
      intros a b [E|[]] i Hi k1 Hk1. injection E as <- <-.
      specialize (V2 0 0 (or_introl eq_refl) i Hi k1 Hk1). rewrite V2. apply bfly_ext. intros j Hj.
      specialize (V1 (j * rs + i * ms) (j * (2 * B) + i * 2) (offs2_in _ _ _ _ _ _ _ _ Hj Hi)).
      rewrite !rdc_sh in V1. transitivity (rdc m1 (O, sh O 1) (0 + (j * (2 * B) + i * 2))); [f_equal; ring|].
      rewrite V1. f_equal. ring.
    - eapply Correct_ext; [|apply (Correct_shift _ false (mb * ms) 0 _ _ _ ltac:(discriminate) (cpy2d_pair_ci_correct _ di 1 r rs (2 * B) mc ms 2))].
      intros nx I O mm. cbn beta. now rewrite !sh_0.
    - pose proof (kdftw_correct dit 1 r (2 * B) m mb mc 2) as K. unfold CorrectW in K. rewrite xtw_xtwg in K.
      eapply (Correct_shift true true (- (mb * 2)) (- (mb * 2)) _ _ _ (fun _ => eq_refl)) in K.
      rewrite xtwg_sh, xshift_xshift in K. rewrite xtwg_sh. replace (- (mb * 2) + mb * 2) with 0 in K by ring.
      eapply Correct_ext; [|exact K]. intros nx I O mm. cbn beta. rewrite sh_sh. replace (- (mb * 2) + mb * 2) with 0 by ring. now rewrite sh_0. }
  refine (Correct_buf2 true true _ [] X1 [] (xshift 0 (mb * ms) (cx 1 di [])) [mkdim r (2 * B) rs; mkdim mc 2 ms] _
     (fun _ I O mm => cpy2d_pair_co r (2 * B) rs mc 2 ms I (sh I 1) (sh O (mb * ms)) (sh (sh O (mb * ms)) di) mm)
     (fun nx => (nx, 0)) _ _ _ _ _ _ _ _ C1 _).
  - reflexivity.
  - constructor.
  - repeat constructor; cbn; lia.
  - rewrite il_xtw. unfold X1. now rewrite il_xtwg.
  - rewrite ol_xtw, ol_xshift, ol_cx. apply Permutation_map. apply (locs_perm _ _ (perm_rot3 _ _ _ _)).
  - unfold X1. rewrite ol_xtwg. apply NoDup_map_shift. cbn [to_ map].
    eapply Permutation_NoDup; [apply locs_perm; symmetry; apply Permutation_rev|]. cbn [rev app].
    refine (proj1 (locs_nest r (2 * B) _ (r * (2 * B)) Hr ltac:(lia) ltac:(lia) _ _)).
    + eapply Permutation_NoDup; [apply locs_perm, perm_swap|].
      refine (proj1 (locs_nest mc 2 _ (2 * B) _ _ _ _ _)); try lia.
      * apply (locs_nest 2 1 [] 2); try lia; [constructor; [easy|constructor]|]. cbn. lia.
      * apply (locs_nest 2 1 [] 2); try lia; [constructor; [easy|constructor]|]. cbn. lia.
    + intros x Hx. apply (Permutation_in x (locs_perm _ _ (perm_swap _ _ _))) in Hx. revert x Hx.
      refine (proj2 (locs_nest mc 2 _ (2 * B) _ _ _ _ _)); try lia.
      * apply (locs_nest 2 1 [] 2); try lia; [constructor; [easy|constructor]|]. cbn. lia.
      * apply (locs_nest 2 1 [] 2); try lia; [constructor; [easy|constructor]|]. cbn. lia.
  - unfold X1. rewrite ol_xtwg, il_xshift, il_cx. apply Permutation_map. apply (locs_perm _ _ (perm_rot3 _ _ _ _)).
  - intros nx I O m0 m1 m2 V1 V2. unfold X1 in V1. rewrite vals_xtwg in V1. rewrite vals_xshift, vals_copy in V2.
    rewrite xtw_xtwg, vals_xtwg. intros a b [E|[]] i Hi k1 Hk1. injection E as <- <-.
    specialize (V1 0 0 (or_introl eq_refl) i Hi k1 Hk1). rewrite <- V1.
    specialize (V2 (k1 * (2 * B) + i * 2) (k1 * rs + i * ms) (offs2_in _ _ _ _ _ _ _ _ Hk1 Hi)).
    rewrite !rdc_sh in V2.
    transitivity (rdc m2 (O, sh O di) (mb * ms + (k1 * rs + i * ms))); [f_equal; ring|]. rewrite V2. f_equal. ring.
  - eapply Correct_ext; [|apply (Correct_shift false false 0 (mb * ms) _ _ _ ltac:(discriminate) (cpy2d_pair_co_correct _ 1 di r (2 * B) rs mc 2 ms))].
    intros nx I O mm. cbn beta. now rewrite !sh_0.
Qed.
