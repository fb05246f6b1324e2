(** * From the plans of problem_rdft2 to the specification (proof library) *)
From Coq Require Import Reals ZArith List Lia Lra Bool Permutation.
From Verif Require Import NumTheory Cplx Spec SpecApi SpecR2R SpecR2C Base PrimesModel TensorModel Offs TensorProofs XForm XKern XSeq CopyProofs
  Rank0Model DftModel RdftModel R2Model DftMath DftTw2 DftComp DftSplit DftProofs RSum RMath RdftCanon IForm R2X R2Lib R2Row R2Rank2 R2Proofs
  FlagsModel PropFlags ApiModel ApiProofs PropDft PropR2R ApiR2C.
Import ListNotations.
Import SpecR2C.
Open Scope Z_scope.

(** ** The half-spectrum determines the backward transform *)
Lemma root1_cs n k : root 1 n k = (cs n k, sn n k).
Proof. rewrite root_bwd, W_cs, cs_neg, sn_neg. now rewrite Ropp_involutive. Qed.
Lemma hval_herm n g j : 0 < n -> (forall k, 0 <= k < n -> g ((- k) mod n) = Cplx.conj (g k)) ->
  RtoC (hval n g j) = Csum n (fun k => g k * root 1 n (k * j))%C.
Proof.
  intros Hn H.
  assert (H0 : snd (g 0) = 0%R).
  { pose proof (H 0 ltac:(lia)) as E. cbn in E. apply (f_equal snd) in E. cbn in E. lra. }
  assert (Hp : forall i, 0 < i -> i < n -> g (n - i) = Cplx.conj (g i)).
  { intros i H1 H2. rewrite <- H by lia. f_equal. symmetry. rewrite <- (Z.mod_add (- i) 1 n) by lia. rewrite Z.mod_small; lia. }
  assert (Hm : forall i, 0 < i -> 2 * i = n -> snd (g i) = 0%R).
  { intros i H1 H2. pose proof (Hp i H1 ltac:(lia)) as E. replace (n - i) with i in E by lia. apply (f_equal snd) in E. cbn in E. lra. }
  apply C_eq; cbn [RtoC fst snd].
  - rewrite Csum_fst. unfold hval. apply Rsum_pair_eq; auto.
    + rewrite root1_cs. cbn [Z.mul Z.leb]. destruct (Z.leb_spec 0 n); [|lia]. rewrite rk_hc2r_0, cs_0, sn_0. unfold cmul. cbn [fst snd]. ring.
    + intros i H1 H2. destruct (Z.leb_spec (2 * i) n); [|lia]. destruct (Z.leb_spec (2 * (n - i)) n); [lia|].
      rewrite rk_hc2r_re, rk_hc2r_im by lia. replace (n - (n - i)) with i by lia. rewrite !root1_cs, (Hp i) by lia.
      rewrite cs_ref', sn_ref' by lia. unfold cmul, Cplx.conj. cbn [fst snd]. ring.
    + intros i H1 H2. destruct (Z.leb_spec (2 * i) n); [|lia]. rewrite rk_hc2r_mid, root1_cs by lia. unfold cmul. cbn [fst snd]. rewrite (Hm i H1 H2). ring.
  - rewrite Csum_snd. rewrite <- (Rsum_zero n (fun _ => 0%R)) at 1 by auto. apply Rsum_pair_eq; auto.
    + rewrite root1_cs. cbn [Z.mul]. rewrite cs_0, sn_0. unfold cmul. cbn [fst snd]. rewrite H0. ring.
    + intros i H1 H2. rewrite !root1_cs, (Hp i) by lia. rewrite cs_ref', sn_ref' by lia. unfold cmul, Cplx.conj. cbn [fst snd]. ring.
    + intros i H1 H2. rewrite root1_cs. unfold cmul. cbn [fst snd]. rewrite (Hm i H1 H2). rewrite (Z.mul_comm i j), sn_mid by auto. ring.
Qed.
Lemma opp_mod_inj n i j : 0 < n -> 0 <= i < n -> 0 <= j < n -> (- i) mod n = (- j) mod n -> i = j.
Proof.
  intros Hn Hi Hj E. pose proof (Z.div_mod (- i) n ltac:(lia)) as A. pose proof (Z.div_mod (- j) n ltac:(lia)) as B.
  rewrite E in A. assert (Q : i - j = n * (- j / n - - i / n)) by (rewrite Z.mul_sub_distr_l; lia).
  assert (- j / n - - i / n = 0) by nia. rewrite H, Z.mul_0_r in Q. lia.
Qed.
Lemma idft_mirror t H js : posd t -> in_box t js -> 
  idft 1 (map dn t) (fun ks => Cplx.conj (H (mirror t ks))) js = Cplx.conj (idft 1 (map dn t) H js).
Proof.
  revert H js. induction t as [|d t IH]; intros H [|j js] Hp Hj; try easy.
  cbn [map idft]. inversion Hp; subst. destruct Hj as [Hj Hjs]. rewrite Csum_conj.
  symmetry. etransitivity; [symmetry; apply (Csum_reindex (dn d) (fun k => (- k) mod dn d))|symmetry].
  - intros i Hi. apply Z.mod_pos_bound. lia.
  - intros a b Ha Hb. now apply opp_mod_inj.
  - apply Csum_ext. intros k Hk. cbn [mirror]. rewrite (IH (fun ks => H ((- k) mod dn d :: ks))) by auto.
    assert (E : root 1 (dn d) (k * j) = Cplx.conj (root 1 (dn d) ((- k) mod dn d * j))).
    { rewrite !root1_cs. unfold Cplx.conj. cbn [fst snd]. rewrite Z.mod_eq by lia.
      rewrite (cs_congr (dn d) ((- k - dn d * (- k / dn d)) * j) (- (k * j))), (sn_congr (dn d) ((- k - dn d * (- k / dn d)) * j) (- (k * j))); try lia.
      - rewrite cs_neg, sn_neg. now rewrite Ropp_involutive.
      - exists (- (- k / dn d) * j). ring.
      - exists (- (- k / dn d) * j). ring. }
    rewrite E. apply C_eq; cbn; ring.
Qed.
Lemma mirror_app a b ks ls : length ks = length a -> mirror (a ++ b) (ks ++ ls) = mirror a ks ++ mirror b ls.
Proof. revert ks. induction a as [|d a IH]; intros [|k ks] E; cbn in *; try discriminate; auto. f_equal. apply IH. lia. Qed.
Lemma idft_app1 s ns n x ks k : length ks = length ns ->
  idft s (ns ++ [n]) x (ks ++ [k]) = Csum n (fun j => idft s ns (fun js => x (js ++ [j])) ks * root s n (j * k)%Z)%C.
Proof.
  revert x ks. induction ns as [|m ns IH]; intros x [|q ks] E; cbn in E; try discriminate; cbn [app idft].
  - reflexivity.
  - rewrite (Csum_ext m _ (fun i => Csum n (fun j => idft s ns (fun js => x (i :: js ++ [j])) ks * root s m (i * q)%Z * root s n (j * k)%Z)%C)).
    + rewrite Csum_swap. apply Csum_ext. intros j Hj. now rewrite Csum_mul_r.
    + intros i Hi. rewrite (IH (fun js => x (i :: js))) by lia. rewrite <- Csum_mul_r. apply Csum_ext. intros j Hj. apply C_eq; cbn; ring.
Qed.
Lemma mirror_box t ks : posd t -> in_box t ks -> in_box t (mirror t ks).
Proof.
  revert ks. induction t as [|d t IH]; intros [|k ks] H1 H2; try easy. inversion H1; subst. destruct H2. cbn [mirror in_box]. split; auto.
  apply Z.mod_pos_bound. lia.
Qed.
Lemma bval_idft outer y H js : in_box outer js -> (forall ks, in_box outer ks -> H ks = y (ioff outer ks)) ->
  bval outer y js = idft 1 (map dn outer) H js.
Proof.
  intros Hj E. unfold bval. rewrite <- sdft_bwd, sdft_idft by auto. apply idft_ext; [now apply in_box_inb|].
  intros ks Hk. symmetry. apply E. now apply in_box_inb.
Qed.
Lemma rval_idft outer row dc cs x H js j : posd outer -> 0 < dn row -> in_box outer js -> 0 <= j < dn row ->
  hermitian (outer ++ [row]) H ->
  (forall ks k, in_box outer ks -> 0 <= k < nc (dn row) -> H (ks ++ [k]) = cview dc x (ioff outer ks + k * cs)) ->
  RtoC (rval outer (dn row) dc cs x js j) = idft 1 (map dn (outer ++ [row])) H (js ++ [j]).
Proof.
  intros Hp Hn Hjs Hj HH E. pose proof (in_box_len _ _ Hjs) as Lj.
  rewrite map_app. cbn [map]. rewrite idft_app1 by now rewrite map_length.
  set (G := fun k => idft 1 (map dn outer) (fun ks => H (ks ++ [k])) js).
  change (Csum (dn row) _) with (Csum (dn row) (fun k => G k * root 1 (dn row) (k * j))%C).
  rewrite <- hval_herm; auto.
  - f_equal. unfold rval. apply hval_ext. intros k Hk. unfold G.
    apply (bval_idft outer (fun o => cview dc x (o + k * cs))); auto.
  - intros k Hk. unfold G. rewrite <- idft_mirror by auto. apply idft_ext; [now apply in_box_inb|].
    intros ks Hks. apply in_box_inb in Hks. pose proof (in_box_len _ _ Hks) as Lk.
    pose proof (HH (ks ++ [k])) as Q. rewrite mirror_app in Q by auto. cbn [mirror] in Q.
    assert (B : in_box (outer ++ [row]) (mirror outer ks ++ [k])).
    { apply in_box_app. exists (mirror outer ks), [k]. split; auto. split; [now apply mirror_box|]. cbn. auto. }
    specialize (HH _ B). rewrite <- HH. f_equal. rewrite mirror_app by now rewrite (in_box_len _ _ (mirror_box _ _ Hp Hks)).
    cbn [mirror]. f_equal. clear - Hp Hks. revert ks Hks. induction outer as [|d t IH]; intros [|k ks] Hks; try easy.
    inversion Hp; subst. destruct Hks as [G1 G2]. cbn [mirror]. f_equal; [|now apply IH].
    destruct (Z.eq_dec k 0) as [->|NE]; [reflexivity|].
    rewrite (Z.mod_opp_l_nz k) by (rewrite ?Z.mod_small; lia). rewrite (Z.mod_small k) by lia.
    replace (- (dn d - k)) with (k + (-1) * dn d) by ring. rewrite Z.mod_add, Z.mod_small by lia. reflexivity.
Qed.

(** ** Execution of a plan *)
Lemma really_idem t : really_compress (really_compress t) = really_compress t.
Proof.
  unfold really_compress. induction t as [|d t IH]; [reflexivity|]. cbn [filter]. destruct (negb (dn d =? 1)) eqn:E; auto.
  cbn [filter]. now rewrite E, IH.
Qed.
Lemma really_sz t : tensor_sz (really_compress t) = tensor_sz t.
Proof.
  induction t as [|d t IH]; [reflexivity|]. cbn [really_compress filter]. destruct (dn d =? 1) eqn:E; cbn [negb].
  - apply Z.eqb_eq in E. cbn [tensor_sz fold_right] in *. fold (really_compress t). rewrite IH, E. lia.
  - cbn [tensor_sz fold_right] in *. fold (really_compress t). now rewrite IH.
Qed.
Lemma cc_really qs t : tensor_compress_contiguous qs (really_compress t) = tensor_compress_contiguous qs t.
Proof. unfold tensor_compress_contiguous. now rewrite really_sz, really_idem. Qed.
Lemma really_Forall (P : iodim -> Prop) t : Forall P t -> Forall P (really_compress t).
Proof. rewrite !Forall_forall. intros H d Hd. apply filter_In in Hd. now apply H. Qed.
Lemma locs_offs_eq a b : offs a = offs b -> locs (ti a) = locs (ti b) /\ locs (to_ a) = locs (to_ b).
Proof. intros E. rewrite <- !ilocs_offs, <- !olocs_offs, E. auto. Qed.
Lemma offs_app_really a v : offs (a ++ really_compress v) = offs (a ++ v).
Proof. induction a as [|d a IH]; cbn [app offs]; [apply really_compress_offs|now rewrite IH]. Qed.

Lemma r2_exec qs nd ip c2r dr dc outer row vec f s : qsort_perm qs -> r2child qs nd ip c2r dr dc outer row vec f ->
  0 < dn row -> posd outer -> nnegd vec -> sign_ok s -> sgc1 c2r s outer -> sgc1 c2r s vec -> (dn row <> 1 -> 0 <= s * cstr c2r row) ->
  let X := xr2 c2r dr dc outer row in
  forall nx I O m, (fst I < nx)%nat -> (fst O < nx)%nat -> NoDup (il X vec) -> NoDup (ol X vec) ->
  (if ip then I = O /\ same_strides (outer ++ vec) /\
     NoDup (lplus (nodup Z.eq_dec (rcells (dn row) dr (rstr c2r row) ++ locs [(2, dc); (nc (dn row), cstr c2r row)])) (locs (ti (outer ++ vec))))
   else forall l, InP I (il X vec) l -> InP O (ol X vec) l -> False) ->
  vals X vec I O m (f nx I O m) /\ frame nx (nd && negb ip) X vec I O m (f nx I O m).
Proof.
  intros Hq Hc Hn Po Nv Hs S1 S2 Hr X nx I O m HI HO Ni No Hip.
  set (fp0 := nodup Z.eq_dec (rcells (dn row) dr (rstr c2r row) ++ locs [(2, dc); (nc (dn row), cstr c2r row)])) in *.
  assert (F1 : incl (rcells (dn row) dr (rstr c2r row)) fp0) by (intros z Hz; apply nodup_In, in_or_app; auto).
  assert (F2 : incl (locs [(2, dc); (nc (dn row), cstr c2r row)]) fp0) by (intros z Hz; apply nodup_In, in_or_app; auto).
  destruct ip; cbn [negb]; rewrite ?andb_true_r, ?andb_false_r.
  - destruct Hip as (E & Hss & Nf). subst O. apply ss_app in Hss as [Hs1 Hs2]. set (vec' := really_compress vec).
    assert (EO : offs vec' = offs vec) by apply really_compress_offs. destruct (locs_offs_eq _ _ EO) as [EI EOo].
    assert (Eil : forall Y, il Y vec' = il Y vec) by (intros; unfold il; now rewrite EI).
    assert (Eol : forall Y, ol Y vec' = ol Y vec) by (intros; unfold ol; now rewrite EOo).
    assert (G : vals X vec' I I m (f nx I I m) /\ frame nx false X vec' I I m (f nx I I m)).
    2:{ destruct G as [V F]. split; [|intros l; rewrite <- Eil, <- Eol; apply F]. intros a b Hab. apply V. now rewrite EO. }
    inversion Hc as [? ? ? ? ? ? ? ? EC|? ? ? ? ? ? ? ? vec'' ? EC HP]; subst.
    + apply compress_contiguous_None in EC. pose proof (tensor_sz_0_offs vec Nv EC) as E0.
      split; [|intros l _ _ _; reflexivity]. intros p q Hp. rewrite EO, E0 in Hp. easy.
    + assert (Pv : posd vec).
      { unfold tensor_compress_contiguous in EC. destruct (Z.eqb_spec (tensor_sz vec) 0); [discriminate|]. now apply tensor_sz_pos. }
      assert (Hc' : r2child qs nd true c2r dr dc outer row vec' f) by (apply R2C_plan with vec''; auto; unfold vec'; now rewrite cc_really).
      pose proof (proj2 (r2planned_correct qs Hq) _ _ _ _ _ _ _ _ _ Hc' Hn Po (really_Forall _ _ Nv) (fun _ => Hs1) s Hs S1 (really_Forall _ _ S2) Hr fp0 F1 F2) as CC.
      cbn [CG] in CC. apply CC.
      assert (NE : locs (ti vec) <> []) by (apply posd_locs; auto).
      constructor; auto.
      * now apply really_Forall.
      * now apply ss_really.
      * unfold il in Ni. eapply NoDup_lplus_l; eauto.
      * unfold ol in No. eapply NoDup_lplus_l; [|exact No]. intros E. apply NE. 
        apply (f_equal (@length Z)) in E. rewrite <- olocs_offs, map_length in E. rewrite <- ilocs_offs.
        destruct (offs vec); [reflexivity|discriminate].
      * unfold X. destruct c2r; cbn [xr2 xi x2r x2c rstr cstr] in *.
        -- change ((2, dc) :: (nc (dn row), dis row) :: ti outer) with ([(2, dc); (nc (dn row), dis row)] ++ ti outer). rewrite locs_app.
           intros z Hz. apply in_lplus in Hz as (u & v & Hu & Hv & ->). apply in_lplus. exists u, v. auto.
        -- intros z Hz. apply in_lplus in Hz as (u & v & Hu & Hv & ->). apply in_lplus. exists u, v. auto.
      * assert (ET : locs (to_ outer) = locs (ti outer)).
        { destruct (locs_offs_eq _ _ (really_compress_offs outer)) as [<- <-]. f_equal. apply eqst_ti. now apply ss_really. }
        unfold X. destruct c2r; unfold xr2; [rewrite fst_x2r, ET|rewrite fst_x2c]; cbn [rstr cstr] in *.
        -- intros z Hz. apply in_lplus in Hz as (u & v & Hu & Hv & ->). apply in_lplus. exists u, v. auto.
        -- change ((2, dc) :: (nc (dn row), dos row) :: to_ outer) with ([(2, dc); (nc (dn row), dos row)] ++ to_ outer). rewrite locs_app, ET.
           intros z Hz. apply in_lplus in Hz as (u & v & Hu & Hv & ->). apply in_lplus. exists u, v. auto.
      * unfold il. cbn [xi xf]. rewrite lplus_assoc, EI, <- locs_app, <- ti_app. exact Nf.
  - pose proof (proj2 (r2planned_correct qs Hq) _ _ _ _ _ _ _ _ _ Hc Hn Po Nv (fun E => False_ind _ (Bool.diff_false_true E)) s Hs S1 S2 Hr fp0 F1 F2) as CC.
    cbn [CG] in CC. apply CC. constructor; auto.
Qed.

(** ** Arrays of the API *)
Definition fr (c2r : bool) : list iodim -> list (Z * Z) := if c2r then to_ else ti.
Definition fc (c2r : bool) : list iodim -> list (Z * Z) := if c2r then ti else to_.
Definition prow (c2r : bool) (d : iodim) : iodim := if c2r then mkdim (dn d) (dis d) (2 * dos d) else mkdim (dn d) (2 * dis d) (dos d).

Lemma prob3_eq c2r sz : prob3 c2r sz = (rstride c2r (row_of sz), outer_of sz, prow c2r (row_of sz)).
Proof. destruct sz as [|d sz]; [now destruct c2r|]. reflexivity. Qed.
Lemma in_fr c2r t z : In z (locs (fr c2r t)) <-> exists ks, in_box t ks /\ z = roff c2r t ks.
Proof. destruct c2r; [apply in_olocs|apply in_ilocs]. Qed.
Lemma in_fc c2r t z : In z (locs (fc c2r t)) <-> exists ks, in_box t ks /\ z = coff c2r t ks.
Proof. destruct c2r; [apply in_ilocs|apply in_olocs]. Qed.
Lemma nodup_fr c2r t : (forall ks js, in_box t ks -> in_box t js -> roff c2r t ks = roff c2r t js -> ks = js) -> NoDup (locs (fr c2r t)).
Proof. destruct c2r; [apply inj_NoDup_o|apply inj_NoDup_i]. Qed.
Lemma nodup_fc c2r t : (forall ks js, in_box t ks -> in_box t js -> coff c2r t ks = coff c2r t js -> ks = js) -> NoDup (locs (fc c2r t)).
Proof. destruct c2r; [apply inj_NoDup_i|apply inj_NoDup_o]. Qed.
Lemma split_sz d sz : d :: sz = outer_of (d :: sz) ++ [row_of (d :: sz)].
Proof. unfold outer_of, row_of. apply app_removelast_last. discriminate. Qed.
Lemma fr_app c2r a b : fr c2r (a ++ b) = fr c2r a ++ fr c2r b.
Proof. destruct c2r; [apply to_app|apply ti_app]. Qed.
Lemma fc_app c2r a b : fc c2r (a ++ b) = fc c2r a ++ fc c2r b.
Proof. destruct c2r; [apply ti_app|apply to_app]. Qed.
Lemma fr_sz c2r sz vec :
  Permutation (locs (fr c2r (sz ++ vec))) (locs ((dn (row_of sz), rstride c2r (row_of sz)) :: fr c2r (outer_of sz ++ vec))).
Proof.
  destruct sz as [|d sz].
  - destruct c2r; cbn [app outer_of row_of removelast last dn dis dos rstride locs]; change (dimlocs (1, 0)) with [0]; rewrite lplus_0_l; reflexivity.
  - rewrite (split_sz d sz) at 1. apply locs_perm. rewrite !fr_app, <- app_assoc. cbn [app].
    destruct c2r; cbn [fr ti to_ map app rstride]; symmetry; apply Permutation_middle.
Qed.
Lemma fc_sz c2r sz vec :
  Permutation (locs (fc c2r (half sz ++ vec))) (locs ((nc (dn (row_of sz)), cstride c2r (row_of sz)) :: fc c2r (outer_of sz ++ vec))).
Proof.
  destruct sz as [|d sz].
  - destruct c2r; cbn [app half outer_of row_of removelast last dn dis dos cstride locs]; change (nc 1) with 1; change (dimlocs (1, 0)) with [0]; rewrite lplus_0_l; reflexivity.
  - unfold half. apply locs_perm. rewrite !fc_app, <- app_assoc. cbn [app].
    destruct c2r; cbn [fc ti to_ map app cstride dn dis dos]; symmetry; apply Permutation_middle.
Qed.
Lemma real_loc_in c2r r t l : real_loc c2r r t l <-> InP r (locs (fr c2r t)) l.
Proof.
  unfold real_loc, InP. split.
  - intros (ks & H & ->). exists (roff c2r t ks). split; auto. apply in_fr. eauto.
  - intros (o & H & ->). apply in_fr in H as (ks & H & ->). eauto.
Qed.
Lemma cplx_loc_in c2r cr dc t l : cplx_loc c2r (cr, sh cr dc) t l <-> InP cr (locs ((2, dc) :: fc c2r t)) l.
Proof.
  unfold cplx_loc, InP. cbn [fst snd locs]. split.
  - intros (ks & H & [-> | ->]).
    + exists (coff c2r t ks). split; auto. apply in_lplus. exists (0 * dc), (coff c2r t ks). split; [apply in_dimlocs; exists 0; split; [lia|auto]|].
      split; [apply in_fc; eauto|lia].
    + exists (dc + coff c2r t ks). split; [|apply sh_sh]. apply in_lplus. exists (1 * dc), (coff c2r t ks). split; [apply in_dimlocs; exists 1; split; [lia|auto]|].
      split; [apply in_fc; eauto|lia].
  - intros (o & H & ->). apply in_lplus in H as (u & v & Hu & Hv & ->). apply in_dimlocs in Hu as (c & Hc & ->). apply in_fc in Hv as (ks & H & ->).
    exists ks. split; auto. assert (E : c = 0 \/ c = 1) by lia. destruct E as [-> | ->]; [left|right].
    + f_equal.
    + rewrite sh_sh. f_equal. lia.
Qed.
Lemma ss_off t ks : same_strides t -> in_box t ks -> ooff t ks = ioff t ks.
Proof.
  revert ks. induction t as [|d t IH]; intros [|k ks] H1 H2; try easy. inversion H1 as [|? ? Hd Ht]; subst. destruct H2 as [Hk Hks].
  cbn [ooff ioff]. rewrite (IH ks Ht Hks). destruct Hd as [Hd | ->]; auto. assert (k = 0) by lia. subst. ring.
Qed.

Lemma il_xr2 c2r dr dc outer row vec : il (xr2 c2r dr dc outer row) vec =
  if c2r then locs ((2, dc) :: (nc (dn row), cstr c2r row) :: fc c2r (outer ++ vec))
  else lplus (rcells (dn row) dr (rstr c2r row)) (locs (fr c2r (outer ++ vec))).
Proof. destruct c2r; [apply il_x2r|apply il_x2c]. Qed.
Lemma ol_xr2 c2r dr dc outer row vec : ol (xr2 c2r dr dc outer row) vec =
  if c2r then lplus (rcells (dn row) dr (rstr c2r row)) (locs (fr c2r (outer ++ vec)))
  else locs ((2, dc) :: (nc (dn row), cstr c2r row) :: fc c2r (outer ++ vec)).
Proof. destruct c2r; [apply ol_x2r|apply ol_x2c]. Qed.
Lemma prow_dn c2r d : dn (prow c2r d) = dn d. Proof. now destruct c2r. Qed.
Lemma prow_r c2r d : rstr c2r (prow c2r d) = 2 * rstride c2r d. Proof. now destruct c2r. Qed.
Lemma prow_c c2r d : cstr c2r (prow c2r d) = cstride c2r d. Proof. now destruct c2r. Qed.

(** the locations of the real and of the complex array, as the solvers see them *)
Lemma RL_perm c2r sz vec : Permutation (locs (fr c2r (sz ++ vec)))
  (lplus (rcells (dn (row_of sz)) (rstride c2r (row_of sz)) (2 * rstride c2r (row_of sz))) (locs (fr c2r (outer_of sz ++ vec)))).
Proof. rewrite rcells_lin by auto. cbn [locs]. rewrite lplus_0_r. apply fr_sz. Qed.
Lemma CL_perm c2r sz vec dc : Permutation (locs ((2, dc) :: fc c2r (half sz ++ vec)))
  (locs ((2, dc) :: (nc (dn (row_of sz)), cstride c2r (row_of sz)) :: fc c2r (outer_of sz ++ vec))).
Proof. cbn [locs]. apply lplus_perm_r. apply fc_sz. Qed.

Lemma grc_nodup c2r sz vec r cr dc : good_rc c2r sz vec r (cr, sh cr dc) ->
  NoDup (locs (fr c2r (sz ++ vec))) /\ NoDup (locs ((2, dc) :: fc c2r (half sz ++ vec))).
Proof.
  intros H. split.
  - apply nodup_fr. exact (grc_r _ _ _ _ _ H).
  - cbn [locs]. apply NoDup_two.
    + apply nodup_fc. intros ks js Hk Hj. now apply (grc_c _ _ _ _ _ H).
    + intros a b Ha Hb E. apply in_fc in Ha as (ks & Hk & ->), Hb as (js & Hj & ->).
      destruct (grc_c _ _ _ _ _ H ks js Hk Hj) as [_ Q]. apply Q. cbn [fst snd]. rewrite sh_sh. now f_equal.
Qed.
Lemma grc_fp c2r sz vec r cr dc : good_rc c2r sz vec r (cr, sh cr dc) -> r = cr ->
  same_strides (outer_of sz ++ vec) /\
  NoDup (lplus (nodup Z.eq_dec (rcells (dn (row_of sz)) (rstride c2r (row_of sz)) (2 * rstride c2r (row_of sz)) ++
                                locs [(2, dc); (nc (dn (row_of sz)), cstride c2r (row_of sz))]))
               (locs (ti (outer_of sz ++ vec)))).
Proof.
  intros H E. destruct (grc_overlap _ _ _ _ _ H) as [[Q _]|(_ & Hss & Hrow)]; [contradiction|]. split; auto. subst r. cbn [fst snd] in *.
  assert (Pn : 0 < dn (row_of sz)).
  { pose proof (grc_sz _ _ _ _ _ H) as P. destruct sz as [|d sz]; [cbn; lia|]. rewrite (split_sz d sz), Forall_app in P. destruct P as [_ P]. now inversion P. }
  assert (Er : forall ps, in_box (outer_of sz ++ vec) ps -> roff c2r (outer_of sz ++ vec) ps = ioff (outer_of sz ++ vec) ps).
  { intros ps Hp. destruct c2r; [now apply ss_off|reflexivity]. }
  assert (Ec : forall ps, in_box (outer_of sz ++ vec) ps -> coff c2r (outer_of sz ++ vec) ps = ioff (outer_of sz ++ vec) ps).
  { intros ps Hp. destruct c2r; [reflexivity|now apply ss_off]. }
  assert (In0 : forall p ps, In p (nodup Z.eq_dec (rcells (dn (row_of sz)) (rstride c2r (row_of sz)) (2 * rstride c2r (row_of sz)) ++
                                locs [(2, dc); (nc (dn (row_of sz)), cstride c2r (row_of sz))])) -> in_box (outer_of sz ++ vec) ps ->
     row_loc c2r sz vec cr (cr, sh cr dc) ps (sh cr (p + ioff (outer_of sz ++ vec) ps))).
  { intros p ps Hp Hps. apply nodup_In, in_app_or in Hp. unfold row_loc. cbn zeta. rewrite (Er ps Hps), (Ec ps Hps). destruct Hp as [Hp|Hp].
    - left. unfold rcells in Hp. apply in_map_iff in Hp as (j & <- & Hj). apply in_zr in Hj. exists j. split; auto. rewrite rpos_lin by auto. f_equal. lia.
    - right. cbn [locs] in Hp. rewrite lplus_0_r in Hp. apply in_lplus in Hp as (u & v & Hu & Hv & ->). apply in_dimlocs in Hu as (c & Hc & ->), Hv as (k & Hk & ->).
      exists k. split; [exact Hk|]. cbn [fst snd]. assert (Q : c = 0 \/ c = 1) by lia. destruct Q as [-> | ->]; [left|right; rewrite sh_sh]; f_equal; lia. }
  assert (I0 : In 0 (nodup Z.eq_dec (rcells (dn (row_of sz)) (rstride c2r (row_of sz)) (2 * rstride c2r (row_of sz)) ++
                                locs [(2, dc); (nc (dn (row_of sz)), cstride c2r (row_of sz))]))).
  { apply nodup_In, in_or_app. left. unfold rcells. apply in_map_iff. exists 0. split; [reflexivity|]. apply in_zr. lia. }
  assert (Inj : forall ps qs, in_box (outer_of sz ++ vec) ps -> in_box (outer_of sz ++ vec) qs ->
     ioff (outer_of sz ++ vec) ps = ioff (outer_of sz ++ vec) qs -> ps = qs).
  { intros ps qs Hp Hq' EE. apply (Hrow ps qs (sh cr (0 + ioff (outer_of sz ++ vec) ps))); auto. rewrite EE. now apply In0. }
  apply NoDup_lplus.
  - apply NoDup_nodup.
  - now apply inj_NoDup_i.
  - intros p p' q q' Hp Hp' Hq' Hq2 EE. apply in_ilocs in Hq' as (ps & Hps & ->), Hq2 as (qs' & Hqs & ->).
    assert (ps = qs'); [|subst; lia]. apply (Hrow ps qs' (sh cr (p + ioff (outer_of sz ++ vec) ps))); auto. rewrite EE. now apply In0.
Qed.
Lemma grc_row c2r sz vec r c : good_rc c2r sz vec r c -> 0 < dn (row_of sz) /\ posd (outer_of sz) /\ nnegd vec.
Proof.
  intros H. pose proof (grc_sz _ _ _ _ _ H) as P. split; [|split; [|exact (grc_vec _ _ _ _ _ H)]].
  - destruct sz as [|d sz]; [cbn; lia|]. rewrite (split_sz d sz), Forall_app in P. destruct P as [_ P]. now inversion P.
  - destruct sz as [|d sz]; [constructor|]. rewrite (split_sz d sz), Forall_app in P. apply P.
Qed.
Lemma grc_sgn c2r sz vec r c : good_rc c2r sz vec r c -> exists s, sign_ok s /\ sgc1 c2r s (outer_of sz) /\ sgc1 c2r s vec /\
  (dn (row_of sz) <> 1 -> 0 <= s * cstride c2r (row_of sz)).
Proof.
  intros H. destruct (grc_sign _ _ _ _ _ H) as (s & Hs & HF). exists s. split; [exact Hs|]. apply Forall_app in HF as [H1 H2].
  assert (G : forall t, Forall (fun d => dn d <> 1 -> 0 <= s * cstride c2r d) t -> sgc1 c2r s t).
  { intros t. apply Forall_impl. intros d Hd Hn. specialize (Hd Hn). destruct c2r; cbn [cstride] in Hd; lia. }
  destruct sz as [|d sz]; [split; [constructor|]; split; auto; cbn; lia|]. rewrite (split_sz d sz), Forall_app in H1. destruct H1 as [H1 H3].
  split; [now apply G|]. split; [now apply G|]. inversion H3; subst. auto.
Qed.

Lemma rc_run qs nd ip c2r sz vec cr dc r f : qsort_perm qs ->
  r2child qs nd ip c2r (rstride c2r (row_of sz)) dc (outer_of sz) (prow c2r (row_of sz)) vec f ->
  good_rc c2r sz vec r (cr, sh cr dc) -> (ip = true <-> r = cr) ->
  forall nx m, (fst r < nx)%nat -> (fst cr < nx)%nat ->
  let X := xr2 c2r (rstride c2r (row_of sz)) dc (outer_of sz) (prow c2r (row_of sz)) in
  let I := if c2r then cr else r in let O := if c2r then r else cr in
  vals X vec I O m (f nx I O m) /\ frame nx (nd && negb ip) X vec I O m (f nx I O m).
Proof.
  intros Hq Hc HG Hip nx m Hr Hcr X I O. destruct (grc_row _ _ _ _ _ HG) as (P1 & P2 & P3). destruct (grc_sgn _ _ _ _ _ HG) as (s & S1 & S2 & S3 & S4).
  destruct (grc_nodup _ _ _ _ _ _ HG) as [N1 N2]. rewrite (RL_perm c2r sz vec) in N1. rewrite (CL_perm c2r sz vec dc) in N2.
  apply (r2_exec qs nd ip c2r _ dc (outer_of sz) (prow c2r (row_of sz)) vec f s); auto.
  - now rewrite prow_dn.
  - now rewrite prow_dn, prow_c.
  - unfold I. now destruct c2r.
  - unfold O. now destruct c2r.
  - rewrite il_xr2, prow_dn, prow_r, prow_c. now destruct c2r.
  - rewrite ol_xr2, prow_dn, prow_r, prow_c. now destruct c2r.
  - destruct ip.
    + assert (E : r = cr) by now apply Hip. rewrite prow_dn, prow_r, prow_c. split; [unfold I, O; subst r; now destruct c2r|].
      now apply (grc_fp c2r sz vec r cr dc).
    + assert (NE : r <> cr) by (intros E; apply Hip in E; discriminate).
      destruct (grc_overlap _ _ _ _ _ HG) as [[_ D]|[E _]]; [|cbn in E; contradiction].
      intros l Hl1 Hl2. rewrite il_xr2, prow_dn, prow_r, prow_c in Hl1. rewrite ol_xr2, prow_dn, prow_r, prow_c in Hl2.
      assert (T : forall l, InP r (lplus (rcells (dn (row_of sz)) (rstride c2r (row_of sz)) (2 * rstride c2r (row_of sz))) (locs (fr c2r (outer_of sz ++ vec)))) l ->
                InP cr (locs ((2, dc) :: (nc (dn (row_of sz)), cstride c2r (row_of sz)) :: fc c2r (outer_of sz ++ vec))) l -> False).
      { intros l' L1 L2. apply (D l').
        - apply real_loc_in. eapply InP_perm; [|exact L1]. symmetry. apply RL_perm.
        - apply cplx_loc_in. eapply InP_perm; [|exact L2]. symmetry. apply CL_perm. }
      unfold I, O in *. destruct c2r; eapply T; eauto.
Qed.

(** ** Values *)
Lemma half_split sz ks : in_box (half sz) ks -> exists a k, in_box (outer_of sz) a /\ 0 <= k < nc (dn (row_of sz)) /\
  (ks = a ++ [k] \/ (sz = [] /\ ks = [] /\ a = [] /\ k = 0)).
Proof.
  destruct sz as [|d sz].
  - destruct ks; [|easy]. intros _. exists [], 0. split; [constructor|]. split; [change (nc (dn (row_of []))) with 1; lia|]. auto.
  - unfold half. intros H. apply in_box_app in H as (a & b & -> & Ha & Hb). destruct b as [|k [|? ?]]; try easy; [|cbn in Hb; easy].
    exists a, k. split; auto. split; auto. apply Hb.
Qed.
Lemma row_split sz ks : in_box sz ks -> exists a k, in_box (outer_of sz) a /\ 0 <= k < dn (row_of sz) /\
  (ks = a ++ [k] \/ (sz = [] /\ ks = [] /\ a = [] /\ k = 0)).
Proof.
  destruct sz as [|d sz].
  - destruct ks; [|easy]. intros _. exists [], 0. split; [constructor|]. split; [cbn; lia|]. auto.
  - rewrite (split_sz d sz) at 1. intros H. apply in_box_app in H as (a & b & -> & Ha & Hb). destruct b as [|k [|? ?]]; try easy; [|cbn in Hb; easy].
    exists a, k. split; auto. split; auto. apply Hb.
Qed.
Lemma ooff_sz sz a k : sz <> [] -> in_box (outer_of sz) a -> ooff sz (a ++ [k]) = ooff (outer_of sz) a + k * dos (row_of sz).
Proof.
  intros H Ha. destruct sz as [|d sz]; [easy|]. rewrite (split_sz d sz) at 1. rewrite ooff_app by now apply in_box_len. cbn [ooff]. lia.
Qed.
Lemma ioff_sz sz a k : sz <> [] -> in_box (outer_of sz) a -> ioff sz (a ++ [k]) = ioff (outer_of sz) a + k * dis (row_of sz).
Proof.
  intros H Ha. destruct sz as [|d sz]; [easy|]. rewrite (split_sz d sz) at 1. rewrite ioff_app by now apply in_box_len. cbn [ioff]. lia.
Qed.
Lemma app_nonnil {A} (a : list A) k : a ++ [k] <> []. Proof. destruct a; discriminate. Qed.
Lemma mdft_sz sz x a k : sz <> [] -> in_box (outer_of sz) a ->
  mdft sz x (a ++ [k]) = mdft (outer_of sz) (fun o => dft (dn (row_of sz)) (fun j => x (o + j * dis (row_of sz))) k) a.
Proof.
  intros H Ha. destruct sz as [|d sz]; [easy|]. rewrite (split_sz d sz) at 1. rewrite mdft_app by now apply in_box_len.
  apply mdft_ext; auto. intros js Hjs. cbn [mdft]. unfold dft. apply Csum_ext. intros j Hj. do 2 f_equal. lia.
Qed.
Lemma half_nonnil sz a k : in_box (half sz) (a ++ [k]) -> sz <> [].
Proof. intros H E. subst. cbn in H. destruct a; easy. Qed.
Lemma box_nonnil sz a k : in_box sz (a ++ [k]) -> sz <> [].
Proof. intros H E. subst. cbn in H. destruct a; easy. Qed.

Lemma r2c_vals sz vec I O dc m m' : posd (outer_of sz) -> 0 < dn (row_of sz) ->
  vals (xr2 false (dis (row_of sz)) dc (outer_of sz) (prow false (row_of sz))) vec I O m m' ->
  is_r2c sz vec I (O, sh O dc) m m'.
Proof.
  intros Hp Hn V. unfold xr2 in V. rewrite vals_x2c in V. cbn [prow dn dis dos] in V. intros vs ks Hv Hk.
  destruct (half_split sz ks Hk) as (a & k & Ha & Hk' & E).
  pose proof (V _ _ (in_offs_box vec vs Hv) k a Hk' Ha) as Q. rewrite sdft_fwd. destruct E as [->|(-> & -> & -> & ->)].
  - pose proof (half_nonnil _ _ _ Hk) as NE. rewrite ooff_sz, mdft_sz by auto. rewrite (Z.add_comm (ooff (outer_of sz) a)), Q.
    unfold cval. apply mdft_ext; auto. intros js Hjs. unfold dft. apply Csum_ext. intros j Hj. rewrite rpos_lin by auto. reflexivity.
  - cbn [outer_of removelast row_of last ooff dos] in Q. cbn [ooff]. replace (0 * 0 + 0) with 0 in Q by reflexivity. rewrite Q.
    unfold cval. cbn [outer_of removelast mdft row_of last dn]. unfold dft. rewrite Csum_1, W_cs, cs_0, sn_0. apply C_eq; cbn; ring.
Qed.
Lemma c2r_vals sz vec I O dc m m' : posd (outer_of sz) -> 0 < dn (row_of sz) ->
  vals (xr2 true (dos (row_of sz)) dc (outer_of sz) (prow true (row_of sz))) vec I O m m' ->
  is_c2r sz vec (I, sh I dc) O m m'.
Proof.
  intros Hp Hn V. unfold xr2 in V. rewrite vals_x2r in V. cbn [prow dn dis dos] in V. intros vs H Hv HH E js Hj.
  destruct (row_split sz js Hj) as (a & j & Ha & Hj' & EE).
  pose proof (V _ _ (in_offs_box vec vs Hv) j a Hj' Ha) as Q. rewrite rpos_lin in Q by auto. destruct EE as [->|(-> & -> & -> & ->)].
  - pose proof (box_nonnil _ _ _ Hj) as NE. rewrite ooff_sz by auto. rewrite (Z.add_comm (ooff (outer_of sz) a)), Q.
    destruct sz as [|d sz]; [easy|]. rewrite (split_sz d sz) at 4. rewrite (split_sz d sz) in HH at 1.
    apply rval_idft; auto. intros ks k Hks Hk. rewrite E.
    + rewrite ioff_sz by (auto; discriminate). unfold rdc, cview. cbn [fst snd]. rewrite sh_sh. f_equal. do 2 f_equal. lia.
    + unfold half. apply in_box_app. exists ks, [k]. split; auto. split; auto. cbn. auto.
  - cbn [outer_of removelast row_of last ooff dos Z.mul Z.add] in Q. cbn [ooff]. rewrite Q. cbn [map idft].
    pose proof (E [] Logic.I) as E0. pose proof (HH [] Logic.I) as H0. cbn [mirror] in H0.
    change (RtoC (rval (outer_of []) (dn (row_of [])) dc (dis (row_of [])) (fun z => m (sh I (ioff vec vs + z))) [] 0) = H []).
    rewrite (rval_idft (outer_of []) (row_of []) dc _ _ (fun _ => H [])); auto.
    + cbn [outer_of removelast app map row_of last dn idft]. rewrite Csum_1, root1_cs. cbn [Z.mul]. rewrite cs_0, sn_0. apply C_eq; cbn; ring.
    + intros ks _. exact H0.
    + intros ks k Hks Hk. destruct ks; [|easy]. rewrite E0. cbn [ioff outer_of removelast row_of last dis]. rewrite Z.mul_0_r.
      unfold rdc, cview. cbn [fst snd]. rewrite sh_sh. f_equal. do 2 f_equal. lia.
Qed.
