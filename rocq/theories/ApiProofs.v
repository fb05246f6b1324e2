(** * From plans to the API: proofs (library for PropDft). *)
From Coq Require Import Reals ZArith List Lia Lra Bool Permutation.
From Verif Require Import NumTheory Cplx Spec SpecApi TensorModel Offs TensorProofs XForm XKern XSeq
  DftModel DftTw2 DftComp DftSplit DftProofs FlagsModel ApiModel.
Import ListNotations.
Open Scope Z_scope.

(** ** Split arrays *)
Lemma in_loc_il p di t l : in_loc (p, sh p di) t l <-> InP p (locs ((2, di) :: ti t)) l.
Proof.
  unfold in_loc, InP. cbn [fst snd]. split.
  - intros (ks & Hk & [E|E]); subst.
    + exists (ioff t ks). split; auto. apply in_locs_cons. exists 0, (ioff t ks).
      split; [lia|]. split; [apply in_ilocs; eauto|lia].
    + exists (di + ioff t ks). rewrite sh_sh. split; auto. apply in_locs_cons. exists 1, (ioff t ks).
      split; [lia|]. split; [apply in_ilocs; eauto|lia].
  - intros (o & Ho & ->). apply in_locs_cons in Ho as (i & q & Hi & Hq & ->).
    apply in_ilocs in Hq as (ks & Hk & ->). exists ks. split; auto.
    assert (i = 0 \/ i = 1) as [E|E] by lia; subst i; [left|right].
    + f_equal.
    + rewrite sh_sh. f_equal. lia.
Qed.
Lemma out_loc_ol p do_ t l : out_loc (p, sh p do_) t l <-> InP p (locs ((2, do_) :: to_ t)) l.
Proof.
  unfold out_loc, InP. cbn [fst snd]. split.
  - intros (ks & Hk & [E|E]); subst.
    + exists (ooff t ks). split; auto. apply in_locs_cons. exists 0, (ooff t ks).
      split; [lia|]. split; [apply in_olocs; eauto|lia].
    + exists (do_ + ooff t ks). rewrite sh_sh. split; auto. apply in_locs_cons. exists 1, (ooff t ks).
      split; [lia|]. split; [apply in_olocs; eauto|lia].
  - intros (o & Ho & ->). apply in_locs_cons in Ho as (i & q & Hi & Hq & ->).
    apply in_olocs in Hq as (ks & Hk & ->). exists ks. split; auto.
    assert (i = 0 \/ i = 1) as [E|E] by lia; subst i; [left|right].
    + f_equal.
    + rewrite sh_sh. f_equal. lia.
Qed.

Lemma NoDup_two di S : NoDup S -> (forall a b, In a S -> In b S -> a <> di + b) -> NoDup (lplus (dimlocs (2, di)) S).
Proof.
  intros H1 H2. change (dimlocs (2, di)) with [0 * di; 1 * di]. unfold lplus. cbn [flat_map]. rewrite app_nil_r.
  apply NoDup_app_intro.
  - replace (map (Z.add (0 * di)) S) with S; auto. rewrite <- (map_id S) at 1. apply map_ext. intros; lia.
  - apply NoDup_map_shift. exact H1.
  - intros x Hx Hy. apply in_map_iff in Hx as (a & <- & Ha), Hy as (b & E & Hb). apply (H2 a b Ha Hb). lia.
Qed.

Lemma good_nodup_i di t p : distinct_in (p, sh p di) t -> NoDup (locs ((2, di) :: ti t)).
Proof.
  intros [H1 H2]. cbn [locs]. apply NoDup_two; [now apply inj_NoDup_i|].
  intros a b Ha Hb. apply in_ilocs in Ha as (ks & Hk & ->), Hb as (js & Hj & ->).
  intros E. apply (H2 ks js Hk Hj). cbn [fst snd]. rewrite sh_sh. now f_equal.
Qed.
Lemma good_nodup_o di t p : distinct_out (p, sh p di) t -> NoDup (locs ((2, di) :: to_ t)).
Proof.
  intros [H1 H2]. cbn [locs]. apply NoDup_two; [now apply inj_NoDup_o|].
  intros a b Ha Hb. apply in_olocs in Ha as (ks & Hk & ->), Hb as (js & Hj & ->).
  intros E. apply (H2 ks js Hk Hj). cbn [fst snd]. rewrite sh_sh. now f_equal.
Qed.

(** What every plan for a complex problem does to split arrays. *)
Lemma split_exec qs nd ip di do_ sz vec f : qsort_perm qs ->
  child qs nd ip di do_ sz vec f ->
  sign_consistent (ip = true) (sz ++ vec) ->
  forall nx I O m, (fst I < nx)%nat -> (fst O < nx)%nat ->
  good_arrays sz vec (I, sh I di) (O, sh O do_) ->
  (ip = true -> I = O) -> (ip = false -> (I, sh I di) <> (O, sh O do_)) ->
  is_transform sz vec (I, sh I di) (O, sh O do_) m (f nx I O m) /\
  (forall l, (fst l < nx)%nat -> ~ out_loc (O, sh O do_) (sz ++ vec) l ->
     (nd = true \/ ~ in_loc (I, sh I di) (sz ++ vec) l) -> f nx I O m l = m l).
Proof.
  intros Hq Hc (a & b & Ha & Hb & Hab & Hs) nx I O m HI HO [G1 G2 G3 G4 G5] Hip Hoop.
  destruct (planned_correct qs Hq) as (_ & _ & P). specialize (P _ _ _ _ _ _ _ Hc).
  destruct (P G1 G2) as [Pi Pc]. apply Forall_app in Hs as [S1 S2].
  assert (X : Correct nd ip (cx di do_ sz) vec f) by (apply Pc with (a := a) (b := b); assumption).
  assert (WW : Wf nx ip I O (cx di do_ sz) vec).
  { constructor; auto.
    - rewrite il_cx. now apply (good_nodup_i di _ I).
    - rewrite ol_cx. now apply (good_nodup_o do_ _ O).
    - rewrite il_cx, ol_cx. destruct (Bool.bool_dec ip true) as [E|E].
      + rewrite E. split; auto. destruct (Pi E) as [<- Pm]. intros o. rewrite !in_locs_cons.
        split; intros (i & q & Hi & Hq' & ->); exists i, q; split; auto; split; auto;
          [|symmetry in Pm]; eapply Permutation_in; eauto.
      + apply not_true_is_false in E. rewrite E. intros l Hl1 Hl2. apply in_loc_il in Hl1. apply out_loc_ol in Hl2.
        destruct G5 as [G5|G5]; [now apply Hoop in E|]. eauto. }
  destruct (X nx I O m WW) as [V F]. split.
  - rewrite vals_cx in V. intros vs ks Hv Hk. apply V; auto. now apply in_offs_box.
  - intros l Hl H1 H2. apply F; auto.
    + rewrite ol_cx. intros Q. apply H1. now apply out_loc_ol.
    + destruct H2 as [H2|H2]; [now left|right]. rewrite il_cx. intros Q. apply H2. now apply in_loc_il.
Qed.

(** ** Scaling *)
Definition scl (a b : Z) (t : list iodim) : list iodim := map (dim_scale a b) t.
Lemma scl_box a b t ks : in_box (scl a b t) ks <-> in_box t ks.
Proof. revert ks. induction t as [|d t IH]; intros [|k ks]; cbn; try tauto. rewrite IH. tauto. Qed.
Lemma scl_ioff a b t ks : ioff (scl a b t) ks = a * ioff t ks.
Proof. revert ks. induction t as [|d t IH]; intros [|k ks]; cbn; try lia. unfold scl in IH. rewrite IH. ring. Qed.
Lemma scl_ooff a b t ks : ooff (scl a b t) ks = b * ooff t ks.
Proof. revert ks. induction t as [|d t IH]; intros [|k ks]; cbn; try lia. unfold scl in IH. rewrite IH. ring. Qed.
Lemma scl_app a b s t : scl a b (s ++ t) = scl a b s ++ scl a b t.
Proof. apply map_app. Qed.
Lemma scl_mdft a b t x ks : mdft (scl a b t) x ks = mdft t (fun o => x (a * o)) ks.
Proof.
  revert x ks. induction t as [|d t IH]; intros x [|k ks]; cbn [scl map mdft]; try (f_equal; lia).
  cbn [dn dis dim_scale]. apply Csum_ext. intros j _. f_equal. fold (scl a b t). rewrite IH.
  apply (f_equal (fun g => mdft t g ks)). apply FunctionalExtensionality.functional_extensionality. intros o. f_equal. ring.
Qed.
Lemma scl_1 t : scl 1 1 t = t.
Proof. induction t as [|[n i o] t IH]; [reflexivity|]. cbn. unfold scl in IH. rewrite IH. f_equal. unfold dim_scale. cbn. f_equal; lia. Qed.
Lemma scl_sign a b ip t : 0 < a -> 0 < b -> sign_consistent ip t -> sign_consistent ip (scl a b t).
Proof.
  intros Ha Hb (u & v & Hu & Hv & Huv & Hs). exists u, v. repeat split; auto.
  unfold scl. rewrite Forall_map. eapply Forall_impl; [|exact Hs]. cbn. intros d Hd Hn. destruct (Hd Hn). split; nia.
Qed.

(** ** roots and signs *)
Lemma root_fwd n k : root (-1) n k = W n k.
Proof. unfold root, W. f_equal. unfold Rdiv. ring. Qed.
Lemma root_bwd n k : root 1 n k = W n (- k).
Proof. unfold root, W. f_equal. rewrite opp_IZR. unfold Rdiv. ring. Qed.
Lemma sdft_fwd t x ks : sdft (-1) t x ks = mdft t x ks.
Proof.
  revert x ks. induction t as [|d t IH]; intros x [|k ks]; cbn [sdft mdft]; auto.
  apply Csum_ext. intros j _. now rewrite IH, root_fwd.
Qed.
Lemma swapc_swapc a : swapc (swapc a) = a. Proof. now destruct a. Qed.
Lemma Csum_swapc' n f : swapc (Csum n f) = Csum n (fun i => swapc (f i)).
Proof.
  destruct (Z_le_gt_dec n 0) as [H|H]; [rewrite !Csum_neg by auto; reflexivity|].
  assert (Hn : 0 <= n) by lia. clear H. revert n Hn. apply Csum_ind; [reflexivity|].
  intros n Hn IH. rewrite !Csum_succ, <- IH by auto. reflexivity.
Qed.
Lemma sdft_bwd t x ks : sdft 1 t x ks = swapc (mdft t (fun o => swapc (x o)) ks).
Proof.
  revert x ks. induction t as [|d t IH]; intros x [|k ks]; cbn [sdft mdft]; try now rewrite swapc_swapc.
  rewrite Csum_swapc'. apply Csum_ext. intros j _. rewrite IH, root_bwd, swapc_mul_W. reflexivity.
Qed.

(** ** The interleaved interface *)
Definition re_of (s : Z) (p : loc) : loc := fst (extract_reim s p).
Lemma reim_blk s p : fst (re_of s p) = fst p.
Proof. unfold re_of, extract_reim. destruct (s =? FFT_SIGN); reflexivity. Qed.
Definition dreim (s : Z) : Z := if s =? FFT_SIGN then 1 else -1.
Lemma dreim_ok s p : snd (snd (extract_reim s p)) - snd (fst (extract_reim s p)) = dreim s.
Proof. unfold extract_reim, dreim. destruct (s =? FFT_SIGN); cbn; lia. Qed.
Lemma re_inj s p q : re_of s p = re_of s q -> p = q.
Proof.
  unfold re_of, extract_reim. destruct (s =? FFT_SIGN); cbn; auto. intros H. destruct p, q. unfold sh in H. cbn in H.
  injection H as -> H. f_equal. lia.
Qed.
Lemma rdc_celt s m p o : s = -1 \/ s = 1 ->
  rdc m (re_of s p, sh (re_of s p) (dreim s)) (2 * o) = if s =? -1 then celt m p o else swapc (celt m p o).
Proof.
  intros [->| ->]; unfold re_of, extract_reim, dreim, FFT_SIGN, rdc, celt.
  - change (-1 =? -1) with true. cbv iota. cbn [fst snd]. rewrite !sh_sh. now rewrite (Z.add_comm 1).
  - change (1 =? -1) with false. cbv iota. cbn [fst snd swapc]. rewrite !sh_sh.
    replace (1 + (-1 + 2 * o)) with (2 * o) by ring. now rewrite (Z.add_comm 1).
Qed.
Lemma reim_cases s p : s = -1 \/ s = 1 ->
  (re_of s p = p /\ sh (re_of s p) (dreim s) = sh p 1) \/ (re_of s p = sh p 1 /\ sh (re_of s p) (dreim s) = p).
Proof.
  intros [->| ->]; [left|right]; unfold re_of, extract_reim, dreim, FFT_SIGN.
  - change (-1 =? -1) with true. auto.
  - change (1 =? -1) with false. cbv iota. cbn [fst]. split; auto. rewrite sh_sh. apply sh_0.
Qed.
Lemma in_array_loc s p t l : s = -1 \/ s = 1 ->
  in_loc (re_of s p, sh (re_of s p) (dreim s)) (scl 2 2 t) l <-> in_array p t l.
Proof.
  intros Hs. unfold in_loc, in_array. cbn [fst snd].
  assert (E : forall ks, (l = sh (re_of s p) (ioff (scl 2 2 t) ks) \/ l = sh (sh (re_of s p) (dreim s)) (ioff (scl 2 2 t) ks)) <->
    (l = sh p (2 * ioff t ks) \/ l = sh p (2 * ioff t ks + 1))).
  { intros ks. rewrite scl_ioff. destruct (reim_cases s p Hs) as [[-> ->]|[-> ->]]; rewrite !sh_sh, (Z.add_comm 1); tauto. }
  split; intros (ks & Hk & H); exists ks; rewrite scl_box in *; split; auto; now apply E.
Qed.
Lemma out_array_loc s p t l : s = -1 \/ s = 1 ->
  out_loc (re_of s p, sh (re_of s p) (dreim s)) (scl 2 2 t) l <-> out_array p t l.
Proof.
  intros Hs. unfold out_loc, out_array. cbn [fst snd].
  assert (E : forall ks, (l = sh (re_of s p) (ooff (scl 2 2 t) ks) \/ l = sh (sh (re_of s p) (dreim s)) (ooff (scl 2 2 t) ks)) <->
    (l = sh p (2 * ooff t ks) \/ l = sh p (2 * ooff t ks + 1))).
  { intros ks. rewrite scl_ooff. destruct (reim_cases s p Hs) as [[-> ->]|[-> ->]]; rewrite !sh_sh, (Z.add_comm 1); tauto. }
  split; intros (ks & Hk & H); exists ks; rewrite scl_box in *; split; auto; now apply E.
Qed.

Lemma good_interleaved s dims hm inp out : s = -1 \/ s = 1 ->
  Forall (fun d => 0 < dn d) dims -> Forall (fun d => 0 <= dn d) hm ->
  distinct_indices (dims ++ hm) -> same_or_disjoint (dims ++ hm) inp out ->
  good_arrays (scl 2 2 dims) (scl 2 2 hm) (re_of s inp, sh (re_of s inp) (dreim s)) (re_of s out, sh (re_of s out) (dreim s)).
Proof.
  intros Hs H1 H2 [D1 D2] H4.
  assert (Hd : dreim s = 1 \/ dreim s = -1) by (unfold dreim; destruct (s =? FFT_SIGN); auto).
  constructor.
  - unfold scl. rewrite Forall_map. exact H1.
  - unfold scl. rewrite Forall_map. exact H2.
  - rewrite <- scl_app. split; intros ks js; rewrite !scl_box, !scl_ioff; intros Hk Hj E.
    + apply D1; auto. lia.
    + cbn [fst snd] in E. rewrite sh_sh in E. apply sh_inj in E. lia.
  - rewrite <- scl_app. split; intros ks js; rewrite !scl_box, !scl_ooff; intros Hk Hj E.
    + apply D2; auto. lia.
    + cbn [fst snd] in E. rewrite sh_sh in E. apply sh_inj in E. lia.
  - destruct H4 as [->|H4]; [now left|right]. intros l. rewrite <- scl_app, in_array_loc, out_array_loc by auto. apply H4.
Qed.

(** What every plan for an interleaved problem does. *)
Lemma interleaved_exec qs s flags dims hm inp out p : qsort_perm qs -> s = -1 \/ s = 1 ->
  mkapiplan_dft qs s flags (scl 2 2 dims) (scl 2 2 hm) (fst (extract_reim s inp)) (snd (extract_reim s inp))
        (fst (extract_reim s out)) (snd (extract_reim s out)) (Some p) ->
  Forall (fun d => 0 < dn d) dims -> Forall (fun d => 0 <= dn d) hm ->
  distinct_indices (dims ++ hm) -> sign_consistent (inp = out) (dims ++ hm) ->
  forall nx in2 out2 m, (inp = out <-> in2 = out2) ->
    (fst in2 < nx)%nat -> (fst out2 < nx)%nat -> same_or_disjoint (dims ++ hm) in2 out2 ->
    transforms s dims hm in2 out2 m (execute_dft p nx in2 out2 m) /\
    (forall l, (fst l < nx)%nat -> ~ out_array out2 (dims ++ hm) l ->
       (flagset (PLNR_L flags) NO_DESTROY_INPUT = true \/ ~ in_array in2 (dims ++ hm) l) ->
       execute_dft p nx in2 out2 m l = m l).
Proof.
  intros Hq Hs Hp H1 H2 H3 H4 nx in2 out2 m Hio Hi Ho Hov.
  inversion Hp as [|f ip B1 B2 Eip Hip Hc]; subst p. rewrite !dreim_ok in Hc.
  fold (re_of s inp) (re_of s out) in *.
  assert (Hx : execute_dft (mkap s f (re_of s inp) (re_of s out)) nx in2 out2 m = f nx (re_of s in2) (re_of s out2) m).
  { unfold execute_dft. cbn [ap_sign ap_apply]. unfold re_of, extract_reim. destruct (s =? FFT_SIGN); reflexivity. }
  rewrite Hx. clear Hx.
  assert (Eip1 : ip = true -> inp = out).
  { intros E. apply Hip in E as [E _]. now apply re_inj in E. }
  assert (Eip2 : ip = false -> inp <> out).
  { intros E ->. rewrite E in Eip. symmetry in Eip. apply orb_false_iff in Eip as [Eip _]. unfold loc_same in Eip.
    rewrite Nat.eqb_refl, Z.eqb_refl in Eip. discriminate. }
  destruct (split_exec qs (flagset (PLNR_L flags) NO_DESTROY_INPUT) ip (dreim s) (dreim s) (scl 2 2 dims) (scl 2 2 hm) f Hq Hc)
    with (nx := nx) (I := re_of s in2) (O := re_of s out2) (m := m) as [T F].
  - rewrite <- scl_app. apply scl_sign; try lia. destruct H4 as (a & b & Ha & Hb & Hab & HF). exists a, b. repeat split; auto.
  - now rewrite reim_blk.
  - now rewrite reim_blk.
  - now apply good_interleaved.
  - intros E. f_equal. apply Hio. auto.
  - intros E Q. injection Q as Q _. apply re_inj in Q. apply Eip2 in E. apply E. now apply Hio.
  - split.
    + intros vs ks Hv Hk. specialize (T vs ks). rewrite !scl_box in T. specialize (T Hv Hk).
      rewrite !scl_ooff, !scl_ioff, scl_mdft in T. replace (2 * ooff hm vs + 2 * ooff dims ks) with (2 * (ooff hm vs + ooff dims ks)) in T by ring.
      rewrite rdc_celt in T by auto. cbn beta in T.
      assert (EE : (fun o => rdc m (re_of s in2, sh (re_of s in2) (dreim s)) (2 * ioff hm vs + 2 * o)) =
        (fun o => if s =? -1 then celt m in2 (ioff hm vs + o) else swapc (celt m in2 (ioff hm vs + o)))).
      { apply FunctionalExtensionality.functional_extensionality. intros o. rewrite <- rdc_celt by auto. f_equal. ring. }
      apply eq_trans with (2 := f_equal (fun g => mdft dims g ks) EE) in T. cbn beta in T. clear EE. destruct Hs as [->| ->]; cbn [Z.eqb] in T.
      * now rewrite sdft_fwd.
      * rewrite sdft_bwd, <- T. now rewrite swapc_swapc.
    + intros l Hl Q1 Q2. apply F; auto.
      * rewrite <- scl_app, out_array_loc by auto. exact Q1.
      * rewrite <- scl_app, in_array_loc by auto. exact Q2.
Qed.

(** X(execute) runs the plan on the planning arrays. *)
Lemma execute_eq qs s flags sz vec inp out p : s = -1 \/ s = 1 ->
  mkapiplan_dft qs s flags sz vec (fst (extract_reim s inp)) (snd (extract_reim s inp))
        (fst (extract_reim s out)) (snd (extract_reim s out)) (Some p) ->
  forall nx m, execute p nx m = execute_dft p nx inp out m.
Proof.
  intros Hs Hp nx m. inversion Hp; subst. unfold execute, execute_dft. cbn [ap_sign ap_apply ap_ri ap_ro].
  unfold extract_reim. destruct (s =? FFT_SIGN); reflexivity.
Qed.

(** ** Row-major tensors *)
Lemma zr_shift_cons i k : map (fun j => i + j) (zr (Z.of_nat (S k))) = i :: map (fun j => i + 1 + j) (zr (Z.of_nat k)).
Proof.
  replace (Z.of_nat (S k)) with (1 + Z.of_nat k) by lia. rewrite zr_add by lia. rewrite map_app. cbn [zr]. 
  change (zr 1) with [0]. cbn [map app]. f_equal; [lia|]. rewrite map_map. apply map_ext. intros; lia.
Qed.
Lemma rowmajor_from_spec n ei eo is os last k : forall i acc rest, i = last - Z.of_nat (length rest) -> acc = rm_dim n ei eo is os last i :: rest ->
  rowmajor_from k i n ei eo acc = map (fun j => rm_dim n ei eo is os last (i - Z.of_nat k + j)) (zr (Z.of_nat k)) ++ acc.
Proof.
  induction k as [|k IH]; intros i acc rest Hi ->; [reflexivity|].
  cbn [rowmajor_from].
  assert (E : mkdim (n (i - 1)) (dis (rm_dim n ei eo is os last i) * ei i) (dos (rm_dim n ei eo is os last i) * eo i) = rm_dim n ei eo is os last (i - 1)).
  { unfold rm_dim. cbn [dis dos]. replace (Z.to_nat (last - (i - 1))) with (S (Z.to_nat (last - i))) by lia.
    cbn [prodfrom]. replace (i - 1 + 1) with i by ring. f_equal; ring. }
  rewrite E. rewrite (IH (i - 1) _ (rm_dim n ei eo is os last i :: rest)); [|cbn [length]; lia|reflexivity].
  replace (Z.of_nat (S k)) with (Z.of_nat k + 1) by lia. rewrite zr_add by lia. rewrite map_app, <- app_assoc. f_equal.
  - apply map_ext. intros j. f_equal. lia.
  - change (zr 1) with [0]. cbn [map app]. f_equal. f_equal. lia.
Qed.
Lemma rowmajor_spec rnk n ei eo is os : 0 <= rnk ->
  mktensor_rowmajor rnk n ei eo is os = rowmajor rnk n ei eo is os.
Proof.
  change (rowmajor rnk n ei eo is os) with (map (rm_dim n ei eo is os (rnk - 1)) (zr rnk)).
  intros H. unfold mktensor_rowmajor. destruct (Z.leb_spec rnk 0) as [L|L].
  - replace rnk with 0 by lia. reflexivity.
  - rewrite (rowmajor_from_spec n ei eo is os (rnk - 1) _ (rnk - 1) _ []).
    + rewrite Z2Nat.id by lia. replace (zr rnk) with (zr (rnk - 1 + 1)) by (f_equal; ring). rewrite zr_add by lia.
      rewrite map_app. f_equal.
      * apply map_ext. intros j. f_equal. lia.
      * change (zr 1) with [0]. cbn [map]. f_equal. unfold rm_dim. replace (Z.to_nat _) with 0%nat by lia. cbn [prodfrom].
        replace (rnk - 1 + 0) with (rnk - 1) by ring. f_equal; ring.
    + cbn [length]. lia.
    + unfold rm_dim. replace (Z.to_nat (rnk - 1 - (rnk - 1))) with 0%nat by lia. cbn [prodfrom]. f_equal. f_equal; ring.
Qed.
Lemma horner_acc e i a ks : horner e i a ks = a * prodfrom e i (length ks) + horner e i 0 ks.
Proof.
  revert i a. induction ks as [|k ks IH]; intros i a; cbn [horner length prodfrom]; [ring|].
  rewrite IH. rewrite (IH (i + 1) (0 * e i + k)). ring.
Qed.
Lemma rm_ioff n ei eo is os last : forall (cnt : nat) i ks, last = i + Z.of_nat cnt - 1 -> length ks = cnt ->
  ioff (map (rm_dim n ei eo is os last) (map (fun j => i + j) (zr (Z.of_nat cnt)))) ks = is * horner ei i 0 ks /\
  ooff (map (rm_dim n ei eo is os last) (map (fun j => i + j) (zr (Z.of_nat cnt)))) ks = os * horner eo i 0 ks.
Proof.
  induction cnt as [|cnt IH]; intros i ks Hl Hk.
  - destruct ks; [|discriminate]. cbn. lia.
  - destruct ks as [|k ks]; [discriminate|]. cbn [length] in Hk. rewrite zr_shift_cons. cbn [map ioff ooff].
    destruct (IH (i + 1) ks) as [I1 I2]; [lia|lia|]. rewrite I1, I2. cbn [rm_dim dis dos horner].
    rewrite (horner_acc ei (i + 1) (0 * ei i + k)), (horner_acc eo (i + 1) (0 * eo i + k)).
    replace (Z.to_nat (last - i)) with (length ks) by lia. split; ring.
Qed.
Lemma rowmajor_offsets rnk n ei eo is os ks : 0 <= rnk -> Z.of_nat (length ks) = rnk ->
  ioff (rowmajor rnk n ei eo is os) ks = is * horner ei 0 0 ks /\
  ooff (rowmajor rnk n ei eo is os) ks = os * horner eo 0 0 ks.
Proof.
  intros H Hk. change (rowmajor rnk n ei eo is os) with (map (rm_dim n ei eo is os (rnk - 1)) (zr rnk)).
  pose proof (rm_ioff n ei eo is os (rnk - 1) (length ks) 0 ks) as Q.
  rewrite <- Hk. rewrite <- Hk in Q. replace (map (fun j => 0 + j) (zr (Z.of_nat (length ks)))) with (zr (Z.of_nat (length ks))) in Q.
  - apply Q; auto.
  - symmetry. rewrite <- (map_id (zr (Z.of_nat (length ks)))) at 2. apply map_ext. intros; lia.
Qed.
Lemma rowmajor_scale rnk n ei eo is os a b : 0 <= rnk ->
  mktensor_rowmajor rnk n ei eo (a * is) (b * os) = scl a b (rowmajor rnk n ei eo is os).
Proof.
  intros H. rewrite !rowmajor_spec by auto. unfold scl, rowmajor. set (l := map Z.of_nat (seq 0 (Z.to_nat rnk))). rewrite map_map. apply map_ext. intros i. unfold rm_dim, dim_scale. cbn [dn dis dos].
  f_equal; ring.
Qed.
Lemma rowmajor_box rnk n ei eo is os ks : 0 <= rnk ->
  in_box (rowmajor rnk n ei eo is os) ks <->
  Z.of_nat (length ks) = rnk /\ forall i, (i < length ks)%nat -> 0 <= nth i ks 0 < n (Z.of_nat i).
Proof.
  intros H. change (rowmajor rnk n ei eo is os) with (map (rm_dim n ei eo is os (rnk - 1)) (zr rnk)).
  assert (Q : forall cnt i ks, in_box (map (rm_dim n ei eo is os (rnk - 1)) (map (fun j => i + j) (zr (Z.of_nat cnt)))) ks <->
     length ks = cnt /\ forall q, (q < length ks)%nat -> 0 <= nth q ks 0 < n (i + Z.of_nat q)).
  { induction cnt as [|cnt IH]; intros i l.
    - cbn. destruct l; cbn; split; try easy; intros [E _]; discriminate.
    - rewrite zr_shift_cons. cbn [map in_box]. destruct l as [|k l]; [split; [easy|intros [E _]; discriminate]|].
      rewrite IH. cbn [length dn rm_dim]. split.
      + intros [Hk [Hl Hq]]. split; [lia|]. intros [|q] Hlt; cbn [nth].
        * rewrite Z.add_0_r. exact Hk.
        * replace (i + Z.of_nat (S q)) with (i + 1 + Z.of_nat q) by lia. apply Hq. lia.
      + intros [Hl Hq]. split; [|split; [lia|]].
        * specialize (Hq 0%nat ltac:(lia)). cbn [nth] in Hq. now rewrite Z.add_0_r in Hq.
        * intros q Hlt. specialize (Hq (S q) ltac:(lia)). cbn [nth] in Hq. now replace (i + 1 + Z.of_nat q) with (i + Z.of_nat (S q)) by lia. }
  specialize (Q (Z.to_nat rnk) 0 ks). rewrite Z2Nat.id in Q by auto.
  replace (map (fun j => 0 + j) (zr rnk)) with (zr rnk) in Q by (symmetry; rewrite <- (map_id (zr rnk)) at 2; apply map_ext; intros; lia).
  rewrite Q. split; intros [E1 E2]; (split; [lia|exact E2]).
Qed.
