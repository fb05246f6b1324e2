(** * Every plan for an r2c or c2r problem computes the transform *)
From Coq Require Import Reals ZArith List Lia Bool Permutation.
From Verif Require Import NumTheory Cplx Spec SpecR2R Base PrimesModel TensorModel Offs TensorProofs XForm XKern XSeq CopyModel CopyProofs
  Rank0Model Rank0Proofs DftModel RdftModel R2Model DftTw DftTw2 DftComp DftSplit DftPrime DftProofs XPar
  RSum RdftX RdftLib RdftCanon RdftProofs IForm R2X R2Lib R2Row R2Rank2.
Import ListNotations.
Open Scope Z_scope.

(** signs of the strides on the complex side; those on the real side do not matter *)
Definition sgc (c2r : bool) (s : Z) (t : list iodim) : Prop := sgn (if c2r then s else 0) (if c2r then 0 else s) t.
Definition sgc1 (c2r : bool) (s : Z) (t : list iodim) : Prop := sgn1 (if c2r then s else 0) (if c2r then 0 else s) t.
Definition R2P (nd ip c2r : bool) (dr dc : Z) (outer : list iodim) (row : iodim) (vec : list iodim) (f : rapply) : Prop :=
  0 < dn row -> no1 outer -> no1 vec -> (ip = true -> eqst outer) ->
  forall s, sign_ok s -> sgc c2r s outer -> sgc c2r s vec -> (dn row <> 1 -> 0 <= s * cstr c2r row) ->
  forall fp0, incl (rcells (dn row) dr (rstr c2r row)) fp0 -> incl (locs [(2, dc); (nc (dn row), cstr c2r row)]) fp0 ->
  CG ip nd (xr2 c2r dr dc outer row) (lplus fp0 (locs (ti outer))) vec f.
Definition R2Pch (nd ip c2r : bool) (dr dc : Z) (outer : list iodim) (row : iodim) (vec : list iodim) (f : rapply) : Prop :=
  0 < dn row -> posd outer -> nnegd vec -> (ip = true -> same_strides outer) ->
  forall s, sign_ok s -> sgc1 c2r s outer -> sgc1 c2r s vec -> (dn row <> 1 -> 0 <= s * cstr c2r row) ->
  forall fp0, incl (rcells (dn row) dr (rstr c2r row)) fp0 -> incl (locs [(2, dc); (nc (dn row), cstr c2r row)]) fp0 ->
  CG ip nd (xr2 c2r dr dc outer row) (lplus fp0 (locs (ti outer))) vec f.

Lemma no1_ss_eqst t : no1 t -> same_strides t -> eqst t.
Proof.
  intros H1 H2. apply Forall_forall. intros d Hd. unfold no1, same_strides in *. rewrite Forall_forall in H1, H2.
  specialize (H1 d Hd). destruct (H2 d Hd); auto. lia.
Qed.
Lemma tornk1_ss vec v ivs ovs a b : tensor_tornk1 vec = Some (v, ivs, ovs) -> sgn a b vec -> 0 <= a * ivs /\ 0 <= b * ovs.
Proof.
  intros H S. destruct vec as [|d [|? ?]]; cbn in H; [|injection H as <- <- <-|discriminate].
  - injection H as <- <- <-. lia.
  - inversion S; subst. auto.
Qed.
Lemma ss_firstn k t : same_strides t -> same_strides (firstn k t) /\ same_strides (skipn k t).
Proof. intros H. rewrite <- (firstn_skipn k t) in H. now apply Forall_app in H. Qed.

Lemma r2_empty_correct qs ip nd X fp vec : tensor_compress_contiguous qs vec = None -> nnegd vec ->
  CG ip nd X fp vec (fun _ _ _ m => m).
Proof.
  intros H N. apply compress_contiguous_None in H. pose proof (tensor_sz_0_offs vec N H) as E.
  destruct ip; cbn [CG].
  - intros nx I m _. split; [|intros l _ _ _; reflexivity]. intros p q Hp. now rewrite E in Hp.
  - intros nx I O m _. split; [|intros l _ _ _; reflexivity]. intros p q Hp. now rewrite E in Hp.
Qed.
Lemma eqst_perm t u : Permutation t u -> eqst t -> eqst u.
Proof. unfold eqst. intros P. now rewrite P. Qed.
Lemma nnegd_perm t u : Permutation t u -> nnegd t -> nnegd u.
Proof. unfold nnegd. intros P. now rewrite P. Qed.
Lemma CG_vperm ip nd X fp vec vec' f : Permutation vec vec' -> CG ip nd X fp vec' f -> CG ip nd X fp vec f.
Proof.
  intros P. apply CG_sim; [apply xsim_refl|now apply offs_perm|reflexivity|now apply nnegd_perm|intros _; now apply eqst_perm].
Qed.
Lemma nbuf_pos' n vl maxnb : maxnb = 0 \/ 0 < maxnb -> 0 < vl -> 0 < nbuf n vl maxnb.
Proof.
  intros [->|H] Hv; [|now apply nbuf_pos]. change (nbuf n vl 0) with (nbuf n vl 256). apply nbuf_pos; lia.
Qed.
Lemma nnegd1 n a b : 0 <= n -> nnegd [mkdim n a b].
Proof. intros. repeat constructor. exact H. Qed.

Section Main.
  Context (qs : qsort_t) (Hq : qsort_perm qs).

  Lemma dft_child nd di do_ sz vec a b f : child qs nd false di do_ sz vec f -> posd sz -> nnegd vec -> sign_ok a -> sign_ok b ->
    sgn1 a b sz -> sgn1 a b vec -> Correct nd false (cx di do_ sz) vec f.
  Proof.
    intros H P N Ha Hb S1 S2. destruct (proj2 (proj2 (planned_correct qs Hq)) _ _ _ _ _ _ _ H P N) as [_ K].
    apply (K a b); auto. discriminate.
  Qed.
  Lemma dft_child_ip nd di sz vec a f : child qs nd true di di sz vec f -> posd sz -> nnegd vec -> sign_ok a ->
    sgn1 a a sz -> sgn1 a a vec -> Correct nd true (cx di di sz) vec f.
  Proof.
    intros H P N Ha S1 S2. destruct (proj2 (proj2 (planned_correct qs Hq)) _ _ _ _ _ _ _ H P N) as [_ K].
    apply (K a a); auto.
  Qed.
  Lemma rdft_child nd sz vec f : rchild qs nd false sz vec f -> rpos_d sz -> nnegd vec -> Correct nd false (rx sz) vec f.
  Proof.
    intros H P N. destruct (proj2 (proj2 (rplanned_correct qs Hq)) _ _ _ _ _ H P N) as [_ K]. apply K. unfold okip. discriminate.
  Qed.

  Lemma rest_rem vl nb : 0 < vl -> 0 < nb -> 0 <= Z.rem vl nb.
  Proof. intros. apply Z.rem_nonneg; lia. Qed.

  Theorem r2planned_correct :
    (forall nd ip c2r dr dc outer row vec f, r2planned qs nd ip c2r dr dc outer row vec f -> R2P nd ip c2r dr dc outer row vec f) /\
    (forall nd ip c2r dr dc outer row vec f, r2child qs nd ip c2r dr dc outer row vec f -> R2Pch nd ip c2r dr dc outer row vec f).
  Proof.
    apply r2planned_ind2.
    - (* nop *)
      intros nd dr dc row vec E _ Hn _ _ _ s Hs So Sv Hr fp0 I1 I2. cbn [CG xr2]. rewrite E. apply nop2_correct.
    - (* rank 0, out of place *)
      intros nd dr dc row vec vl ivs ovs E ET Hn _ N1 _ s Hs So Sv Hr fp0 I1 I2. apply (CG_tornk1 _ _ _ _ _ _ _ _ _ ET).
      cbn [CG xr2]. rewrite E. apply rank0_r2hc_correct. now apply (tornk1_pos _ _ _ _ ET).
    - (* rank 0, in place *)
      intros nd dr dc row vec vl ivs ovs E ET _ Hn _ N1 _ s Hs So Sv Hr fp0 I1 I2. apply (CG_tornk1 _ _ _ _ _ _ _ _ _ ET).
      cbn [CG xr2]. rewrite E. destruct (Z.eq_dec ivs ovs) as [->|NE]; [apply rank0_r2hc_inplace_correct|].
      apply CorrectI_vac. intros Q. inversion Q; subst. cbn in *. contradiction.
    - (* rank 0, HC2R *)
      intros nd ip dr dc row vec f E Hc Hn _ N1 _ s Hs So Sv Hr fp0 I1 I2. cbn [xr2]. rewrite E.
      assert (P : rpos_d []) by constructor. assert (NN : nnegd vec) by now apply posd_nneg, no1_pos.
      destruct (proj2 (proj2 (rplanned_correct qs Hq)) _ _ _ _ _ Hc P NN) as [_ K].
      apply rank0_hc2r_correct; intros; subst ip; apply K; intros _; left; constructor.
    - (* direct *)
      intros nd ip c2r dr dc row vec vl ivs ovs E ET _ Hn _ N1 _ s Hs So Sv Hr fp0 I1 I2. apply (CG_tornk1 _ _ _ _ _ _ _ _ _ ET).
      now apply direct2_correct.
    - (* vrank *)
      intros nd ip c2r dr dc outer row vec i d f EN _ _ IH Hn N1 N2 He s Hs So Sv Hr fp0 I1 I2.
      pose proof (copy_except_perm _ _ _ EN) as P. apply (CG_vperm _ _ _ _ _ _ _ P).
      replace d with (mkdim (dn d) (dis d) (dos d)) at 1 by now destruct d. apply CG_loop; [apply xr2_wf|].
      apply (IH Hn) with (s := s); auto.
      + now apply no1_pos.
      + eapply nnegd_perm in P; [|apply posd_nneg, no1_pos, N2]. now inversion P.
      + intros E. apply eqst_ss. auto.
      + now apply sgn_sgn1.
      + apply sgn_sgn1. now apply sgn_except.
    - (* threads *)
      intros nd ip c2r dr dc outer row vec i d nthr fs ord Hth EN _ Hpl IH Pord Hn N1 N2 He s Hs So Sv Hr fp0 I1 I2.
      pose proof (copy_except_perm _ _ _ EN) as P. apply (CG_vperm _ _ _ _ _ _ _ P).
      assert (PN : nnegd (d :: tensor_copy_except vec i)) by (eapply nnegd_perm; [exact P|apply posd_nneg, no1_pos, N2]).
      assert (Hd : 1 < dn d). { unfold no1 in N2. rewrite Forall_forall in N2. apply N2. eapply nth_error_In; eauto. }
      replace d with (mkdim (dn d) (dis d) (dos d)) at 1 by now destruct d. apply CG_cut; auto; try lia; [apply xr2_wf|].
      intros j Hj.
      pose proof (set_nth_perm vec i d (mkdim (thr_cnt (dn d) nthr j) (dis d) (dos d)) EN) as PS.
      apply (CG_vperm _ _ _ _ _ _ _ (Permutation_sym PS)).
      assert (Hcnt : 0 <= thr_cnt (dn d) nthr j) by (pose proof (thr_block (dn d) nthr j ltac:(lia) ltac:(lia) Hj); lia).
      apply (IH j Hj Hn) with (s := s); auto.
      + now apply no1_pos.
      + eapply nnegd_perm; [symmetry; exact PS|]. inversion PN; subst. constructor; auto.
      + intros E. apply eqst_ss. auto.
      + now apply sgn_sgn1.
      + apply sgn_sgn1. eapply sgn_perm; [symmetry; exact PS|]. eapply sgn_perm in Sv; [|exact P]. inversion Sv; subst. constructor; auto.
    - (* rank >= 2, R2HC *)
      intros nd ip dr dc outer row vec k f1 f2 Hk _ IH Hc Hn N1 N2 He s Hs So Sv Hr fp0 I1 I2. cbn [xr2 cstr rstr] in *.
      set (A := firstn k outer) in *. set (B := skipn k outer) in *.
      assert (EO : outer = A ++ B) by (symmetry; apply firstn_skipn).
      assert (PO : posd A /\ posd B) by (apply Forall_app; rewrite <- EO; now apply no1_pos). destruct PO as [PA PB].
      assert (SO : sgc false s A /\ sgc false s B) by (unfold sgc in *; apply Forall_app; rewrite <- EO; exact So). destruct SO as [SA SB].
      rewrite EO. rewrite nc_quot in Hc by auto.
      apply (rank2_r2hc_correct ip nd nd); auto.
      + intros E. rewrite <- EO. auto.
      + apply (IH Hn) with (s := s); auto.
        * apply nnegd_app. split; [apply posd_nneg, no1_pos, N2|now apply posd_nneg].
        * intros E. apply eqst_ss. specialize (He E). rewrite EO in He. now apply Forall_app in He.
        * now apply sgn_sgn1.
        * apply sgn1_app. split; now apply sgn_sgn1.
      + apply (dft_child_ip _ _ _ _ s _ Hc); auto.
        * now apply posd_inplace.
        * rewrite !nnegd_app. split; [apply copy_inplace_nneg, posd_nneg, no1_pos, N2|]. split; [now apply copy_inplace_nneg, posd_nneg|].
          apply nnegd1. pose proof (nc_in (dn row) 0). lia.
        * apply sgn_sgn1. now apply (sgn_os 0).
        * rewrite !sgn1_app. split; [apply sgn_sgn1; now apply (sgn_os 0)|]. split; [apply sgn_sgn1; now apply (sgn_os 0)|].
          repeat constructor; cbn [dis dos]; cbn [dn] in *; apply Hr; intros E; apply H; rewrite E; reflexivity.
    - (* rank >= 2, HC2R *)
      intros nd ip dr dc outer row vec k f1 f2 Hk Hd _ IH Hc Hn N1 N2 He s Hs So Sv Hr fp0 I1 I2. cbn [xr2 cstr rstr] in *.
      set (A := firstn k outer) in *. set (B := skipn k outer) in *.
      assert (EO : outer = A ++ B) by (symmetry; apply firstn_skipn).
      assert (PO : posd A /\ posd B) by (apply Forall_app; rewrite <- EO; now apply no1_pos). destruct PO as [PA PB].
      assert (SO : sgc true s A /\ sgc true s B) by (unfold sgc in *; apply Forall_app; rewrite <- EO; exact So). destruct SO as [SA SB].
      rewrite EO. rewrite nc_quot in Hc by auto.
      apply (rank2_hc2r_correct ip nd nd); auto.
      + intros E. rewrite <- EO. auto.
      + apply (IH Hn) with (s := s); auto.
        * apply nnegd_app. split; [apply posd_nneg, no1_pos, N2|now apply posd_nneg].
        * intros E. apply eqst_ss. specialize (He E). rewrite EO in He. now apply Forall_app in He.
        * now apply sgn_sgn1.
        * apply sgn1_app. split; now apply sgn_sgn1.
      + apply (dft_child_ip _ _ _ _ s _ Hc); auto.
        * now apply posd_inplace.
        * rewrite !nnegd_app. split; [apply copy_inplace_nneg, posd_nneg, no1_pos, N2|]. split; [now apply copy_inplace_nneg, posd_nneg|].
          apply nnegd1. pose proof (nc_in (dn row) 0). lia.
        * apply sgn_sgn1. now apply (sgn_is _ 0).
        * rewrite !sgn1_app. split; [apply sgn_sgn1; now apply (sgn_is _ 0)|]. split; [apply sgn_sgn1; now apply (sgn_is _ 0)|].
          repeat constructor; cbn [dis dos]; cbn [dn] in *; apply Hr; intros E; apply H; rewrite E; reflexivity.
    - (* rdft, R2HC *)
      intros nd ip dr dc row vec vl ivs ovs nb bd f fr E ET Hdr -> -> Hmax Hc _ IH Hn _ N1 _ s Hs So Sv Hr fp0 I1 I2.
      pose proof (tornk1_pos _ _ _ _ ET N1) as Hvl. destruct (tornk1_ss _ _ _ _ _ _ ET Sv) as [Sa Sb].
      set (nb := r2r_nbuf false ip dc row vec vl) in *.
      assert (Hnb : 0 < nb) by (unfold nb, r2r_nbuf; pose proof (nbuf_pos' (dn row) vl 0 (or_introl eq_refl) Hvl); lia).
      apply (CG_tornk1 _ _ _ _ _ _ _ _ _ ET). cbn [xr2 rstr cstr] in *.
      apply r2r_r2hc_correct; auto; try lia.
      + apply bufdist_ge. lia.
      + replace (Z.quot (dis row) 2) with dr in Hc by (rewrite <- Hdr, Z.mul_comm, Z.quot_mul; lia).
        apply (rdft_child _ _ _ _ Hc); [repeat constructor; exact Hn|apply nnegd1; lia].
      + apply (IH Hn) with (s := s); auto; try (now constructor); try (apply nnegd1; now apply rest_rem); repeat constructor; cbn [dis dos]; auto.
    - (* rdft, HC2R *)
      intros nd ip dr dc row vec vl ivs ovs nb bd f fr E ET Hdr -> -> Hmax Hc _ IH Hn _ N1 _ s Hs So Sv Hr fp0 I1 I2.
      pose proof (tornk1_pos _ _ _ _ ET N1) as Hvl. destruct (tornk1_ss _ _ _ _ _ _ ET Sv) as [Sa Sb].
      set (nb := r2r_nbuf true ip dc row vec vl) in *.
      assert (Hnb : 0 < nb) by (unfold nb, r2r_nbuf; pose proof (nbuf_pos' (dn row) vl 0 (or_introl eq_refl) Hvl); lia).
      apply (CG_tornk1 _ _ _ _ _ _ _ _ _ ET). cbn [xr2 rstr cstr] in *.
      apply r2r_hc2r_correct; auto; try lia.
      + apply bufdist_ge. lia.
      + replace (Z.quot (dos row) 2) with dr in Hc by (rewrite <- Hdr, Z.mul_comm, Z.quot_mul; lia).
        apply (rdft_child _ _ _ _ Hc); [repeat constructor; exact Hn|apply nnegd1; lia].
      + apply (IH Hn) with (s := s); auto; try (now constructor); try (apply nnegd1; now apply rest_rem); repeat constructor; cbn [dis dos]; auto.
    - (* buffered, R2HC *)
      intros nd ip dr dc row vec vl ivs ovs maxnb nb bd roffset fb fc fr E Hev ET Hmx -> -> Hmax -> _ _ IHb Hc _ IHr Hn _ N1 _ s Hs So Sv Hr fp0 I1 I2.
      pose proof (tornk1_pos _ _ _ _ ET N1) as Hvl. destruct (tornk1_ss _ _ _ _ _ _ ET Sv) as [Sa Sb].
      set (nb := nbuf (dn row) vl maxnb) in *. set (bd := bufdist (dn row + 2) vl) in *. set (ro := if dc <? 0 then 1 else 0) in *.
      assert (Hnb : 0 < nb) by (apply nbuf_pos; lia).
      assert (Hbd : dn row + 2 <= bd) by (apply bufdist_ge; lia).
      assert (He : 1 - 2 * ro = 1 \/ 1 - 2 * ro = -1) by (unfold ro; destruct (dc <? 0); lia).
      assert (Hnc : nc (dn row) * 2 = dn row + 2).
      { destruct (nc_half (dn row) Hn) as [-> [[_ Q]|[Q1 Q]]]; [lia|]. rewrite Z.rem_mod_nonneg in Hev by lia. lia. }
      apply (CG_tornk1 _ _ _ _ _ _ _ _ _ ET). cbn [xr2 rstr cstr] in *. rewrite nc_quot in Hc by auto.
      apply (buf2_r2hc_correct ip nd nd dr dc (1 - 2 * ro) ro (dn row) (dis row) (dos row) vl ivs ovs nb bd); auto; try lia.
      + refine (IHb Hn _ _ _ 1 (or_introl eq_refl) _ _ _ _ (incl_appl _ (incl_refl _)) (incl_appr _ (incl_refl _))); try (now constructor).
        * apply nnegd1; lia.
        * repeat constructor; cbn [dis dos]; lia.
        * intros _. cbn. lia.
      + apply (dft_child _ _ _ _ _ 1 s _ Hc); auto; try (now constructor).
        * repeat constructor; cbn [dn]; lia.
        * constructor; [|constructor; [|constructor]]; cbn [dis dos dn]; intros Q; (split; [lia|]); auto.
      + apply (IHr Hn) with (s := s); auto; try (now constructor); try (apply nnegd1; now apply rest_rem); repeat constructor; cbn [dis dos]; auto.
    - (* buffered, HC2R *)
      intros nd ip dr dc row vec vl ivs ovs maxnb nb bd roffset fb fc fr E Hev ET Hmx -> -> Hmax -> _ _ IHb Hc _ IHr Hn _ N1 _ s Hs So Sv Hr fp0 I1 I2.
      pose proof (tornk1_pos _ _ _ _ ET N1) as Hvl. destruct (tornk1_ss _ _ _ _ _ _ ET Sv) as [Sa Sb].
      set (nb := nbuf (dn row) vl maxnb) in *. set (bd := bufdist (dn row + 2) vl) in *. set (ro := if dc <? 0 then 1 else 0) in *.
      assert (Hnb : 0 < nb) by (apply nbuf_pos; lia).
      assert (Hbd : dn row + 2 <= bd) by (apply bufdist_ge; lia).
      assert (He : 1 - 2 * ro = 1 \/ 1 - 2 * ro = -1) by (unfold ro; destruct (dc <? 0); lia).
      assert (Hnc : nc (dn row) * 2 = dn row + 2).
      { destruct (nc_half (dn row) Hn) as [-> [[_ Q]|[Q1 Q]]]; [lia|]. rewrite Z.rem_mod_nonneg in Hev by lia. lia. }
      apply (CG_tornk1 _ _ _ _ _ _ _ _ _ ET). cbn [xr2 rstr cstr] in *. rewrite nc_quot in Hc by auto.
      apply (buf2_hc2r_correct ip nd nd dr dc (1 - 2 * ro) ro (dn row) (dos row) (dis row) vl ivs ovs nb bd); auto; try lia.
      + intros ->. reflexivity.
      + refine (IHb Hn _ _ _ 1 (or_introl eq_refl) _ _ _ _ (incl_appl _ (incl_refl _)) (incl_appr _ (incl_refl _))); try (now constructor).
        * apply nnegd1; lia.
        * repeat constructor; cbn [dis dos]; lia.
        * intros _. cbn. lia.
      + apply (dft_child _ _ _ _ _ s 1 _ Hc); auto; try (now constructor).
        * repeat constructor; cbn [dn]; lia.
        * constructor; [|constructor; [|constructor]]; cbn [dis dos dn]; intros Q; (split; [|lia]); auto.
      + apply (IHr Hn) with (s := s); auto; try (now constructor); try (apply nnegd1; now apply rest_rem); repeat constructor; cbn [dis dos]; auto.
    - (* empty *)
      intros nd ip c2r dr dc outer row vec E Hn Po Nv _ s _ _ _ _ fp0 _ _. now apply (r2_empty_correct qs).
    - (* child *)
      intros nd ip c2r dr dc outer row vec vec' f EV _ IH Hn Po Nv Hss s Hs So Sv Hr fp0 I1 I2.
      assert (Pt : Permutation (locs (ti outer)) (locs (ti (tensor_compress qs outer)))).
      { rewrite <- !ilocs_offs. apply Permutation_map. now apply tensor_compress_offs. }
      pose proof (compress_contiguous_no1 qs vec vec' Hq Nv EV) as NV. destruct (compress_contiguous_offs qs vec vec' Hq Nv EV) as [PV _].
      apply (CG_sim ip nd _ (xr2 c2r dr dc (tensor_compress qs outer) row) _ (lplus fp0 (locs (ti (tensor_compress qs outer)))) _ vec'); auto.
      + apply xsim_xr2; auto; [now apply tensor_compress_offs|now apply tensor_compress_sim].
      + now apply lplus_perm_r.
      + intros _. now apply posd_nneg, no1_pos.
      + intros _ Hev. apply no1_ss_eqst; auto. apply eqst_ss in Hev. exact (ss_compress_contiguous qs _ _ Hq Hev EV).
      + apply (IH Hn) with (s := s); auto.
        * apply Forall_forall. intros d Hd. pose proof (tensor_compress_no1 qs outer d Hq Hd). pose proof (tensor_compress_pos qs outer Hq Po) as PP. unfold posd in PP. rewrite Forall_forall in PP. specialize (PP d Hd). lia.
        * intros E. unfold tensor_compress. eapply eqst_perm; [now apply canonicalize_perm|]. apply ss_really. auto.
        * now apply sgn1_compress.
        * eapply sgn1_compress_contiguous; eauto.
  Qed.
End Main.
