(** * Every plan for a rank-0 real problem is a correct copy (proofs). *)
From Coq Require Import Reals ZArith List Lia Bool Permutation.
From Verif Require Import NumTheory Cplx Spec Base PrimesModel TensorModel Offs TensorProofs XForm XKern XSeq
  CopyModel CopyProofs CopyBounds TransProofs Rank0Model Rank0Proofs Rank0Trans Toms513.
Import ListNotations.
Open Scope Z_scope.

Lemma gcd_quot a b : 0 < a -> 0 < b -> let d := cgcd a b in
  0 < d /\ a = d * Z.quot a d /\ b = d * Z.quot b d /\ 0 < Z.quot a d /\ 0 < Z.quot b d.
Proof.
  intros Ha Hb. cbn zeta. rewrite cgcd_gcd by auto.
  assert (Hd : 0 < Z.gcd a b). { pose proof (Z.gcd_nonneg a b). assert (Z.gcd a b <> 0); [|lia]. intros E. apply Z.gcd_eq_0_l in E. lia. }
  destruct (Z.gcd_divide_l a b) as [p Ep], (Z.gcd_divide_r a b) as [q Eq]. set (d := Z.gcd a b) in *. clearbody d.
  assert (Qa : Z.quot a d = p) by (rewrite Ep; apply Z.quot_mul; lia).
  assert (Qb : Z.quot b d = q) by (rewrite Eq; apply Z.quot_mul; lia).
  rewrite Qa, Qb. nia.
Qed.

Lemma nnegd_except vec i : nnegd vec -> nnegd (tensor_copy_except vec i).
Proof.
  unfold nnegd, tensor_copy_except. rewrite !Forall_forall. intros H x Hx. apply H.
  apply in_app_iff in Hx as [Hx|Hx].
  - rewrite <- (firstn_skipn i vec). apply in_app_iff. now left.
  - rewrite <- (firstn_skipn (S i) vec). apply in_app_iff. now right.
Qed.

Theorem rank0_correct qs : qsort_perm qs ->
  (forall ip vec f, rplanned0 qs ip vec f -> no1 vec -> Correct true ip xcopy vec f) /\
  (forall ip vec f, rchild0 qs ip vec f -> nnegd vec ->
     Correct true ip xcopy vec f /\ (ip = true -> Permutation (locs (ti vec)) (locs (to_ vec)))).
Proof.
  intros Hq. apply rplanned0_ind2.
  - (* nop *) intros vec H _. now apply nop_correct.
  - (* rank0 *) intros ip vec vl d f H1 H2 Hp. apply no1_pos in Hp.
    destruct (fill_iodim_spec _ _ _ H1 Hp) as (P & Hv & Hd).
    eapply Correct_sim; [apply xsim_refl|exact P| |].
    + intros _. apply Forall_app. split; [now apply posd_nneg|]. repeat constructor; cbn; lia.
    + now apply rank0_solver_correct.
  - (* vrank *) intros ip vec i d f H1 H2 H3 IH Hp. apply no1_pos, posd_nneg in Hp.
    destruct (IH (nnegd_except _ _ Hp)) as [C S].
    eapply Correct_vperm; [apply copy_except_perm; exact H1|]. destruct d as [n s u].
    apply Correct_loop; [apply xcopy_wf| |exact C]. intros E. split; [now apply H2|]. apply same_set_locs. auto.
  - (* gcd *) intros vec a b vl vs d c1 c2 c3 H1 H2 H3 -> H5 n m En Em H6 C1 H7 IH2 H8 C3 Hp. apply no1_pos in Hp.
    destruct (tr_dims_spec _ _ _ _ _ H1 H2 H3 Hp) as (P & Ha & Hb & Hv).
    destruct (gcd_quot (dn a) (dn b) Ha Hb) as (Hd & Ea & Eb & Pa & Pb). cbn zeta in *.
    set (d := cgcd (dn a) (dn b)) in *. rewrite <- En in Pa, Ea. rewrite <- Em in Pb, Eb. clearbody d. clear En Em.
    eapply Correct_sim; [apply xsim_refl|exact P| |].
    + intros _. unfold Tr. repeat constructor; cbn; lia.
    + rewrite Ea, Eb. assert (0 <= m * vl) by nia. assert (0 <= n * m * vl) by (rewrite <- Z.mul_assoc; nia).
      apply apply_gcd_correct; auto.
      * intros Hn. apply C1; auto. repeat constructor; cbn; lia.
      * apply IH2. repeat constructor; cbn; lia.
      * intros Hm. apply C3; auto. repeat constructor; cbn; nia.
  - (* cut *) intros vec a b vl vs nc mc c1 c2 c3 H1 H2 H3 H4 n m -> -> H6 C1 H7 IH2 H8 C3 Hp. apply no1_pos in Hp.
    destruct (tr_dims_spec _ _ _ _ _ H1 H2 H3 Hp) as (P & Ha & Hb & Hv).
    destruct (choose_cut_ok _ _ _ _ _ Ha Hb H4) as [Bn Bm]. cbn zeta in *.
    eapply Correct_sim; [apply xsim_refl|exact P| |].
    + intros _. unfold Tr. repeat constructor; cbn; lia.
    + apply apply_cut_correct; auto.
      * intros Hn. apply C1; auto. repeat constructor; cbn; lia.
      * apply IH2. repeat constructor; cbn; lia.
      * intros Hm. apply C3; auto. repeat constructor; cbn; lia.
  - (* toms *) intros vec a b vl vs H1 H2 H3 Hp.
    destruct (tr_dims_spec _ _ _ _ _ H1 H2 H3 (no1_pos _ Hp)) as (P & Ha & Hb & Hv).
    eapply Correct_sim; [apply xsim_refl|exact P| |].
    + intros _. unfold Tr. repeat constructor; cbn; lia.
    + assert (1 < dn a /\ 1 < dn b).
      { destruct H1 as [a b Q|a b c Q _]; apply (no1_perm _ _ Q) in Hp; inversion Hp as [|? ? A1 A2]; subst; inversion A2; subst; auto. }
      apply apply_toms513_correct; lia.
  - (* empty *) intros ip vec H1 H2 Hp. apply compress_contiguous_None in H2. split.
    + intros nx I O m HW. split.
      * intros p q H. now rewrite tensor_sz_0_offs in H.
      * intros l _ _ _. reflexivity.
    + intros _. now rewrite <- ilocs_offs, <- olocs_offs, tensor_sz_0_offs.
  - (* plan *) intros ip vec vec' f H1 H2 H3 IH Hp. split.
    + destruct (compress_contiguous_offs _ _ _ Hq Hp H2) as [P Q].
      eapply Correct_sim; [apply xsim_refl|exact P| |].
      * intros _. now apply posd_nneg.
      * apply IH. eapply compress_contiguous_no1; eauto.
    + intros E. apply (inplace_locations_sound qs [] vec Hq Hp). now apply H1.
Qed.
