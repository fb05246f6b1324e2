(** * Composite solvers of the complex DFT (proofs), continued: rank-geq2,
    indirect, indirect-transpose, buffered, rank-0 problems. *)
From Coq Require Import Reals ZArith List Lia Bool Permutation FunctionalExtensionality.
From Verif Require Import NumTheory Cplx Spec Base PrimesModel PrimesProofs TensorModel Offs TensorProofs XForm XKern XSeq
  CopyModel CopyProofs CopyBounds TransProofs Rank0Model Rank0Proofs Rank0Plans DftModel DftTw DftTw2 DftComp.
Import ListNotations.
Open Scope Z_scope.

(** ** Multi-indices of appended tensors *)
Lemma in_box_len t ks : in_box t ks -> length ks = length t.
Proof.
  revert ks. induction t as [|d t IH]; intros [|k ks]; cbn; try easy. intros [_ H]. f_equal. auto.
Qed.
Lemma in_box_app t u ks : in_box (t ++ u) ks <-> exists a b, ks = a ++ b /\ in_box t a /\ in_box u b.
Proof.
  revert ks. induction t as [|d t IH]; intros ks.
  - split.
    + intros H. exists [], ks. cbn. auto.
    + intros (a & b & -> & Ha & Hb). now destruct a.
  - destruct ks as [|k ks]; cbn.
    + split; [easy|]. intros (a & b & E & Ha & Hb). destruct a; easy.
    + rewrite IH. split.
      * intros (Hk & a & b & -> & Ha & Hb). exists (k :: a), b. cbn. auto.
      * intros (a & b & E & Ha & Hb). destruct a as [|k' a]; [easy|]. cbn in E. injection E as <- ->. cbn in Ha.
        split; [tauto|]. exists a, b. tauto.
Qed.
Lemma ioff_app t u a b : length a = length t -> ioff (t ++ u) (a ++ b) = ioff t a + ioff u b.
Proof.
  revert a. induction t as [|d t IH]; intros [|k a]; cbn; try easy. intros H. rewrite IH by lia. lia.
Qed.
Lemma ooff_app t u a b : length a = length t -> ooff (t ++ u) (a ++ b) = ooff t a + ooff u b.
Proof.
  revert a. induction t as [|d t IH]; intros [|k a]; cbn; try easy. intros H. rewrite IH by lia. lia.
Qed.
Lemma offs_app_in t u a b c d : In (a, b) (offs t) -> In (c, d) (offs u) -> In (a + c, b + d) (offs (t ++ u)).
Proof.
  intros H1 H2. apply in_offs in H1 as (k1 & B1 & E1). apply in_offs in H2 as (k2 & B2 & E2). injection E1 as -> ->. injection E2 as -> ->.
  apply in_offs. exists (k1 ++ k2). rewrite in_box_app, ioff_app, ooff_app by now apply in_box_len. split; [eauto|auto].
Qed.
Lemma offs_ip_os t a b : In (a, b) (offs t) -> In (b, b) (offs (tensor_copy_inplace t INPLACE_OS)).
Proof.
  intros H. rewrite copy_inplace_os. apply in_map_iff. exists b. split; auto. apply in_offs in H as (ks & B & E). injection E as -> ->.
  apply in_olocs. eauto.
Qed.
Lemma offs_ip_is t a b : In (a, b) (offs t) -> In (a, a) (offs (tensor_copy_inplace t INPLACE_IS)).
Proof.
  intros H. rewrite copy_inplace_is. apply in_map_iff. exists a. split; auto. apply in_offs in H as (ks & B & E). injection E as -> ->.
  apply in_ilocs. eauto.
Qed.
Lemma box_ip t k ks : in_box (tensor_copy_inplace t k) ks <-> in_box t ks.
Proof.
  revert ks. induction t as [|d t IH]; intros [|j ks]; cbn; try easy. rewrite IH. now destruct k.
Qed.
Lemma ioff_ip t ks : ioff (tensor_copy_inplace t INPLACE_OS) ks = ooff t ks.
Proof. revert ks. induction t as [|d t IH]; intros [|j ks]; cbn; try easy. now rewrite IH. Qed.
Lemma ooff_ip t ks : ooff (tensor_copy_inplace t INPLACE_OS) ks = ooff t ks.
Proof. revert ks. induction t as [|d t IH]; intros [|j ks]; cbn; try easy. now rewrite IH. Qed.
Lemma ioff_ipi t ks : ioff (tensor_copy_inplace t INPLACE_IS) ks = ioff t ks.
Proof. revert ks. induction t as [|d t IH]; intros [|j ks]; cbn; try easy. now rewrite IH. Qed.
Lemma ooff_ipi t ks : ooff (tensor_copy_inplace t INPLACE_IS) ks = ioff t ks.
Proof. revert ks. induction t as [|d t IH]; intros [|j ks]; cbn; try easy. now rewrite IH. Qed.
Lemma ti_ipo t : ti (tensor_copy_inplace t INPLACE_OS) = to_ t.
Proof. unfold ti, to_, tensor_copy_inplace. rewrite map_map. reflexivity. Qed.
Lemma to_ipo t : to_ (tensor_copy_inplace t INPLACE_OS) = to_ t.
Proof. unfold ti, to_, tensor_copy_inplace. rewrite map_map. reflexivity. Qed.
Lemma ti_ipi t : ti (tensor_copy_inplace t INPLACE_IS) = ti t.
Proof. unfold ti, to_, tensor_copy_inplace. rewrite map_map. reflexivity. Qed.
Lemma to_ipi t : to_ (tensor_copy_inplace t INPLACE_IS) = ti t.
Proof. unfold ti, to_, tensor_copy_inplace. rewrite map_map. reflexivity. Qed.

(** the transform depends only on the lengths and the values at the indices *)
Lemma mdft_same sz sz' x y ks : map dn sz = map dn sz' -> length ks = length sz ->
  (forall js, in_box sz js -> x (ioff sz js) = y (ioff sz' js)) -> mdft sz x ks = mdft sz' y ks.
Proof.
  revert sz' x y ks. induction sz as [|d sz IH]; intros [|d' sz'] x y ks E L H; try discriminate.
  - destruct ks; [|discriminate]. apply (H []); exact Logic.I.
  - injection E as E1 E2. destruct ks as [|k ks]; [discriminate|]. injection L as L. cbn [mdft].
    rewrite <- E1. apply Csum_ext. intros j Hj. f_equal. apply IH; auto. intros js Hjs. exact (H (j :: js) (Logic.conj Hj Hjs)).
Qed.

Lemma locs_perm2 d t u : Permutation t u -> Permutation (locs (d :: t)) (locs (d :: u)).
Proof. intros. apply locs_perm. now constructor. Qed.
Lemma ti_app a b : ti (a ++ b) = ti a ++ ti b.
Proof. apply map_app. Qed.
Lemma to_app a b : to_ (a ++ b) = to_ a ++ to_ b.
Proof. apply map_app. Qed.
Lemma nnegd_app a b : nnegd (a ++ b) <-> nnegd a /\ nnegd b.
Proof. apply Forall_app. Qed.

(** ** dft/rank-geq2.c and apply_before of dft/indirect.c *)
Lemma rank2_correct nd nd2 ip di do_ sz1 sz2 vec f1 f2 : nnegd sz1 -> nnegd sz2 ->
  Correct nd ip (cx di do_ sz2) (vec ++ sz1) f1 ->
  Correct nd2 true (cx do_ do_ (tensor_copy_inplace sz1 INPLACE_OS))
    (tensor_copy_inplace vec INPLACE_OS ++ tensor_copy_inplace sz2 INPLACE_OS) f2 ->
  Correct nd ip (cx di do_ (sz1 ++ sz2)) vec (fun nx I O m => f2 nx O O (f1 nx I O m)).
Proof.
  intros N1 N2 C1 C2.
  refine (Correct_after nd nd2 ip _ _ _ _ _ _ f1 f2 _ _ _ _ _ _ _ C1 C2).
  - intros H. now apply nnegd_app.
  - intros H. apply nnegd_app. split; now apply copy_inplace_nneg.
  - rewrite !il_cx, !ti_app. apply locs_perm2. rewrite <- app_assoc, (app_assoc (ti sz2)). apply Permutation_app_comm.
  - rewrite !ol_cx, !to_app. apply locs_perm2. rewrite <- app_assoc, (app_assoc (to_ sz2)). apply Permutation_app_comm.
  - rewrite il_cx, ol_cx, !ti_app, !to_app, !ti_ipo. apply locs_perm2. rewrite <- app_assoc. apply Permutation_app_head, Permutation_app_comm.
  - rewrite !ol_cx, !to_app, !to_ipo. apply locs_perm2. rewrite <- app_assoc. apply Permutation_app_head, Permutation_app_comm.
  - intros I O m m1 m2 V1 V2. rewrite vals_cx in *. intros a b Hab ks Hks.
    apply in_box_app in Hks as (k1 & k2 & -> & B1 & B2).
    pose proof (in_box_len _ _ B1) as L1. rewrite mdft_app, ooff_app by auto.
    assert (A2 : In (b + ooff sz2 k2, b + ooff sz2 k2) (offs (tensor_copy_inplace vec INPLACE_OS ++ tensor_copy_inplace sz2 INPLACE_OS))).
    { apply offs_app_in; [now apply offs_ip_os with (a := a)|]. apply offs_ip_os with (a := ioff sz2 k2). now apply in_offs_box. }
    specialize (V2 _ _ A2 k1 (proj2 (box_ip _ _ _) B1)). rewrite ooff_ip in V2.
    replace (b + (ooff sz1 k1 + ooff sz2 k2)) with (b + ooff sz2 k2 + ooff sz1 k1) by ring. rewrite V2.
    apply mdft_same; [unfold tensor_copy_inplace; now rewrite map_map|unfold tensor_copy_inplace; now rewrite map_length|].
    intros js Hjs. rewrite box_ip in Hjs. rewrite ioff_ip.
    specialize (V1 _ _ (offs_app_in _ _ _ _ _ _ Hab (in_offs_box _ _ Hjs)) k2 B2).
    replace (b + ooff sz2 k2 + ooff sz1 js) with (b + ooff sz1 js + ooff sz2 k2) by ring. rewrite V1.
    f_equal. apply functional_extensionality. intros o. f_equal. ring.
Qed.

(** ** apply_after of dft/indirect.c *)
Lemma after_correct nd nd1 ip di do_ sz vec fc f : ip = true \/ nd = false -> nnegd sz ->
  Correct nd ip (cx di do_ []) (vec ++ sz) fc ->
  Correct nd1 true (cx di di (tensor_copy_inplace sz INPLACE_IS)) (tensor_copy_inplace vec INPLACE_IS) f ->
  Correct nd ip (cx di do_ sz) vec (fun nx I O m => fc nx I O (f nx I I m)).
Proof.
  intros Hd N C2 C1.
  refine (Correct_before nd nd1 ip _ _ _ _ _ _ f fc Hd _ _ _ _ _ _ _ C1 C2).
  - intros H. now apply copy_inplace_nneg.
  - intros H. now apply nnegd_app.
  - rewrite !il_cx, !ti_app, !ti_ipi. reflexivity.
  - rewrite il_cx, ol_cx, !ti_app, !to_app, !to_ipi. reflexivity.
  - rewrite !il_cx, !ti_app. apply locs_perm2. cbn [ti map app]. apply Permutation_app_comm.
  - rewrite !ol_cx, !to_app. apply locs_perm2. cbn [to_ map app]. apply Permutation_app_comm.
  - intros I O m m1 m2 V1 V2. rewrite vals_copy in V2. rewrite vals_cx in *. intros a b Hab ks Hks.
    rewrite (V2 _ _ (offs_app_in _ _ _ _ _ _ Hab (in_offs_box _ _ Hks))).
    specialize (V1 _ _ (offs_ip_is _ _ _ Hab) ks (proj2 (box_ip _ _ _) Hks)). rewrite ooff_ipi in V1. rewrite V1.
    pose proof (in_box_len _ _ Hks) as L.
    apply mdft_same; [unfold tensor_copy_inplace; now rewrite map_map|unfold tensor_copy_inplace; now rewrite map_length|].
    intros js _. now rewrite ioff_ipi.
Qed.

(** ** dft/vrank-geq1.c *)
Lemma same_set_perm di sz vec : Permutation (locs (ti (sz ++ vec))) (locs (to_ (sz ++ vec))) -> same_set (cx di di sz) vec.
Proof.
  intros H o. rewrite il_cx, ol_cx. cbn [locs]. assert (P : Permutation (lplus (dimlocs (2, di)) (locs (ti (sz ++ vec)))) (lplus (dimlocs (2, di)) (locs (to_ (sz ++ vec))))) by now apply lplus_perm_r.
  split; apply Permutation_in; auto. now symmetry.
Qed.
Lemma vrank_correct nd ip di do_ sz vec i d f : nth_error vec i = Some d -> (ip = true -> dis d = dos d) ->
  Correct nd ip (cx di do_ sz) (tensor_copy_except vec i) f ->
  (ip = true -> di = do_ /\ Permutation (locs (ti (sz ++ tensor_copy_except vec i))) (locs (to_ (sz ++ tensor_copy_except vec i)))) ->
  Correct nd ip (cx di do_ sz) vec (vloop (dn d) (dis d) (dos d) f).
Proof.
  intros E H C S. eapply Correct_vperm; [apply copy_except_perm; exact E|]. destruct d as [n s u]. cbn [dn dis dos] in *.
  apply Correct_loop; [apply cx_wf| |exact C]. intros Ei. destruct (S Ei) as [-> P]. split; [auto|]. now apply same_set_perm.
Qed.

(** ** dft/indirect-transpose.c *)
Definition eqst (t : list iodim) : Prop := Forall (fun d => dis d = dos d) t.
Lemma eqst_ti t : eqst t -> to_ t = ti t.
Proof. intros H. unfold to_, ti. apply map_ext_in. intros d Hd. unfold eqst in H. rewrite Forall_forall in H. now rewrite (H d Hd). Qed.
Lemma eqst_off t ks : eqst t -> ooff t ks = ioff t ks.
Proof.
  intros H. revert ks. induction H as [|d t E _ IH]; intros [|k ks]; cbn; auto. now rewrite IH, E.
Qed.
Lemma eqst_ip t k : eqst t -> tensor_copy_inplace t k = t.
Proof.
  intros H. unfold tensor_copy_inplace. induction H as [|[n s u] t E _ IH]; cbn; auto. cbn in E. subst. rewrite IH. now destruct k.
Qed.

Lemma itrans_step nd nd2 ip di do_ ns a b sz vec ft f : 0 <= ns -> nnegd sz -> eqst sz -> eqst vec ->
  Correct nd ip (cx di do_ []) (mkdim ns a b :: vec ++ mkdim ns b a :: sz) ft ->
  Correct nd2 true (cx do_ do_ (mkdim ns a b :: sz)) (mkdim ns b a :: vec) f ->
  Correct nd ip (cx di do_ (mkdim ns b b :: sz)) (mkdim ns a a :: vec) (fun nx I O m => f nx O O (ft nx I O m)).
Proof.
  intros Hn Nz Ez Ev C1 C2.
  assert (Q1 : forall x y (s v : list (Z * Z)), Permutation ((ns, x) :: s ++ (ns, y) :: v) ((ns, y) :: v ++ (ns, x) :: s)).
  { intros. apply (Permutation_app_comm (_ :: s) (_ :: v)). }
  refine (Correct_after nd nd2 ip _ _ _ _ _ _ ft f _ _ _ _ _ _ _ C1 C2).
  - intros H. inversion H; subst. constructor; auto. apply nnegd_app. split; auto. constructor; auto.
  - intros H. inversion H; subst. constructor; auto.
  - rewrite !il_cx. cbn [app ti map dn dis]. apply locs_perm2.
    rewrite !map_app. cbn [map dn dis]. apply (Q1 b a (ti sz) (ti vec)).
  - rewrite !ol_cx. cbn [app to_ map dn dos]. rewrite !map_app. cbn [map dn dos]. apply locs_perm2.
    rewrite (Q1 b a (to_ sz) (to_ vec)). change (Permutation ((ns, a) :: to_ vec ++ (ns, b) :: to_ sz) ((ns, b) :: to_ vec ++ (ns, a) :: to_ sz)).
    rewrite <- !Permutation_middle. apply perm_swap.
  - rewrite il_cx, ol_cx. cbn [app to_ ti map dn dis dos]. rewrite !map_app. cbn [map dn dis dos]. apply locs_perm2.
    change (Permutation ((ns, b) :: to_ sz ++ (ns, a) :: to_ vec) ((ns, a) :: ti sz ++ (ns, b) :: ti vec)).
    rewrite (eqst_ti sz), (eqst_ti vec) by auto. rewrite <- !Permutation_middle. apply perm_swap.
  - rewrite !ol_cx. cbn [app to_ map dn dos]. rewrite !map_app. reflexivity.
  - intros I O m m1 m2 V1 V2. rewrite vals_copy in V1. rewrite vals_cx in *. intros a0 b0 Hab ks Hks.
    apply in_offs in Hab as ([|v vs] & Bv & E); [easy|]. destruct Bv as [Hv Bv]. cbn [dn] in Hv. cbn [ioff ooff dis dos] in E. injection E as -> ->.
    destruct ks as [|k ks]; [easy|]. destruct Hks as [Hk Bk]. cbn [dn] in Hk.
    assert (A2 : In (v * b + ioff vec vs, v * a + ooff vec vs) (offs (mkdim ns b a :: vec))).
    { apply (in_offs_box (mkdim ns b a :: vec) (v :: vs)). cbn. auto. }
    specialize (V2 _ _ A2 (k :: ks)). cbn [ooff dos] in V2 |- *. rewrite V2 by (cbn; auto).
    pose proof (in_box_len _ _ Bk) as L. cbn [mdft dn dis]. apply Csum_ext. intros j Hj. f_equal.
    apply mdft_ext; auto. intros js Hjs.
    assert (A1 : In (v * a + ioff vec vs + (j * b + ioff sz js), v * b + ooff vec vs + (j * a + ooff sz js)) (offs (mkdim ns a b :: vec ++ mkdim ns b a :: sz))).
    { apply (offs_app_in (mkdim ns a b :: vec) (mkdim ns b a :: sz)).
      - apply (in_offs_box (mkdim ns a b :: vec) (v :: vs)). cbn. auto.
      - apply (in_offs_box (mkdim ns b a :: sz) (j :: js)). cbn. auto. }
    specialize (V1 _ _ A1). rewrite (eqst_off sz), (eqst_off vec) in V1 by auto. exact V1.
Qed.

Lemma set_nth_perm t i d d' : nth_error t i = Some d -> Permutation (set_nth t i d') (d' :: tensor_copy_except t i).
Proof.
  intros _. unfold set_nth, tensor_copy_except. symmetry. apply Permutation_middle.
Qed.
Lemma Correct_szperm nd ip di do_ sz sz' vec f : Permutation sz sz' -> Correct nd ip (cx di do_ sz') vec f -> Correct nd ip (cx di do_ sz) vec f.
Proof.
  intros P. apply Correct_sim; auto. apply xsim_cx; [now apply offs_perm|now apply sz_sim_perm].
Qed.
Lemma eqst_strides2 a b : tensor_inplace_strides2 a b = true -> eqst a /\ eqst b.
Proof.
  unfold tensor_inplace_strides2, tensor_inplace_strides. intros H. apply andb_true_iff in H as [H1 H2]. rewrite forallb_forall in H1, H2.
  split; apply Forall_forall; intros d Hd; [apply H1 in Hd|apply H2 in Hd]; lia.
Qed.
Lemma Forall_except (P : iodim -> Prop) t i : Forall P t -> Forall P (tensor_copy_except t i).
Proof.
  rewrite !Forall_forall. intros H x Hx. apply H. unfold tensor_copy_except in Hx.
  apply in_app_iff in Hx as [Hx|Hx].
  - rewrite <- (firstn_skipn i t). apply in_app_iff. now left.
  - rewrite <- (firstn_skipn (S i) t). apply in_app_iff. now right.
Qed.
Lemma Forall_nth (P : iodim -> Prop) t i d : Forall P t -> nth_error t i = Some d -> P d.
Proof. rewrite Forall_forall. intros H E. apply H. eapply nth_error_In; eauto. Qed.

Lemma itrans_correct nd nd2 ip di do_ sz vec d0 d1 dv ds vl ft f fr : 
  posd sz -> posd vec -> (ip = true -> di = do_) ->
  tensor_inplace_strides2 vec sz = true ->
  nth_error vec d0 = Some dv -> nth_error sz d1 = Some ds -> dn ds <= dn dv -> vl = Z.quot (dn dv) (dn ds) ->
  Correct nd ip (cx di do_ []) 
    (set_nth (tensor_copy_inplace vec INPLACE_IS) d0 (mkdim (dn ds) (dis dv) (dis ds)) ++
     set_nth (tensor_copy_inplace sz INPLACE_IS) d1 (mkdim (dn ds) (dis ds) (dis dv))) ft ->
  Correct nd2 true (cx do_ do_ (set_nth sz d1 (mkdim (dn ds) (dis dv) (dos ds)))) (set_nth vec d0 (mkdim (dn ds) (dis ds) (dos dv))) f ->
  Correct nd ip (cx di do_ sz) (set_nth vec d0 (mkdim (dn dv - vl * dn ds) (dis dv) (dos dv))) fr ->
  Correct nd ip (cx di do_ sz) vec (itrans_apply vl (dn ds * dis dv) (dn ds * dos dv) ft f fr).
Proof.
  intros Pz Pv Hd Hs Ev Ez Hle -> C1 C2 C3. destruct (eqst_strides2 _ _ Hs) as [Qv Qz].
  rewrite !eqst_ip in C1 by auto.
  pose proof (Forall_nth _ _ _ _ Qv Ev) as Edv. pose proof (Forall_nth _ _ _ _ Qz Ez) as Eds. cbn beta in Edv, Eds.
  pose proof (Forall_nth _ _ _ _ Pz Ez) as Hns. pose proof (Forall_nth _ _ _ _ Pv Ev) as Hnv. cbn beta in Hns, Hnv.
  pose proof (copy_except_perm _ _ _ Ev) as PV. pose proof (copy_except_perm _ _ _ Ez) as PZ.
  set (vec' := tensor_copy_except vec d0) in *. set (sz' := tensor_copy_except sz d1) in *.
  assert (Qv' : eqst vec') by now apply Forall_except. assert (Qz' : eqst sz') by now apply Forall_except.
  assert (Nz' : nnegd sz') by now apply Forall_except, posd_nneg.
  destruct dv as [nv a a'], ds as [ns b b']. cbn [dn dis dos] in *. subst a' b'.
  set (vl := Z.quot nv ns) in *.
  assert (Hvl : 0 <= vl /\ 0 <= nv - vl * ns).
  { unfold vl. rewrite Z.quot_div_nonneg by lia. pose proof (Z.div_mod nv ns ltac:(lia)). pose proof (Z.mod_pos_bound nv ns Hns).
    split; [apply Z.div_pos; lia|nia]. }
  eapply Correct_szperm; [exact PZ|]. eapply Correct_vperm; [exact PV|].
  assert (S : same_set (cx di di (mkdim ns b b :: sz')) vec').
  { apply same_set_perm. rewrite eqst_ti; [reflexivity|]. apply Forall_app. now repeat constructor. }
  eapply Correct_ext; [|refine (Correct_batchv nd ip _ vec' nv a a vl ns (nv - vl * ns) (fun nx I O m => f nx O O (ft nx I O m)) fr (cx_wf _ _ _) _ _ _ _ _ _ _)].
  - intros nx I O m. reflexivity.
  - tauto.
  - lia.
  - tauto.
  - lia.
  - intros E. right. split; auto. now rewrite <- (Hd E).
  - apply (itrans_step nd nd2); try assumption; try lia.
    + eapply Correct_vperm; [|exact C1]. symmetry. etransitivity; [apply Permutation_app; eapply set_nth_perm; eauto|]. reflexivity.
    + eapply Correct_szperm; [symmetry; eapply set_nth_perm; eauto|]. eapply Correct_vperm; [symmetry; eapply set_nth_perm; eauto|]. exact C2.
  - eapply Correct_szperm; [symmetry; exact PZ|]. eapply Correct_vperm; [symmetry; eapply set_nth_perm; eauto|]. exact C3.
Qed.

(** ** dft/buffered.c *)
Lemma nbuf_loop_pos fuel i lb vl dflt : 0 < lb -> 0 < dflt -> 0 < nbuf_loop fuel i lb vl dflt.
Proof.
  revert i. induction fuel as [|fu IH]; intros i Hl Hd; cbn [nbuf_loop]; [auto|].
  destruct (lb <=? i) eqn:E; auto. apply Z.leb_le in E. destruct (Z.rem vl i =? 0); [lia|]. now apply IH.
Qed.
Lemma nbuf_pos n vl maxnb : 0 < maxnb -> 0 < vl -> 0 < nbuf n vl maxnb.
Proof.
  intros Hm Hv. unfold nbuf. replace (maxnb =? 0) with false by lia.
  apply nbuf_loop_pos; [lia|]. pose proof (Z.le_max_l 1 (Z.quot MAXBUFSZ n)). lia.
Qed.
Lemma bufdist_ge n vl : 0 <= n <= INTMAX -> n <= bufdist n vl.
Proof.
  intros Hn. unfold bufdist. destruct (vl =? 1); [lia|].
  rewrite modulo_spec; [|unfold INTMAX in *; lia|unfold INTMAX in *; lia].
  cbn [unr]. pose proof (Z.mod_pos_bound (6 - n) 8). lia.
Qed.

Lemma NoDup_buf3 n nb bd : 0 <= n -> 0 <= nb -> n <= bd -> NoDup (locs [(2, 1); (n, 2); (nb, bd * 2)]).
Proof.
  intros Hn Hnb Hbd.
  assert (A : NoDup (locs [(n, 2); (2, 1)]) /\ (forall x, In x (locs [(n, 2); (2, 1)]) -> 0 <= x < n * 2)).
  { refine (locs_nest n 2 _ (n * 2) _ _ _ _ _); try lia.
    - apply (locs_nest 2 1 [] 2); try lia; [constructor; [easy|constructor]|]. cbn. lia.
    - apply (locs_nest 2 1 [] 2); try lia; [constructor; [easy|constructor]|]. cbn. lia. }
  destruct A as [A1 A2].
  eapply Permutation_NoDup; [apply (locs_perm [(nb, bd * 2); (n, 2); (2, 1)])|].
  - apply Permutation_sym. change [(nb, bd * 2); (n, 2); (2, 1)] with (rev [(2, 1); (n, 2); (nb, bd * 2)]). apply Permutation_rev.
  - refine (proj1 (locs_nest nb (bd * 2) _ (nb * (bd * 2)) Hnb ltac:(lia) ltac:(lia) A1 _)).
    intros x Hx. specialize (A2 x Hx). lia.
Qed.
Lemma locs_neg1 t : Permutation (locs ((2, -1) :: t)) (map (Z.add (-1)) (locs ((2, 1) :: t))).
Proof.
  cbn [locs]. change (dimlocs (2, -1)) with [0; -1]. change (dimlocs (2, 1)) with [0; 1].
  unfold lplus. cbn [flat_map]. rewrite !app_nil_r, map_app, !map_map. rewrite Permutation_app_comm.
  replace (map (fun x => -1 + (0 + x)) (locs t)) with (map (Z.add (-1)) (locs t)) by (apply map_ext; intros; lia).
  replace (map (fun x => -1 + (1 + x)) (locs t)) with (map (Z.add 0) (locs t)) by (apply map_ext; intros; lia). reflexivity.
Qed.
Lemma NoDup_buf3' n nb bd e : 0 <= n -> 0 <= nb -> n <= bd -> e = 1 \/ e = -1 -> NoDup (locs [(2, e); (n, 2); (nb, bd * 2)]).
Proof.
  intros Hn Hnb Hbd [E|E]; subst e; [now apply NoDup_buf3|].
  eapply Permutation_NoDup; [symmetry; apply locs_neg1|]. apply FinFun.Injective_map_NoDup; [intros x y; lia|]. now apply NoDup_buf3.
Qed.

Lemma Correct_then_zero nd ip ip' X d a b s u f g : (ip' = true -> ip = true /\ a = b) ->
  Correct nd ip X [d] f -> Correct nd ip' X [mkdim 0 s u] g ->
  Correct nd ip X [d] (fun nx I O m => g nx (sh I a) (sh O b) (f nx I O m)).
Proof.
  intros Hip Cf Cg nx I O m HW. destruct (Cf nx I O m HW) as [V F]. destruct HW as [W1 W2 W3 W4 W5 W6].
  assert (E1 : il X [mkdim 0 s u] = []). { unfold il. cbn. unfold lplus. induction (xi X); auto. }
  assert (E2 : ol X [mkdim 0 s u] = []). { unfold ol. cbn. unfold lplus. induction (map fst (xo X)); auto. }
  assert (HW' : Wf nx ip' (sh I a) (sh O b) X [mkdim 0 s u]).
  { constructor; auto.
    - repeat constructor; cbn; lia.
    - rewrite E1. constructor.
    - rewrite E2. constructor.
    - destruct ip'.
      + destruct (Hip eq_refl) as [-> ->]. destruct W6 as [-> _]. split; auto. intros o. rewrite E1, E2. easy.
      + intros l (o & Ho & _) _. now rewrite E1 in Ho. }
  destruct (Cg _ _ _ (f nx I O m) HW') as [_ G].
  assert (K : forall l, (fst l < nx)%nat -> g nx (sh I a) (sh O b) (f nx I O m) l = f nx I O m l).
  { intros l Hl. apply G; auto.
    - intros (o & Ho & _). now rewrite E2 in Ho.
    - right. intros (o & Ho & _). now rewrite E1 in Ho. }
  split.
  - intros a0 b0 Hab o F0 HF. rewrite K by (unfold sh; cbn; auto). now apply V.
  - intros l Hl Ho Hi. rewrite K by auto. now apply F.
Qed.

Lemma buf_step_correct nd ip di do_ n is os ivs ovs nb bd ro e fb fc : 0 <= n -> 0 <= nb -> n <= bd -> e = 1 \/ e = -1 ->
  Correct (nd && negb ip) false (cx di e [mkdim n is 2]) [mkdim nb ivs (bd * 2)] fb ->
  Correct false false (cx e do_ []) [mkdim nb (bd * 2) ovs; mkdim n 2 os] fc ->
  Correct nd ip (cx di do_ [mkdim n is os]) [mkdim nb ivs ovs]
    (fun nx I O m => fc (S nx) (sh (nx, 0) ro) O (fb (S nx) I (sh (nx, 0) ro) m)).
Proof.
  intros Hn Hnb Hbd He C1 C2.
  refine (Correct_buf2 nd ip _ _ _ _ _ _ fb fc (fun nx => sh (nx, 0) ro) _ _ _ _ _ _ _ _ C1 C2).
  - reflexivity.
  - repeat constructor; cbn; lia.
  - repeat constructor; cbn; lia.
  - now rewrite !il_cx.
  - rewrite !ol_cx. cbn [app to_ map dn dos]. apply locs_perm2, perm_swap.
  - rewrite ol_cx. cbn [app to_ map dn dos]. now apply NoDup_buf3'.
  - rewrite ol_cx, il_cx. cbn [app ti to_ map dn dis dos]. apply locs_perm2, perm_swap.
  - intros nx I O m m1 m2 V1 V2. rewrite vals_copy in V2. rewrite vals_cx1 in *.
    intros a b Hab k Hk. apply offs1_inv in Hab as (iv & Hiv & -> & ->).
    rewrite <- (V1 _ _ (offs1_in nb ivs (bd * 2) iv Hiv) k Hk).
    now rewrite (V2 _ _ (offs2_in nb (bd * 2) ovs n 2 os iv k Hiv Hk)).
Qed.

Lemma buffered_correct nd ip di do_ n is os vl ivs ovs maxnb nb bd ro fb fc fr :
  0 < n <= INTMAX -> 0 < vl -> 0 < maxnb -> nb = nbuf n vl maxnb -> bd = bufdist n vl ->
  (ip = true -> (di = do_ /\ is = os /\ ivs = ovs) \/ nb = vl) -> 
  ro = (if di <? 0 then 1 else 0) ->
  Correct (nd && negb ip) false (cx di (1 - 2 * ro) [mkdim n is 2]) [mkdim nb ivs (bd * 2)] fb ->
  Correct false false (cx (1 - 2 * ro) do_ []) [mkdim nb (bd * 2) ovs; mkdim n 2 os] fc ->
  Correct nd (ip && (ivs * (nb * Z.quot vl nb) =? ovs * (nb * Z.quot vl nb))) (cx di do_ [mkdim n is os]) [mkdim (Z.rem vl nb) ivs ovs] fr ->
  Correct nd ip (cx di do_ [mkdim n is os]) [mkdim vl ivs ovs] (buffered_apply vl nb ivs ovs ro fb fc fr).
Proof.
  intros Hn Hv Hm Enb Ebd Hip Ero Cb Cc Cr.
  pose proof (nbuf_pos n vl maxnb Hm Hv) as Pnb. rewrite <- Enb in Pnb.
  pose proof (bufdist_ge n vl ltac:(lia)) as Hbd. rewrite <- Ebd in Hbd. clear Enb Ebd.
  assert (He : 1 - 2 * ro = 1 \/ 1 - 2 * ro = -1) by (subst ro; destruct (di <? 0); lia).
  pose proof (buf_step_correct nd ip di do_ n is os ivs ovs nb bd ro _ fb fc ltac:(lia) ltac:(lia) Hbd He Cb Cc) as C1.
  unfold buffered_apply. cbn zeta. set (cnt := nsteps nb (vl + 1) nb).
  assert (Ecnt : cnt = Z.quot vl nb /\ vl = cnt * nb + Z.rem vl nb /\ 0 <= cnt /\ 0 <= Z.rem vl nb < nb).
  { pose proof (nsteps_spec nb (vl + 1) nb Pnb) as (A1 & A2 & A3). fold cnt in A1, A2, A3.
    pose proof (Z.quot_rem' vl nb) as Q. pose proof (Z.rem_bound_pos vl nb ltac:(lia) Pnb) as Rb.
    assert (cnt = Z.quot vl nb); [|rewrite H; split; [auto|]; lia].
    destruct A3 as [A3|A3].
    - rewrite A3 in *. rewrite Z.quot_small; lia.
    - assert (cnt <= Z.quot vl nb) by nia. nia. }
  destruct Ecnt as (E1 & E2 & E3 & E4). set (rest := Z.rem vl nb) in *. clearbody rest.
  destruct (Bool.bool_dec ip true) as [Ei|Ei].
  - destruct (Hip Ei) as [(-> & -> & ->)|Env].
    + rewrite Z.eqb_refl, andb_true_r in Cr.
      eapply Correct_ext; [|refine (Correct_batch nd ip _ vl ovs ovs cnt nb rest _ fr (cx_wf _ _ _) E3 _ _ E2 _ C1 Cr)]; try lia.
      * intros nx I O m. cbn beta. now rewrite !(Z.mul_comm nb).
      * intros _. right. split; auto. apply same_set_strides. unfold tensor_inplace_strides2. cbn. now rewrite Z.eqb_refl.
    + rewrite Env in *. assert (Q : Z.quot vl vl = 1) by (apply Z.quot_same; lia). rewrite Q in *.
      clearbody cnt. rewrite E1 in *. replace rest with 0 in Cr by lia. clear E1 E2.
      eapply Correct_ext; [|refine (Correct_then_zero nd ip _ _ _ (1 * (ivs * vl)) (1 * (ovs * vl)) ivs ovs _ fr _ C1 Cr)].
      * intros nx I O m. cbn beta. rewrite zfor_1. rewrite !Z.mul_0_l, !sh_0. reflexivity.
      * intros H. apply andb_true_iff in H as [H1 H2]. split; auto. apply Z.eqb_eq in H2. lia.
  - apply not_true_is_false in Ei. subst ip. cbn [andb] in Cr.
    eapply Correct_ext; [|refine (Correct_batch nd false _ vl ivs ovs cnt nb rest _ fr (cx_wf _ _ _) E3 _ _ E2 _ C1 Cr)]; try lia.
    intros nx I O m. cbn beta. now rewrite !(Z.mul_comm nb).
Qed.

(** ** Rank-0 problems: rdft/dft-r2hc.c *)
Lemma Correct_copy_offs nd ip vec vec' a b f : Permutation (offs vec) (map (padd (a, b)) (offs vec')) -> nnegd vec' ->
  (ip = true -> a = b) -> Correct nd ip xcopy vec' f ->
  Correct nd ip xcopy vec (fun nx I O m => f nx (sh I a) (sh O b) m).
Proof.
  intros P Nv Hab C nx I O m HW.
  assert (PI : Permutation (il xcopy vec) (map (Z.add a) (il xcopy vec'))).
  { unfold il. cbn [xi xcopy]. rewrite !lplus_0_l. rewrite <- !ilocs_offs. rewrite P, !map_map. reflexivity. }
  assert (PO : Permutation (ol xcopy vec) (map (Z.add b) (ol xcopy vec'))).
  { unfold ol. cbn [xo xcopy map fst]. rewrite !lplus_0_l. rewrite <- !olocs_offs. rewrite P, !map_map. reflexivity. }
  assert (II : forall o, In o (il xcopy vec') <-> In (a + o) (il xcopy vec)).
  { intros o. split; intros H.
    - apply (Permutation_in _ (Permutation_sym PI)). now apply in_map.
    - apply (Permutation_in _ PI) in H. apply in_map_iff in H as (x & E & H). now replace o with x by lia. }
  assert (OO : forall o, In o (ol xcopy vec') <-> In (b + o) (ol xcopy vec)).
  { intros o. split; intros H.
    - apply (Permutation_in _ (Permutation_sym PO)). now apply in_map.
    - apply (Permutation_in _ PO) in H. apply in_map_iff in H as (x & E & H). now replace o with x by lia. }
  assert (IP : forall l, InP (sh I a) (il xcopy vec') l <-> InP I (il xcopy vec) l).
  { intros l. split; intros (o & H & ->).
    - exists (a + o). rewrite <- II. split; auto. now rewrite sh_sh.
    - exists (o - a). rewrite II, sh_sh. replace (a + (o - a)) with o by lia. auto. }
  assert (OP : forall l, InP (sh O b) (ol xcopy vec') l <-> InP O (ol xcopy vec) l).
  { intros l. split; intros (o & H & ->).
    - exists (b + o). rewrite <- OO. split; auto. now rewrite sh_sh.
    - exists (o - b). rewrite OO, sh_sh. replace (b + (o - b)) with o by lia. auto. }
  destruct HW as [W1 W2 W3 W4 W5 W6].
  assert (HW' : Wf nx ip (sh I a) (sh O b) xcopy vec').
  { constructor; auto.
    - eapply NoDup_map_inv. eapply Permutation_NoDup; [exact PI|auto].
    - eapply NoDup_map_inv. eapply Permutation_NoDup; [exact PO|auto].
    - destruct ip.
      + destruct W6 as [-> W6]. rewrite (Hab eq_refl) in *. split; auto. intros o. rewrite II, OO. apply W6.
      + intros l. rewrite IP, OP. apply W6. }
  destruct (C _ _ _ m HW') as [V F]. split.
  - rewrite vals_xcopy in *. intros ks Hks. pose proof (in_offs_box _ _ Hks) as H. apply (Permutation_in _ P) in H.
    apply in_map_iff in H as ((x & y) & E & H). unfold padd in E. cbn in E. injection E as E1 E2. rewrite <- E1, <- E2.
    apply in_offs in H as (js & B & E). injection E as -> ->. specialize (V js B). now rewrite !sh_sh in V.
  - intros l Hl Ho Hi. apply F; auto.
    + now rewrite OP.
    + rewrite IP. auto.
Qed.

Lemma dimoffs_flip n s u : 0 < n ->
  Permutation (dimoffs (mkdim n s u)) (map (padd ((n - 1) * s, (n - 1) * u)) (dimoffs (mkdim n (- s) (- u)))).
Proof.
  intros Hn. unfold dimoffs. cbn [dn dis dos]. rewrite map_map. unfold padd. cbn [fst snd].
  transitivity (map (fun i => (i * s, i * u)) (map (fun i => n - 1 - i) (zr n))).
  - apply Permutation_map. apply NoDup_Permutation.
    + apply NoDup_zr.
    + apply FinFun.Injective_map_NoDup; [intros x y; lia|apply NoDup_zr].
    + intros x. rewrite in_map_iff, in_zr. split.
      * intros H. exists (n - 1 - x). rewrite in_zr. lia.
      * intros (y & <- & Hy). rewrite in_zr in Hy. lia.
  - rewrite map_map. erewrite map_ext; [reflexivity|]. intros i. cbn beta. f_equal; ring.
Qed.
Lemma oplus_map_l p l1 l2 : oplus (map (padd p) l1) l2 = map (padd p) (oplus l1 l2).
Proof.
  unfold oplus. induction l1 as [|q l1 IH]; [reflexivity|]. cbn [map flat_map]. rewrite IH, map_app, map_map. f_equal.
  apply map_ext. intros r. unfold padd. cbn. f_equal; lia.
Qed.
Lemma oplus_map_r p l1 l2 : oplus l1 (map (padd p) l2) = map (padd p) (oplus l1 l2).
Proof.
  unfold oplus. induction l1 as [|q l1 IH]; [reflexivity|]. cbn [map flat_map]. rewrite IH, map_app, !map_map. f_equal.
  apply map_ext. intros r. unfold padd. cbn. f_equal; lia.
Qed.
Lemma flip_dims_offs t t' ish osh : posd t -> flip_dims t = (t', ish, osh) ->
  Permutation (offs t) (map (padd (ish, osh)) (offs t')) /\ posd t'.
Proof.
  intros P. revert t' ish osh. induction P as [|[n s u] t Hd P IH]; intros t' ish osh E; cbn [flip_dims] in E.
  - injection E as <- <- <-. split; [|constructor]. cbn. reflexivity.
  - destruct (flip_dims t) as ((t2 & a) & b). specialize (IH _ _ _ eq_refl) as [IH P2]. cbn [dn dis dos] in E, Hd.
    destruct (s <? 0); injection E as <- <- <-.
    + split; [|constructor; auto]. cbn [offs].
      etransitivity; [apply oplus_perm_l, (dimoffs_flip n s u Hd)|]. etransitivity; [apply oplus_perm_r, IH|].
      rewrite oplus_map_l, oplus_map_r, map_map. erewrite map_ext; [reflexivity|]. intros r. unfold padd. cbn [fst snd]. f_equal; ring.
    + split; [|constructor; auto]. cbn [offs]. etransitivity; [apply oplus_perm_r, IH|]. now rewrite oplus_map_r.
Qed.

(** all strides of one sign: [a] for the input, [b] for the output *)
Definition sgn (a b : Z) (t : list iodim) : Prop := Forall (fun d => 0 <= a * dis d /\ 0 <= b * dos d) t.

Lemma flip_pos t : Forall (fun d => 0 <= dis d) t -> flip_dims t = (t, 0, 0).
Proof.
  induction 1 as [|d t H _ IH]; [reflexivity|]. cbn [flip_dims]. rewrite IH. replace (dis d <? 0) with false by lia. reflexivity.
Qed.
Definition lowest (t : list (Z * Z)) : Z := fold_right (fun p s => (fst p - 1) * snd p + s) 0 t.
Lemma flip_neg t : Forall (fun d => dis d < 0) t -> snd (fst (flip_dims t)) = lowest (ti t) /\ snd (flip_dims t) = lowest (to_ t).
Proof.
  induction 1 as [|d t H _ IH]; [easy|]. cbn [flip_dims]. destruct (flip_dims t) as ((t2 & a) & b). cbn in IH. destruct IH as [-> ->].
  replace (dis d <? 0) with true by lia. cbn [fst snd]. unfold lowest, ti, to_. cbn [map fold_right fst snd]. split; ring.
Qed.
Lemma lowest_in t : Forall (fun p => 0 < fst p) t -> In (lowest t) (locs t).
Proof.
  induction 1 as [|[n s] t H _ IH]; cbn; [now left|]. cbn in H. apply in_locs_cons. exists (n - 1), (lowest t). split; [lia|]. auto.
Qed.
Lemma lowest_le t : Forall (fun p => snd p <= 0) t -> forall x, In x (locs t) -> lowest t <= x.
Proof.
  induction 1 as [|[n s] t H _ IH]; cbn [lowest fold_right locs]; intros x Hx.
  - destruct Hx as [<-|[]]. lia.
  - apply in_locs_cons in Hx as (i & y & Hi & Hy & ->). cbn in H |- *. specialize (IH _ Hy). unfold lowest in IH. nia.
Qed.
Lemma NoDup_tail (A : Type) (l1 l2 : list A) : NoDup (l1 ++ l2) -> NoDup l2.
Proof. induction l1; cbn; intros H; [auto|]. inversion H; auto. Qed.
Lemma zero_stride_dup n t : 1 < n -> In 0 (locs t) -> ~ NoDup (locs ((n, 0) :: t)).
Proof.
  intros Hn H0 HN. assert (Z.to_nat n = S (S (Z.to_nat (n - 2)))) as En by lia.
  cbn [locs] in HN. unfold dimlocs, zr, zrange in HN. cbn [fst snd] in HN. rewrite En in HN. cbn [seq map] in HN.
  unfold lplus in HN. cbn [flat_map] in HN. apply in_split in H0 as (l1 & l2 & E). rewrite E in HN.
  rewrite !map_app in HN. cbn [map] in HN. rewrite <- !app_assoc in HN. apply NoDup_tail in HN.
  cbn [app] in HN. inversion HN as [|? ? A _]. apply A. apply in_app_iff. right. apply in_app_iff. right. left. lia.
Qed.

Lemma NoDup_locs_tail d t : 0 < fst d -> NoDup (locs (d :: t)) -> NoDup (locs t).
Proof.
  destruct d as [n s]. cbn [fst]. intros Hn. cbn [locs]. unfold dimlocs, zr, zrange. cbn [fst snd].
  replace (Z.to_nat n) with (S (Z.to_nat (n - 1))) by lia. cbn [seq map]. unfold lplus. cbn [flat_map].
  intros H. apply (Permutation_NoDup (Permutation_app_comm _ _)) in H. apply NoDup_tail in H. eapply NoDup_map_inv; eauto.
Qed.
Lemma locs_0 t : Forall (fun p => 0 < fst p) t -> In 0 (locs t).
Proof.
  induction 1 as [|[n s] t H _ IH]; [now left|]. cbn in H. apply in_locs_cons. exists 0, 0. split; [lia|]. auto.
Qed.
Lemma NoDup_nonzero t : Forall (fun p => 1 < fst p) t -> NoDup (locs t) -> Forall (fun p => snd p <> 0) t.
Proof.
  induction 1 as [|[n s] t H F IH]; intros HN; constructor.
  - cbn in *. intros ->. revert HN. apply zero_stride_dup; auto. apply locs_0. eapply Forall_impl; [|exact F]. cbn. intros; lia.
  - apply IH. eapply NoDup_locs_tail; [|exact HN]. cbn in *. lia.
Qed.

(** in place, all strides of one sign: the shifts of input and output agree *)
Lemma flip_same a di vec t' ish osh : a = 1 \/ a = -1 -> sgn a a vec -> no1 vec ->
  NoDup (locs (ti (mkdim 2 di di :: vec))) -> NoDup (locs (to_ (mkdim 2 di di :: vec))) ->
  (forall o, In o (locs (ti (mkdim 2 di di :: vec))) <-> In o (locs (to_ (mkdim 2 di di :: vec)))) ->
  flip_dims (mkdim 2 di di :: vec) = (t', ish, osh) -> ish = osh.
Proof.
  intros Ha Hs Hn N1 N2 S E. cbn [flip_dims dn dis dos] in E.
  assert (G : snd (fst (flip_dims vec)) = snd (flip_dims vec)).
  { destruct Ha as [Ha|Ha]; subst a.
    - rewrite flip_pos; auto. eapply Forall_impl; [|exact Hs]. cbn beta. intros d [H _]. lia.
    - assert (F1 : Forall (fun p => 1 < fst p) (ti vec)).
      { apply Forall_map. exact Hn. }
      assert (F2 : Forall (fun p => 1 < fst p) (to_ vec)).
      { apply Forall_map. exact Hn. }
      cbn [ti to_ map dn dis dos] in N1, N2.
      pose proof (NoDup_nonzero _ F1 (NoDup_locs_tail (2, di) _ eq_refl N1)) as Z1.
      pose proof (NoDup_nonzero _ F2 (NoDup_locs_tail (2, di) _ eq_refl N2)) as Z2.
      destruct (flip_neg vec) as [-> ->].
      { assert (Z1' : Forall (fun d => dis d <> 0) vec) by (unfold ti in Z1; rewrite Forall_map in Z1; exact Z1).
        eapply Forall_impl; [|exact (Forall_and Z1' Hs)]. cbn beta. intros d [A [B _]]. lia. }
      assert (L1 : Forall (fun p => snd p <= 0) (ti vec)).
      { apply Forall_map. eapply Forall_impl; [|exact Hs]. cbn beta. cbn [snd]. intros d. lia. }
      assert (L2 : Forall (fun p => snd p <= 0) (to_ vec)).
      { apply Forall_map. eapply Forall_impl; [|exact Hs]. cbn beta. cbn [snd]. intros d. lia. }
      assert (Q1 : Forall (fun p => 0 < fst p) (ti vec)) by (eapply Forall_impl; [|exact F1]; cbn; intros; lia).
      assert (Q2 : Forall (fun p => 0 < fst p) (to_ vec)) by (eapply Forall_impl; [|exact F2]; cbn; intros; lia).
      cbn [ti to_ map dn dis dos] in S.
      assert (K : forall t u, Forall (fun p => 0 < fst p) t -> Forall (fun p => snd p <= 0) u ->
         (forall o, In o (locs ((2, di) :: t)) -> In o (locs ((2, di) :: u))) -> lowest u <= lowest t).
      { intros t u H1 H2 H3.
        specialize (H3 ((if di <? 0 then 1 else 0) * di + lowest t)). 
        assert (A : In ((if di <? 0 then 1 else 0) * di + lowest t) (locs ((2, di) :: u))).
        { apply H3. apply in_locs_cons. exists (if di <? 0 then 1 else 0), (lowest t). split; [destruct (di <? 0); lia|]. split; [now apply lowest_in|auto]. }
        apply in_locs_cons in A as (i & y & Hi & Hy & Ey). apply (lowest_le _ H2) in Hy.
        destruct (di <? 0) eqn:Ed; nia. }
      apply Z.le_antisymm; [apply (K (to_ vec) (ti vec))|apply (K (ti vec) (to_ vec))]; auto; intros o; apply S. }
  destruct (flip_dims vec) as ((t2 & x) & y). cbn [fst snd] in G. subst y.
  destruct (di <? 0); injection E as _ <- <-; reflexivity.
Qed.

Lemma r2hc0_correct nd ip a b di do_ vec t' ish osh f : a = 1 \/ a = -1 -> (ip = true -> a = b) -> (ip = true -> di = do_) ->
  sgn a b vec -> no1 vec ->
  flip_dims (mkdim 2 di do_ :: vec) = (t', ish, osh) ->
  Correct true (ip && (ish =? osh)) xcopy t' f ->
  Correct nd ip (cx di do_ []) vec (fun nx I O m => f nx (sh I ish) (sh O osh) m).
Proof.
  intros Ha Hab Hd Hs Hn E C. apply cx_nil_xcopy. apply Correct_nd.
  assert (P : posd (mkdim 2 di do_ :: vec)). { constructor; [cbn; lia|]. now apply no1_pos. }
  destruct (flip_dims_offs _ _ _ _ P E) as [Q Pt]. apply posd_nneg in Pt.
  destruct (Bool.bool_dec ip true) as [Ei|Ei].
  - intros nx I O m HW.
    assert (ish = osh).
    { pose proof HW as [W1 W2 W3 W4 W5 W6]. rewrite Ei in W6. destruct W6 as [_ W6]. rewrite <- (Hab Ei) in Hs.
      pose proof (Hd Ei). subst do_.
      assert (XI : il xcopy (mkdim 2 di di :: vec) = locs (ti (mkdim 2 di di :: vec))) by (unfold il; cbn [xi xcopy]; now rewrite lplus_0_l).
      assert (XO : ol xcopy (mkdim 2 di di :: vec) = locs (to_ (mkdim 2 di di :: vec))) by (unfold ol; cbn [xo xcopy map fst]; now rewrite lplus_0_l).
      rewrite XI in *. rewrite XO in *. eapply flip_same; eauto. }
    subst osh. rewrite Z.eqb_refl, andb_true_r in C.
    revert nx I O m HW. change (Correct true ip xcopy (mkdim 2 di do_ :: vec) (fun nx I O m => f nx (sh I ish) (sh O ish) m)).
    apply (Correct_copy_offs true ip _ t'); auto.
  - apply not_true_is_false in Ei. subst ip. cbn [andb] in C. apply (Correct_copy_offs true false _ t'); auto. discriminate.
Qed.

Lemma nop0_correct nd di vec : tensor_inplace_strides vec = true -> Correct nd true (cx di di []) vec (fun _ _ _ m => m).
Proof.
  intros H. apply cx_nil_xcopy. apply nop_correct. unfold tensor_inplace_strides in *. cbn [forallb]. cbn [dis dos]. now rewrite Z.eqb_refl.
Qed.

(** ** X(mkproblem_dft): canonical tensors *)
Definition sgn1 (a b : Z) (t : list iodim) : Prop := Forall (fun d => dn d <> 1 -> 0 <= a * dis d /\ 0 <= b * dos d) t.
Lemma sgn_sgn1 a b t : sgn a b t -> sgn1 a b t.
Proof. apply Forall_impl. auto. Qed.
Lemma sgn_app a b t u : sgn a b (t ++ u) <-> sgn a b t /\ sgn a b u.
Proof. apply Forall_app. Qed.
Lemma sgn1_app a b t u : sgn1 a b (t ++ u) <-> sgn1 a b t /\ sgn1 a b u.
Proof. apply Forall_app. Qed.
Lemma sgn1_really a b t : sgn1 a b t -> sgn a b (really_compress t).
Proof.
  intros H. apply Forall_forall. intros d Hd. apply filter_In in Hd as [Hd E]. unfold sgn1 in H. rewrite Forall_forall in H.
  apply H; auto. apply negb_true_iff, Z.eqb_neq in E. exact E.
Qed.
Lemma sgn1_compress qs a b t : qsort_perm qs -> sgn1 a b t -> sgn a b (tensor_compress qs t).
Proof.
  intros Hq H. unfold tensor_compress. eapply Permutation_Forall; [now apply canonicalize_perm|]. now apply sgn1_really.
Qed.
Lemma merge_loop_sgn a b prev cur rest : sgn a b [cur] -> sgn a b rest -> sgn a b (merge_loop prev cur rest).
Proof.
  revert prev cur. induction rest as [|d rest IH]; intros prev cur Hc Hr; cbn [merge_loop]; auto.
  inversion Hr; subst. destruct (strides_contig prev d).
  - apply IH; auto. constructor; auto.
  - inversion Hc; subst. constructor; auto. apply IH; auto. constructor; auto.
Qed.
Lemma sgn1_compress_contiguous qs a b t t' : qsort_perm qs -> sgn1 a b t -> tensor_compress_contiguous qs t = Some t' -> sgn a b t'.
Proof.
  intros Hq H. unfold tensor_compress_contiguous. destruct (tensor_sz t =? 0); [discriminate|].
  pose proof (sgn1_really _ _ _ H) as S.
  destruct (Nat.leb (length (really_compress t)) 1).
  - intros E; injection E as <-. auto.
  - pose proof (Hq compare_by_istride (really_compress t)) as P.
    destruct (qs compare_by_istride (really_compress t)) as [|d rest].
    + intros E; injection E as <-. constructor.
    + intros E; injection E as <-. apply (Permutation_Forall P) in S. inversion S; subst.
      eapply Permutation_Forall; [now apply canonicalize_perm|]. apply merge_loop_sgn; auto. constructor; auto.
Qed.
Lemma child_correct qs nd ip di do_ sz vec vec' f : qsort_perm qs -> posd sz -> nnegd vec ->
  tensor_compress_contiguous qs vec = Some vec' ->
  Correct nd ip (cx di do_ (tensor_compress qs sz)) vec' f -> Correct nd ip (cx di do_ sz) vec f.
Proof.
  intros Hq Ps Nv E C. destruct (compress_contiguous_offs _ _ _ Hq Nv E) as [P Q].
  eapply Correct_sim; [|exact P| |exact C].
  - apply xsim_cx; [now apply tensor_compress_offs|now apply tensor_compress_sim].
  - intros _. now apply posd_nneg.
Qed.
Lemma empty_correct qs nd ip di do_ sz vec : tensor_compress_contiguous qs vec = None -> nnegd vec ->
  Correct nd ip (cx di do_ sz) vec (fun _ _ _ m => m).
Proof.
  intros H N. apply compress_contiguous_None in H. intros nx I O m HW. split.
  - intros p q Hp. now rewrite tensor_sz_0_offs in Hp.
  - intros l _ _ _. reflexivity.
Qed.
