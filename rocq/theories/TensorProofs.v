(** * Proofs about the tensor operations *)
From Coq Require Import Reals ZArith List Lia Bool Permutation.
From Verif Require Import NumTheory Cplx Spec TensorModel Offs.
Import ListNotations.
Open Scope Z_scope.

Definition posd (t : list iodim) : Prop := Forall (fun d => 0 < dn d) t.
Definition nnegd (t : list iodim) : Prop := Forall (fun d => 0 <= dn d) t.

Lemma posd_nneg t : posd t -> nnegd t.
Proof. intros H. eapply Forall_impl; [|exact H]. cbn. intros; lia. Qed.

(** ** isort is a qsort *)
Lemma insert_perm cmp x l : Permutation (x :: l) (insert cmp x l).
Proof.
  induction l as [|y l IH]; cbn; auto. destruct (cmp x y <=? 0); auto.
  rewrite perm_swap. now apply perm_skip.
Qed.
Lemma isort_perm : qsort_perm isort.
Proof.
  intros cmp l. unfold isort. induction l as [|x l IH]; cbn; auto.
  rewrite <- insert_perm. now apply perm_skip.
Qed.
Lemma insert_sorted cmp x l : (forall a b, 0 < cmp a b -> cmp b a <= 0) ->
  adj_sorted cmp l -> adj_sorted cmp (insert cmp x l).
Proof.
  intros Ht. induction l as [|y l IH]; cbn; auto.
  destruct (cmp x y <=? 0) eqn:E.
  - apply Z.leb_le in E. intros H. split; auto.
  - apply Z.leb_gt in E. intros H. cbn. destruct l as [|z l]; cbn.
    + split; auto.
    + cbn in IH. destruct H as [H1 H2]. specialize (IH H2).
      destruct (cmp x z <=? 0) eqn:E2; cbn in *; intuition.
Qed.
Lemma isort_sorted cmp l : (forall a b, 0 < cmp a b -> cmp b a <= 0) -> adj_sorted cmp (isort cmp l).
Proof. intros H. unfold isort. induction l as [|x l IH]; cbn; auto. now apply insert_sorted. Qed.

(** ** Sizes *)
Lemma tensor_sz_nonneg t : nnegd t -> 0 <= tensor_sz t.
Proof. induction 1; cbn; [lia|]. nia. Qed.
Lemma tensor_sz_pos t : nnegd t -> tensor_sz t <> 0 -> posd t.
Proof.
  induction 1 as [|d t H1 H2 IH]; cbn; intros H; constructor.
  - assert (dn d <> 0) by (intros E; rewrite E in H; lia). lia.
  - apply IH. intros E; rewrite E in H; lia.
Qed.
Lemma posd_sz t : posd t -> tensor_sz t <> 0.
Proof. induction 1; cbn; nia. Qed.
Lemma tensor_sz_0_offs t : nnegd t -> tensor_sz t = 0 -> offs t = [].
Proof.
  induction 1 as [|d t H1 H2 IH]; cbn [tensor_sz]; intros H; [lia|].
  destruct (Z.eq_dec (dn d) 0) as [E|E].
  - apply offs_0. lia.
  - cbn [offs]. rewrite IH by (apply Z.mul_eq_0 in H as [H|H]; [contradiction|exact H]). apply oplus_nil_r.
Qed.

(** ** Compression *)
Lemma really_compress_offs t : offs (really_compress t) = offs t.
Proof.
  induction t as [|d t IH]; [reflexivity|]. cbn [really_compress filter].
  destruct (dn d =? 1) eqn:E; cbn [negb].
  - apply Z.eqb_eq in E. rewrite offs_1; auto.
  - cbn [offs]. f_equal. exact IH.
Qed.
Lemma canonicalize_perm qs t : qsort_perm qs -> Permutation t (canonicalize qs t).
Proof. intros Hq. unfold canonicalize. destruct (Nat.ltb 1 (length t)); auto. Qed.

Lemma tensor_compress_offs qs t : qsort_perm qs -> Permutation (offs t) (offs (tensor_compress qs t)).
Proof.
  intros Hq. unfold tensor_compress. rewrite <- (really_compress_offs t).
  apply offs_perm. now apply canonicalize_perm.
Qed.

Lemma really_compress_pos t : posd t -> posd (really_compress t).
Proof.
  unfold posd, really_compress. rewrite !Forall_forall. intros H x Hx. apply filter_In in Hx as [Hx _]. auto.
Qed.
Lemma posd_perm a b : Permutation a b -> posd a -> posd b.
Proof. apply Permutation_Forall. Qed.
Lemma tensor_compress_pos qs t : qsort_perm qs -> posd t -> posd (tensor_compress qs t).
Proof.
  intros Hq H. unfold tensor_compress. eapply posd_perm; [now apply canonicalize_perm|].
  now apply really_compress_pos.
Qed.
Lemma tensor_compress_no1 qs t d : qsort_perm qs -> In d (tensor_compress qs t) -> dn d <> 1.
Proof.
  intros Hq H. unfold tensor_compress in H.
  apply (Permutation_in _ (Permutation_sym (canonicalize_perm qs _ Hq))) in H.
  apply filter_In in H as [_ H]. apply negb_true_iff, Z.eqb_neq in H. exact H.
Qed.

Lemma merge_loop_offs prev cur rest :
  dis cur = dis prev -> dos cur = dos prev -> 0 <= dn cur -> nnegd rest ->
  offs (merge_loop prev cur rest) = offs (cur :: rest).
Proof.
  revert prev cur. induction rest as [|d rest IH]; intros prev cur E1 E2 Hc Hr; [reflexivity|].
  inversion Hr; subst. cbn [merge_loop]. destruct (strides_contig prev d) eqn:Es.
  - unfold strides_contig in Es. apply andb_prop in Es as [Ea Eb]. apply Z.eqb_eq in Ea, Eb.
    rewrite IH; cbn [dn dis dos]; auto; [|nia]. rewrite offs_merge by auto.
    destruct cur as [n s u], d as [n' s' u']. cbn [dn dis dos] in *. subst. rewrite Ea, Eb. reflexivity.
  - cbn [offs]. f_equal. apply IH; auto.
Qed.
Lemma merge_loop_pos prev cur rest : 0 < dn cur -> posd rest -> posd (merge_loop prev cur rest).
Proof.
  revert prev cur. induction rest as [|d rest IH]; intros prev cur Hc Hr; cbn [merge_loop].
  - constructor; auto.
  - inversion Hr; subst. destruct (strides_contig prev d).
    + apply IH; auto. cbn. nia.
    + constructor; auto. apply IH; auto.
Qed.

Lemma compress_contiguous_None qs t :
  tensor_compress_contiguous qs t = None <-> tensor_sz t = 0.
Proof.
  unfold tensor_compress_contiguous. destruct (tensor_sz t =? 0) eqn:E.
  - apply Z.eqb_eq in E. tauto.
  - apply Z.eqb_neq in E. split; [|tauto]. destruct (Nat.leb _ _); [discriminate|].
    destruct (qs _ _); discriminate.
Qed.

Lemma compress_contiguous_offs qs t t' : qsort_perm qs -> nnegd t ->
  tensor_compress_contiguous qs t = Some t' -> Permutation (offs t) (offs t') /\ posd t'.
Proof.
  intros Hq Hp. unfold tensor_compress_contiguous. destruct (tensor_sz t =? 0) eqn:E; [discriminate|].
  apply Z.eqb_neq in E. apply tensor_sz_pos in E; auto. clear Hp.
  pose proof (really_compress_pos t E) as Hrp. rewrite <- (really_compress_offs t).
  destruct (Nat.leb (length (really_compress t)) 1).
  - intros H; injection H as <-. auto.
  - pose proof (Hq compare_by_istride (really_compress t)) as P.
    destruct (qs compare_by_istride (really_compress t)) as [|d rest].
    + intros H; injection H as <-. split; [now apply offs_perm|constructor].
    + intros H; injection H as <-. apply (posd_perm _ _ P) in Hrp. inversion Hrp; subst. split.
      * rewrite (offs_perm _ _ P). rewrite <- (merge_loop_offs d d rest); auto; [|lia|now apply posd_nneg].
        apply offs_perm. now apply canonicalize_perm.
      * eapply posd_perm; [now apply canonicalize_perm|]. apply merge_loop_pos; auto.
Qed.

(** ** In-place locations *)
Lemma dims_equal_eq a b : dims_equal a b = true -> a = b.
Proof.
  revert b. induction a as [|x a IH]; intros [|y b]; cbn; try discriminate; auto.
  intros H. apply andb_prop in H as [H1 H2]. f_equal; auto.
  unfold dim_eqb in H1. apply andb_prop in H1 as [H1 H3]. apply andb_prop in H1 as [H1 H4].
  apply Z.eqb_eq in H1, H3, H4. destruct x, y; cbn in *; congruence.
Qed.
Lemma copy_inplace_is t : offs (tensor_copy_inplace t INPLACE_IS) = map (fun o => (o, o)) (locs (ti t)).
Proof.
  induction t as [|d t IH]; [reflexivity|]. cbn [tensor_copy_inplace map offs ti locs].
  fold (tensor_copy_inplace t INPLACE_IS). fold (ti t). rewrite IH.
  unfold oplus, lplus, dimoffs, dimlocs. cbn [dim_inplace dn dis dos fst snd].
  induction (zr (dn d)) as [|i l IHl]; [reflexivity|]. cbn [map flat_map]. rewrite map_app. f_equal; [|exact IHl].
  rewrite !map_map. apply map_ext. reflexivity.
Qed.
Lemma copy_inplace_os t : offs (tensor_copy_inplace t INPLACE_OS) = map (fun o => (o, o)) (locs (to_ t)).
Proof.
  induction t as [|d t IH]; [reflexivity|]. cbn [tensor_copy_inplace map offs to_ locs].
  fold (tensor_copy_inplace t INPLACE_OS). fold (to_ t). rewrite IH.
  unfold oplus, lplus, dimoffs, dimlocs. cbn [dim_inplace dn dis dos fst snd].
  induction (zr (dn d)) as [|i l IHl]; [reflexivity|]. cbn [map flat_map]. rewrite map_app. f_equal; [|exact IHl].
  rewrite !map_map. apply map_ext. reflexivity.
Qed.
Lemma copy_inplace_nneg t k : nnegd t -> nnegd (tensor_copy_inplace t k).
Proof.
  unfold nnegd, tensor_copy_inplace. rewrite !Forall_forall. intros H x Hx.
  apply in_map_iff in Hx as (y & <- & Hy). destruct k; cbn; auto.
Qed.
Lemma copy_inplace_sz t k : tensor_sz (tensor_copy_inplace t k) = tensor_sz t.
Proof. induction t as [|d t IH]; [reflexivity|]. cbn. fold (tensor_copy_inplace t k). rewrite IH. now destruct k. Qed.

Lemma map_diag_fst (l : list Z) : map fst (map (fun o => (o, o)) l) = l.
Proof. rewrite map_map. apply map_id. Qed.

Theorem inplace_locations_sound qs sz vec : qsort_perm qs -> nnegd (sz ++ vec) ->
  tensor_inplace_locations qs sz vec = true ->
  Permutation (locs (ti (sz ++ vec))) (locs (to_ (sz ++ vec))).
Proof.
  intros Hq Hp. unfold tensor_inplace_locations. set (t := sz ++ vec) in *.
  destruct (Z.eq_dec (tensor_sz t) 0) as [E|E].
  { intros _. rewrite <- ilocs_offs, <- olocs_offs, tensor_sz_0_offs; auto. }
  destruct (tensor_compress_contiguous qs (tensor_copy_inplace t INPLACE_IS)) as [a|] eqn:Ea.
  2:{ apply compress_contiguous_None in Ea. rewrite copy_inplace_sz in Ea. lia. }
  destruct (tensor_compress_contiguous qs (tensor_copy_inplace t INPLACE_OS)) as [b|] eqn:Eb.
  2:{ apply compress_contiguous_None in Eb. rewrite copy_inplace_sz in Eb. lia. }
  cbn [tensor_equal]. intros H. apply dims_equal_eq in H. subst b.
  apply compress_contiguous_offs in Ea as [Ea _]; auto; [|now apply copy_inplace_nneg].
  apply compress_contiguous_offs in Eb as [Eb _]; auto; [|now apply copy_inplace_nneg].
  rewrite copy_inplace_is in Ea. rewrite copy_inplace_os in Eb.
  apply (Permutation_map fst) in Ea, Eb. rewrite map_diag_fst in Ea, Eb. now rewrite Ea, Eb.
Qed.

(** ** The transform does not depend on the order of the dimensions, nor on
    dimensions of length 1 *)
Definition sz_sim (a b : list iodim) : Prop :=
  forall ks, in_box a ks -> exists ks', in_box b ks' /\ ooff a ks = ooff b ks' /\
    forall x, mdft a x ks = mdft b x ks'.

Lemma mdft_ext sz x y ks : in_box sz ks -> (forall js, in_box sz js -> x (ioff sz js) = y (ioff sz js)) ->
  mdft sz x ks = mdft sz y ks.
Proof.
  revert x y ks. induction sz as [|d sz IH]; intros x y [|k ks] Hk H; cbn in *; try easy.
  - apply (H []). exact I.
  - apply Csum_ext. intros j Hj. f_equal. apply IH; [tauto|]. intros js Hjs. apply (H (j :: js)). auto.
Qed.

Lemma mdft_Csum sz n f ks :
  mdft sz (fun o => Csum n (fun i => f i o)) ks = Csum n (fun i => mdft sz (f i) ks).
Proof.
  revert f ks. induction sz as [|d sz IH]; intros f [|k ks]; cbn [mdft]; auto.
  rewrite Csum_swap. apply Csum_ext. intros j Hj.
  rewrite (IH (fun i o => f i (j * dis d + o))). now rewrite Csum_mul_r.
Qed.
Lemma mdft_mul_r sz f c ks : mdft sz (fun o => f o * c)%C ks = (mdft sz f ks * c)%C.
Proof.
  revert f ks. induction sz as [|d sz IH]; intros f [|k ks]; cbn [mdft]; auto.
  rewrite <- Csum_mul_r. apply Csum_ext. intros j Hj. rewrite (IH (fun o => f (j * dis d + o))). ring.
Qed.
Lemma mdft_app a b x ks ls : length ks = length a ->
  mdft (a ++ b) x (ks ++ ls) = mdft a (fun o => mdft b (fun o' => x (o + o')) ls) ks.
Proof.
  revert x ks. induction a as [|d a IH]; intros x [|k ks] E; cbn [app mdft]; try discriminate.
  - reflexivity.
  - apply Csum_ext. intros j Hj. f_equal. rewrite IH by (cbn in E; lia). f_equal.
    assert (X : forall o, mdft b (fun o' => x (j * dis d + (o + o'))) ls = mdft b (fun o' => x (j * dis d + o + o')) ls).
    { intros o. f_equal. apply FunctionalExtensionality.functional_extensionality. intros o'. f_equal. ring. }
    apply FunctionalExtensionality.functional_extensionality. exact X.
Qed.

Lemma sz_sim_refl a : sz_sim a a.
Proof. intros ks H. exists ks. auto. Qed.
Lemma sz_sim_trans a b c : sz_sim a b -> sz_sim b c -> sz_sim a c.
Proof.
  intros H1 H2 ks Hk. destruct (H1 ks Hk) as (ks' & Hk' & E1 & E2).
  destruct (H2 ks' Hk') as (ks'' & Hk'' & E3 & E4). exists ks''. split; auto. split; [congruence|].
  intros x. now rewrite E2.
Qed.
Lemma sz_sim_cons d a b : sz_sim a b -> sz_sim (d :: a) (d :: b).
Proof.
  intros H [|k ks] Hk; [easy|]. cbn in Hk. destruct Hk as [H1 H2].
  destruct (H ks H2) as (ks' & Hk' & E1 & E2). exists (k :: ks'). cbn. split; auto. split; [congruence|].
  intros x. apply Csum_ext. intros j Hj. now rewrite E2.
Qed.
Lemma sz_sim_swap d e a : sz_sim (d :: e :: a) (e :: d :: a).
Proof.
  intros [|k [|l ks]] Hk; try (cbn in Hk; tauto). cbn in Hk. exists (l :: k :: ks).
  split; [cbn; tauto|]. split; [cbn; lia|]. intros x. cbn [mdft].
  transitivity (Csum (dn d) (fun j => Csum (dn e) (fun i =>
     mdft a (fun o => x (j * dis d + (i * dis e + o))%Z) ks * W (dn e) (i * l) * W (dn d) (j * k))%C)).
  { apply Csum_ext. intros j Hj. now rewrite <- Csum_mul_r. }
  rewrite Csum_swap. apply Csum_ext. intros i Hi. rewrite <- Csum_mul_r. apply Csum_ext. intros j Hj.
  replace (mdft a (fun o => x (j * dis d + (i * dis e + o))) ks)
    with (mdft a (fun o => x (i * dis e + (j * dis d + o))) ks); [ring|].
  f_equal. apply FunctionalExtensionality.functional_extensionality. intros o. f_equal. ring.
Qed.
Lemma sz_sim_perm a b : Permutation a b -> sz_sim a b.
Proof.
  induction 1.
  - apply sz_sim_refl.
  - now apply sz_sim_cons.
  - apply sz_sim_swap.
  - eapply sz_sim_trans; eauto.
Qed.
Lemma sz_sim_drop1 d a : dn d = 1 -> sz_sim (d :: a) a.
Proof.
  intros Hd [|k ks] Hk; [easy|]. cbn in Hk. exists ks. split; [tauto|]. assert (k = 0) by lia. subst k.
  split; [cbn; lia|]. intros x. cbn [mdft]. rewrite Hd, Csum_1, Z.mul_0_l, W_0.
  apply C_eq; unfold cmul, C1; cbn [fst snd]; ring_simplify; reflexivity.
Qed.
Lemma sz_sim_really t : sz_sim t (really_compress t).
Proof.
  induction t as [|d t IH]; [apply sz_sim_refl|]. cbn [really_compress filter].
  destruct (dn d =? 1) eqn:E; cbn [negb].
  - apply Z.eqb_eq in E. eapply sz_sim_trans; [|exact IH]. now apply sz_sim_drop1.
  - now apply sz_sim_cons.
Qed.
Lemma tensor_compress_sim qs t : qsort_perm qs -> sz_sim t (tensor_compress qs t).
Proof.
  intros Hq. eapply sz_sim_trans; [apply sz_sim_really|]. apply sz_sim_perm. now apply canonicalize_perm.
Qed.

Definition no1 (t : list iodim) : Prop := Forall (fun d => 1 < dn d) t.
Lemma merge_loop_no1 prev cur rest : 1 < dn cur -> no1 rest -> no1 (merge_loop prev cur rest).
Proof.
  revert prev cur. induction rest as [|d rest IH]; intros prev cur Hc Hr; cbn [merge_loop].
  - constructor; auto.
  - inversion Hr; subst. destruct (strides_contig prev d).
    + apply IH; auto. cbn. nia.
    + constructor; auto. apply IH; auto.
Qed.
Lemma no1_perm a b : Permutation a b -> no1 a -> no1 b.
Proof. apply Permutation_Forall. Qed.
Lemma no1_pos a : no1 a -> posd a.
Proof. apply Forall_impl. intros; lia. Qed.
Lemma really_compress_no1 t : posd t -> no1 (really_compress t).
Proof.
  intros H. apply Forall_forall. intros d Hd. apply filter_In in Hd as [Hd E].
  apply negb_true_iff, Z.eqb_neq in E. unfold posd in H. rewrite Forall_forall in H. specialize (H d Hd). cbn in H. lia.
Qed.
Lemma compress_contiguous_no1 qs t t' : qsort_perm qs -> nnegd t ->
  tensor_compress_contiguous qs t = Some t' -> no1 t'.
Proof.
  intros Hq Hp. unfold tensor_compress_contiguous. destruct (tensor_sz t =? 0) eqn:E; [discriminate|].
  apply Z.eqb_neq in E. apply tensor_sz_pos in E; auto. clear Hp.
  pose proof (really_compress_no1 t E) as Hrp.
  destruct (Nat.leb (length (really_compress t)) 1).
  - intros H; injection H as <-. auto.
  - pose proof (Hq compare_by_istride (really_compress t)) as P.
    destruct (qs compare_by_istride (really_compress t)) as [|d rest].
    + intros H; injection H as <-. constructor.
    + intros H; injection H as <-. apply (no1_perm _ _ P) in Hrp. inversion Hrp; subst.
      eapply no1_perm; [now apply canonicalize_perm|]. apply merge_loop_no1; auto.
Qed.
