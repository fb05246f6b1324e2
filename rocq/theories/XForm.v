(** * What it means for an execution function to be correct, and how
    correct pieces compose (proof library).

    An [xform] describes one transform, of real or complex data: the offsets it
    reads, and for each offset it writes the value, as a function of the input
    array.  A problem is an xform together with a vector loop. *)
From Coq Require Import Reals ZArith List Lia Bool Permutation.
From Verif Require Import NumTheory Cplx Spec TensorModel Offs TensorProofs.
Import ListNotations.
Open Scope Z_scope.

Record xform := mkX { xi : list Z; xo : list (Z * ((Z -> R) -> R)) }.

(** the values depend on the declared inputs only *)
Definition xwf (X : xform) : Prop :=
  forall o F, In (o, F) (xo X) -> forall x y, (forall z, In z (xi X) -> x z = y z) -> F x = F y.

(** An execution function: [nx] is the first unused block number (allocations
    made during execution take blocks >= nx), then input and output pointer. *)
Definition rapply := nat -> loc -> loc -> mem -> mem.

Definition InP (p : loc) (S : list Z) (l : loc) : Prop := exists o, In o S /\ l = sh p o.

Definition il (X : xform) (vec : list iodim) := lplus (xi X) (locs (ti vec)).
Definition ol (X : xform) (vec : list iodim) := lplus (map fst (xo X)) (locs (to_ vec)).

Record Wf (nx : nat) (ip : bool) (I O : loc) (X : xform) (vec : list iodim) : Prop := {
  wf_bi : (fst I < nx)%nat;
  wf_bo : (fst O < nx)%nat;
  wf_vec : nnegd vec;
  wf_i : NoDup (il X vec);
  wf_o : NoDup (ol X vec);
  wf_x : if ip then I = O /\ (forall o, In o (il X vec) <-> In o (ol X vec))
         else forall l, InP I (il X vec) l -> InP O (ol X vec) l -> False
}.

Definition vals (X : xform) (vec : list iodim) (I O : loc) (m m' : mem) : Prop :=
  forall a b, In (a, b) (offs vec) -> forall o F, In (o, F) (xo X) ->
    m' (sh O (b + o)) = F (fun z => m (sh I (a + z))).

Definition frame (nx : nat) (nd : bool) (X : xform) (vec : list iodim) (I O : loc) (m m' : mem) : Prop :=
  forall l, (fst l < nx)%nat -> ~ InP O (ol X vec) l ->
    (nd = true \/ ~ InP I (il X vec) l) -> m' l = m l.

Definition Correct (nd ip : bool) (X : xform) (vec : list iodim) (f : rapply) : Prop :=
  forall nx I O m, Wf nx ip I O X vec ->
    vals X vec I O m (f nx I O m) /\ frame nx nd X vec I O m (f nx I O m).

(** ** Locations *)
Lemma sh_sh p a b : sh (sh p a) b = sh p (a + b).
Proof. unfold sh. cbn. f_equal. lia. Qed.
Lemma sh_0 p : sh p 0 = p.
Proof. destruct p. unfold sh. cbn. f_equal. lia. Qed.
Lemma sh_inj p a b : sh p a = sh p b -> a = b.
Proof. unfold sh. intros H. injection H. lia. Qed.
Lemma sh_blk p a : fst (sh p a) = fst p. Proof. reflexivity. Qed.

Lemma InP_sh p a S l : InP (sh p a) S l <-> InP p (map (Z.add a) S) l.
Proof.
  unfold InP. split.
  - intros (o & Ho & ->). exists (a + o). rewrite sh_sh. split; auto. now apply in_map.
  - intros (o & Ho & ->). apply in_map_iff in Ho as (x & <- & Hx). exists x. now rewrite sh_sh.
Qed.
Lemma InP_incl p S S' l : incl S S' -> InP p S l -> InP p S' l.
Proof. intros H (o & Ho & E). exists o. auto. Qed.
Lemma InP_blk nx p S l : (fst p < nx)%nat -> InP p S l -> (fst l < nx)%nat.
Proof. intros H (o & Ho & ->). now rewrite sh_blk. Qed.
Lemma InP_in p S o : InP p S (sh p o) <-> In o S.
Proof. split; [intros (x & Hx & E); apply sh_inj in E; now subst|]. intros H; exists o; auto. Qed.
Lemma InP_intro p S o : In o S -> InP p S (sh p o).
Proof. intros H; exists o; auto. Qed.
Lemma InP_perm p S S' l : Permutation S S' -> InP p S l -> InP p S' l.
Proof. intros P. apply InP_incl. intros o. now apply Permutation_in. Qed.
Lemma InP_shift_incl p a S S' l : (forall o, In o S' -> In (a + o) S) -> InP (sh p a) S' l -> InP p S l.
Proof. intros H (o & Ho & ->). rewrite sh_sh. exists (a + o). auto. Qed.

(** ** il / ol *)
Lemma lplus_perm_l a a' b : Permutation a a' -> Permutation (lplus a b) (lplus a' b).
Proof. intros H. unfold lplus. now apply Permutation_flat_map. Qed.
Lemma lplus_nil_r a : lplus a [] = [].
Proof. induction a; cbn; auto. Qed.
Lemma lplus_cons_r a p b : Permutation (lplus a (p :: b)) (map (Z.add p) a ++ lplus a b).
Proof.
  induction a as [|q a IH]; [reflexivity|].
  change (lplus (q :: a) (p :: b)) with (map (Z.add q) (p :: b) ++ lplus a (p :: b)).
  change (lplus (q :: a) b) with (map (Z.add q) b ++ lplus a b). cbn [map app].
  rewrite (Z.add_comm q p). apply perm_skip. rewrite IH.
  rewrite !app_assoc. apply Permutation_app_tail. apply Permutation_app_comm.
Qed.
Lemma lplus_comm a b : Permutation (lplus a b) (lplus b a).
Proof.
  revert b. induction a as [|p a IH]; intros b.
  - rewrite lplus_nil_r. reflexivity.
  - change (lplus (p :: a) b) with (map (Z.add p) b ++ lplus a b). rewrite IH. symmetry. apply lplus_cons_r.
Qed.
Lemma lplus_perm_r a b b' : Permutation b b' -> Permutation (lplus a b) (lplus a b').
Proof. intros H. rewrite (lplus_comm a b), (lplus_comm a b'). now apply lplus_perm_l. Qed.
Lemma lplus_0_r a : lplus a [0] = a.
Proof.
  induction a as [|x a IH]; [reflexivity|]. change (lplus (x :: a) [0]) with (x + 0 :: lplus a [0]).
  rewrite IH. f_equal. lia.
Qed.
Lemma lplus_0_l b : lplus [0] b = b.
Proof. unfold lplus. cbn. rewrite app_nil_r. rewrite <- (map_id b) at 2. apply map_ext. intros; lia. Qed.

Lemma lplus_cons_perm A n s t : Permutation (lplus A (locs ((n, s) :: t))) (lplus (dimlocs (n, s)) (lplus A (locs t))).
Proof.
  cbn [locs]. rewrite <- !lplus_assoc. apply lplus_perm_l, lplus_comm.
Qed.
Lemma il_cons_perm X d vec : Permutation (il X (d :: vec)) (lplus (dimlocs (dn d, dis d)) (il X vec)).
Proof. apply lplus_cons_perm. Qed.
Lemma ol_cons_perm X d vec : Permutation (ol X (d :: vec)) (lplus (dimlocs (dn d, dos d)) (ol X vec)).
Proof. apply lplus_cons_perm. Qed.
Lemma in_dimlocs x n s : In x (dimlocs (n, s)) <-> exists i, 0 <= i < n /\ x = i * s.
Proof.
  unfold dimlocs. cbn. rewrite in_map_iff. split.
  - intros (i & <- & Hi). apply in_zr in Hi. eauto.
  - intros (i & Hi & ->). exists i. split; auto. now apply in_zr.
Qed.
Lemma in_lplus_dim x n s A : In x (lplus (dimlocs (n, s)) A) <-> exists i o, 0 <= i < n /\ In o A /\ x = i * s + o.
Proof.
  rewrite in_lplus. split.
  - intros (p & q & Hp & Hq & ->). apply in_dimlocs in Hp as (i & Hi & ->). eauto.
  - intros (i & o & Hi & Ho & ->). exists (i * s), o. split; [apply in_dimlocs; eauto|auto].
Qed.
Lemma in_il_cons x X d vec : In x (il X (d :: vec)) <->
  exists i o, 0 <= i < dn d /\ In o (il X vec) /\ x = i * dis d + o.
Proof. rewrite <- in_lplus_dim. split; apply Permutation_in; [|symmetry]; apply il_cons_perm. Qed.
Lemma in_ol_cons x X d vec : In x (ol X (d :: vec)) <->
  exists i o, 0 <= i < dn d /\ In o (ol X vec) /\ x = i * dos d + o.
Proof. rewrite <- in_lplus_dim. split; apply Permutation_in; [|symmetry]; apply ol_cons_perm. Qed.
Lemma lplus_dim_inj n s A i i' o o' : NoDup (lplus (dimlocs (n, s)) A) ->
  0 <= i < n -> 0 <= i' < n -> In o A -> In o' A -> i * s + o = i' * s + o' -> i = i' /\ o = o'.
Proof.
  intros H Hi Hi' Ho Ho' E.
  destruct (NoDup_lplus_inv _ _ H (i * s) (i' * s) o o') as [E1 E2]; auto; try (apply in_dimlocs; eauto).
  split; auto. apply NoDup_lplus_l with (q := o) in H; auto. eapply NoDup_dimlocs; eauto.
Qed.
Lemma lplus_dim_add a b s A : 0 <= a -> 0 <= b ->
  lplus (dimlocs (a + b, s)) A = lplus (dimlocs (a, s)) A ++ map (Z.add (a * s)) (lplus (dimlocs (b, s)) A).
Proof.
  intros Ha Hb. unfold dimlocs. cbn [fst snd]. rewrite zr_add by auto.
  rewrite map_app, lplus_app_l. f_equal. rewrite <- lplus_shift_l. f_equal. rewrite !map_map. apply map_ext.
  intros; lia.
Qed.
Lemma NoDup_lplus_range n s A i0 n' : 0 <= i0 -> 0 <= n' -> i0 + n' <= n ->
  NoDup (lplus (dimlocs (n, s)) A) -> NoDup (lplus (dimlocs (n', s)) A).
Proof.
  intros H1 H2 H3. replace n with (i0 + (n' + (n - i0 - n'))) by ring. rewrite lplus_dim_add by lia.
  intros H. apply NoDup_app_inv in H as (_ & H & _). apply NoDup_map_shift in H.
  rewrite lplus_dim_add in H by lia. apply NoDup_app_inv in H. tauto.
Qed.
Lemma il_inj_cons X d vec i i' o o' : NoDup (il X (d :: vec)) -> 0 <= i < dn d -> 0 <= i' < dn d ->
  In o (il X vec) -> In o' (il X vec) -> i * dis d + o = i' * dis d + o' -> i = i' /\ o = o'.
Proof. intros H. apply (Permutation_NoDup (il_cons_perm X d vec)) in H. now apply lplus_dim_inj. Qed.
Lemma ol_inj_cons X d vec i i' o o' : NoDup (ol X (d :: vec)) -> 0 <= i < dn d -> 0 <= i' < dn d ->
  In o (ol X vec) -> In o' (ol X vec) -> i * dos d + o = i' * dos d + o' -> i = i' /\ o = o'.
Proof. intros H. apply (Permutation_NoDup (ol_cons_perm X d vec)) in H. now apply lplus_dim_inj. Qed.

Lemma in_il_intro X vec a b z : In (a, b) (offs vec) -> In z (xi X) -> In (a + z) (il X vec).
Proof.
  intros H1 H2. apply in_lplus. exists z, a. split; auto. split; [|lia].
  rewrite <- ilocs_offs. apply in_map_iff. exists (a, b). auto.
Qed.
Lemma in_ol_intro X vec a b o F : In (a, b) (offs vec) -> In (o, F) (xo X) -> In (b + o) (ol X vec).
Proof.
  intros H1 H2. apply in_lplus. exists o, b. split; [apply in_map_iff; exists (o, F); auto|]. split; [|lia].
  rewrite <- olocs_offs. apply in_map_iff. exists (a, b). auto.
Qed.
Lemma in_ol_inv x X vec : In x (ol X vec) -> exists a b o F, In (a, b) (offs vec) /\ In (o, F) (xo X) /\ x = b + o.
Proof.
  intros H. apply in_lplus in H as (p & q & Hp & Hq & ->). apply in_map_iff in Hp as ((o & F) & <- & Ho).
  rewrite <- olocs_offs in Hq. apply in_map_iff in Hq as ((a & b) & <- & Hq). exists a, b, o, F. cbn. split; auto. split; auto. lia.
Qed.
Lemma in_il_inv x X vec : In x (il X vec) -> exists a b z, In (a, b) (offs vec) /\ In z (xi X) /\ x = a + z.
Proof.
  intros H. apply in_lplus in H as (p & q & Hp & Hq & ->).
  rewrite <- ilocs_offs in Hq. apply in_map_iff in Hq as ((a & b) & <- & Hq). exists a, b, p. cbn. split; auto. split; auto. lia.
Qed.

(** ** Values are determined by the input cells *)
Lemma vals_ext X vec I O m1 m2 m' : xwf X ->
  (forall o, In o (il X vec) -> m1 (sh I o) = m2 (sh I o)) ->
  vals X vec I O m1 m' -> vals X vec I O m2 m'.
Proof.
  intros HX E H a b Hab o F HoF. rewrite (H a b Hab o F HoF). eapply HX; eauto.
  intros z Hz. apply E. eapply in_il_intro; eauto.
Qed.

(** ** Changing the description *)
Definition xsim (X X' : xform) : Prop :=
  Permutation (xi X) (xi X') /\ Permutation (map fst (xo X)) (map fst (xo X')) /\
  forall o F, In (o, F) (xo X) -> exists F', In (o, F') (xo X') /\ forall x, F x = F' x.

Lemma xsim_refl X : xsim X X.
Proof. split; [|split]; auto. intros o F H. exists F. auto. Qed.

Lemma il_perm X X' vec vec' : Permutation (xi X) (xi X') -> Permutation (offs vec) (offs vec') ->
  Permutation (il X vec) (il X' vec').
Proof.
  intros H1 H2. unfold il. rewrite <- !ilocs_offs.
  rewrite (lplus_perm_l _ _ _ H1). apply lplus_perm_r. now apply Permutation_map.
Qed.
Lemma ol_perm X X' vec vec' : Permutation (map fst (xo X)) (map fst (xo X')) -> Permutation (offs vec) (offs vec') ->
  Permutation (ol X vec) (ol X' vec').
Proof.
  intros H1 H2. unfold ol. rewrite <- !olocs_offs.
  rewrite (lplus_perm_l _ _ _ H1). apply lplus_perm_r. now apply Permutation_map.
Qed.

Lemma Wf_perm nx ip I O X X' vec vec' :
  Permutation (il X vec) (il X' vec') -> Permutation (ol X vec) (ol X' vec') -> nnegd vec' ->
  Wf nx ip I O X vec -> Wf nx ip I O X' vec'.
Proof.
  intros Pi Po Hn [W1 W2 W3 W4 W5 W6]. constructor; auto.
  - eapply Permutation_NoDup; eauto.
  - eapply Permutation_NoDup; eauto.
  - destruct ip.
    + destruct W6 as [-> E]. split; auto. intros o. split; intros Ho.
      * eapply Permutation_in; [exact Po|]. apply E. eapply Permutation_in; [symmetry; exact Pi|auto].
      * eapply Permutation_in; [exact Pi|]. apply E. eapply Permutation_in; [symmetry; exact Po|auto].
    + intros l Hl Hl'. apply (W6 l).
      * eapply InP_perm; [symmetry; exact Pi|auto].
      * eapply InP_perm; [symmetry; exact Po|auto].
Qed.

Lemma frame_perm nx nd I O X X' vec vec' m m' :
  Permutation (il X vec) (il X' vec') -> Permutation (ol X vec) (ol X' vec') ->
  frame nx nd X' vec' I O m m' -> frame nx nd X vec I O m m'.
Proof.
  intros Pi Po H l Hl Ho Hi. apply H; auto.
  - intros C. apply Ho. eapply InP_perm; [symmetry; exact Po|auto].
  - destruct Hi as [Hi|Hi]; auto. right. intros C. apply Hi. eapply InP_perm; [symmetry; exact Pi|auto].
Qed.

Lemma Correct_sim nd ip X X' vec vec' f :
  xsim X X' -> Permutation (offs vec) (offs vec') -> (nnegd vec -> nnegd vec') ->
  Correct nd ip X' vec' f -> Correct nd ip X vec f.
Proof.
  intros (P1 & P3 & Hs) P2 Hn H nx I O m HW.
  pose proof (il_perm _ _ _ _ P1 P2) as Pi. pose proof (ol_perm _ _ _ _ P3 P2) as Po.
  destruct (H nx I O m) as [Hv Hf].
  { eapply Wf_perm; eauto. apply Hn. apply HW. }
  split.
  - intros a b Hab o F HoF. destruct (Hs o F HoF) as (F' & HF' & E). rewrite E.
    apply Hv; auto. eapply Permutation_in; eauto.
  - eapply frame_perm; eauto.
Qed.

(** the same problem with the vector dimensions permuted *)
Lemma Correct_vperm nd ip X vec vec' f : Permutation vec vec' -> Correct nd ip X vec' f -> Correct nd ip X vec f.
Proof.
  intros P. apply Correct_sim; [apply xsim_refl|now apply offs_perm|]. intros H. eapply Permutation_Forall; eauto.
Qed.

Lemma Correct_ext nd ip X vec f g : (forall nx I O m, f nx I O m = g nx I O m) -> Correct nd ip X vec f -> Correct nd ip X vec g.
Proof. intros E H nx I O m HW. rewrite <- E. now apply H. Qed.

Lemma Correct_nd nd ip X vec f : Correct true ip X vec f -> Correct nd ip X vec f.
Proof.
  intros H nx I O m HW. destruct (H nx I O m HW) as [V F]. split; auto. intros l Hl Ho Hi. apply F; auto.
Qed.

(** ** Sequencing two pieces of a vector loop *)
Definition seq_at (n1 s u : Z) (f1 f2 : rapply) : rapply :=
  fun nx I O m => f2 nx (sh I (n1 * s)) (sh O (n1 * u)) (f1 nx I O m).

Definition same_set (X : xform) (vec : list iodim) : Prop := forall o, In o (il X vec) <-> In o (ol X vec).

Section Pieces.
  Context (nx : nat) (ip : bool) (I O : loc) (X : xform) (vec : list iodim) (n s u : Z).
  Hypothesis HW : Wf nx ip I O X (mkdim n s u :: vec).
  Hypothesis Hip : ip = true -> s = u /\ same_set X vec.

  Lemma piece_il i0 n' o : 0 <= i0 -> 0 <= n' -> i0 + n' <= n ->
    In o (il X (mkdim n' s u :: vec)) -> In (i0 * s + o) (il X (mkdim n s u :: vec)).
  Proof.
    intros H1 H2 H3 Ho. apply in_il_cons in Ho as (i & o' & Hi & Ho & ->). apply in_il_cons. cbn [dn dis dos] in *.
    exists (i0 + i), o'. split; [lia|]. split; auto. ring.
  Qed.
  Lemma piece_ol i0 n' o : 0 <= i0 -> 0 <= n' -> i0 + n' <= n ->
    In o (ol X (mkdim n' s u :: vec)) -> In (i0 * u + o) (ol X (mkdim n s u :: vec)).
  Proof.
    intros H1 H2 H3 Ho. apply in_ol_cons in Ho as (i & o' & Hi & Ho & ->). apply in_ol_cons. cbn [dn dis dos] in *.
    exists (i0 + i), o'. split; [lia|]. split; auto. ring.
  Qed.

  Lemma Wf_piece i0 n' : 0 <= i0 -> 0 <= n' -> i0 + n' <= n ->
    Wf nx ip (sh I (i0 * s)) (sh O (i0 * u)) X (mkdim n' s u :: vec).
  Proof.
    intros Hi0 Hn' Hle. destruct HW as [W1 W2 W3 W4 W5 W6]. inversion W3; subst.
    constructor; auto.
    - constructor; auto.
    - eapply Permutation_NoDup; [symmetry; apply il_cons_perm|]. cbn [dn dis].
      eapply NoDup_lplus_range with (i0 := i0) (n := n); eauto.
      exact (Permutation_NoDup (il_cons_perm X (mkdim n s u) vec) W4).
    - eapply Permutation_NoDup; [symmetry; apply ol_cons_perm|]. cbn [dn dos].
      eapply NoDup_lplus_range with (i0 := i0) (n := n); eauto.
      exact (Permutation_NoDup (ol_cons_perm X (mkdim n s u) vec) W5).
    - destruct ip.
      + destruct W6 as [-> _]. destruct (Hip eq_refl) as [-> E]. split; auto.
        intros o. rewrite in_il_cons, in_ol_cons. cbn.
        split; intros (i & x & Hi & Hx & ->); exists i, x; (split; [lia|]; split; [apply E; auto|auto]).
      + intros l Hl Hl'. apply (W6 l).
        * eapply InP_shift_incl; [|exact Hl]. intros o Ho. eapply piece_il; [| | |exact Ho]; lia.
        * eapply InP_shift_incl; [|exact Hl']. intros o Ho. eapply piece_ol; [| | |exact Ho]; lia.
  Qed.

  (** pieces [i0,i0+n') and [i1,i1+n'') with i0+n' <= i1 touch disjoint cells *)
  Lemma piece_disj_o i0 n' i1 n'' l : 0 <= i0 -> 0 <= n' -> i0 + n' <= i1 -> 0 <= n'' -> i1 + n'' <= n ->
    InP (sh O (i0 * u)) (ol X (mkdim n' s u :: vec)) l -> InP (sh O (i1 * u)) (ol X (mkdim n'' s u :: vec)) l -> False.
  Proof.
    intros H1 H2 H3 H4 H5 (x & Hx & ->) (y & Hy & E). rewrite !sh_sh in E. apply sh_inj in E.
    apply in_ol_cons in Hx as (i & o & Hi & Ho & ->), Hy as (j & o' & Hj & Ho' & ->). cbn in *.
    destruct (ol_inj_cons X (mkdim n s u) vec (i0 + i) (i1 + j) o o') as [E1 _]; auto; cbn; try lia.
    apply HW.
  Qed.
  Lemma piece_disj_i i0 n' i1 n'' l : 0 <= i0 -> 0 <= n' -> i0 + n' <= i1 -> 0 <= n'' -> i1 + n'' <= n ->
    InP (sh I (i0 * s)) (il X (mkdim n' s u :: vec)) l -> InP (sh I (i1 * s)) (il X (mkdim n'' s u :: vec)) l -> False.
  Proof.
    intros H1 H2 H3 H4 H5 (x & Hx & ->) (y & Hy & E). rewrite !sh_sh in E. apply sh_inj in E.
    apply in_il_cons in Hx as (i & o & Hi & Ho & ->), Hy as (j & o' & Hj & Ho' & ->). cbn in *.
    destruct (il_inj_cons X (mkdim n s u) vec (i0 + i) (i1 + j) o o') as [E1 _]; auto; cbn; try lia.
    apply HW.
  Qed.
  Lemma piece_disj_oi i0 n' i1 n'' l : 0 <= i0 -> 0 <= n' -> i0 + n' <= n -> 0 <= i1 -> 0 <= n'' -> i1 + n'' <= n ->
    (i0 + n' <= i1 \/ i1 + n'' <= i0) ->
    InP (sh O (i0 * u)) (ol X (mkdim n' s u :: vec)) l -> InP (sh I (i1 * s)) (il X (mkdim n'' s u :: vec)) l -> False.
  Proof.
    intros H1 H2 H3 H4 H5 H6 H7 HA HB. pose proof (Wf_piece i1 n'' ltac:(lia) H5 H6) as WB.
    destruct (Bool.bool_dec ip true) as [E|E].
    - assert (HB' : InP (sh O (i1 * u)) (ol X (mkdim n'' s u :: vec)) l).
      { pose proof (wf_x _ _ _ _ _ _ WB) as W6. rewrite E in W6. destruct W6 as [<- EE].
        eapply InP_incl; [|exact HB]. intros o. apply EE. }
      destruct H7 as [H7|H7].
      + exact (piece_disj_o i0 n' i1 n'' l H1 H2 H7 H5 H6 HA HB').
      + exact (piece_disj_o i1 n'' i0 n' l H4 H5 H7 H2 H3 HB' HA).
    - apply not_true_is_false in E. pose proof (wf_x _ _ _ _ _ _ HW) as W6. rewrite E in W6. apply (W6 l).
      + eapply InP_shift_incl; [|exact HB]. intros o Ho. eapply piece_il; [| | |exact Ho]; lia.
      + eapply InP_shift_incl; [|exact HA]. intros o Ho. eapply piece_ol; [| | |exact Ho]; lia.
  Qed.
End Pieces.

Lemma Correct_seq nd ip X vec n1 n2 s u f1 f2 : xwf X -> 0 <= n1 -> 0 <= n2 ->
  (ip = true -> s = u /\ same_set X vec) ->
  Correct nd ip X (mkdim n1 s u :: vec) f1 -> Correct nd ip X (mkdim n2 s u :: vec) f2 ->
  Correct nd ip X (mkdim (n1 + n2) s u :: vec) (seq_at n1 s u f1 f2).
Proof.
  intros HX Hn1 Hn2 Hip C1 C2 nx I O m HW. unfold seq_at.
  set (m1 := f1 nx I O m).
  pose proof (Wf_piece _ _ _ _ _ _ _ _ _ HW Hip 0 n1 ltac:(lia) Hn1 ltac:(lia)) as WA.
  rewrite !Z.mul_0_l, !sh_0 in WA.
  pose proof (Wf_piece _ _ _ _ _ _ _ _ _ HW Hip n1 n2 ltac:(lia) Hn2 ltac:(lia)) as WB.
  destruct (C1 nx I O m WA) as [V1 F1]. fold m1 in V1, F1.
  destruct (C2 nx (sh I (n1 * s)) (sh O (n1 * u)) m1 WB) as [V2 F2].
  set (m2 := f2 nx (sh I (n1 * s)) (sh O (n1 * u)) m1) in *.
  assert (LoA : forall o, In o (ol X (mkdim n1 s u :: vec)) -> In o (ol X (mkdim (n1 + n2) s u :: vec))).
  { intros o Ho. change o with (0 * u + o). eapply piece_ol; [| | |exact Ho]; lia. }
  assert (LiA : forall o, In o (il X (mkdim n1 s u :: vec)) -> In o (il X (mkdim (n1 + n2) s u :: vec))).
  { intros o Ho. change o with (0 * s + o). eapply piece_il; [| | |exact Ho]; lia. }
  assert (LoB : forall l, InP (sh O (n1 * u)) (ol X (mkdim n2 s u :: vec)) l -> InP O (ol X (mkdim (n1 + n2) s u :: vec)) l).
  { intros l. apply InP_shift_incl. intros o Ho. eapply piece_ol; [| | |exact Ho]; lia. }
  assert (LiB : forall l, InP (sh I (n1 * s)) (il X (mkdim n2 s u :: vec)) l -> InP I (il X (mkdim (n1 + n2) s u :: vec)) l).
  { intros l. apply InP_shift_incl. intros o Ho. eapply piece_il; [| | |exact Ho]; lia. }
  assert (DO : forall l, InP O (ol X (mkdim n1 s u :: vec)) l -> InP (sh O (n1 * u)) (ol X (mkdim n2 s u :: vec)) l -> False).
  { intros l HA. apply (piece_disj_o _ _ _ _ _ _ _ _ _ HW 0 n1 n1 n2 l); try lia. now rewrite Z.mul_0_l, sh_0. }
  assert (DI : forall l, InP I (il X (mkdim n1 s u :: vec)) l -> InP (sh I (n1 * s)) (il X (mkdim n2 s u :: vec)) l -> False).
  { intros l HA. apply (piece_disj_i _ _ _ _ _ _ _ _ _ HW 0 n1 n1 n2 l); try lia. now rewrite Z.mul_0_l, sh_0. }
  assert (DX1 : forall l, InP O (ol X (mkdim n1 s u :: vec)) l -> InP (sh I (n1 * s)) (il X (mkdim n2 s u :: vec)) l -> False).
  { intros l HA. apply (piece_disj_oi _ _ _ _ _ _ _ _ _ HW Hip 0 n1 n1 n2 l); try lia. now rewrite Z.mul_0_l, sh_0. }
  assert (DX2 : forall l, InP I (il X (mkdim n1 s u :: vec)) l -> InP (sh O (n1 * u)) (ol X (mkdim n2 s u :: vec)) l -> False).
  { intros l HA HB. apply (piece_disj_oi _ _ _ _ _ _ _ _ _ HW Hip n1 n2 0 n1 l); try lia; auto. now rewrite Z.mul_0_l, sh_0. }
  destruct HW as [W1 W2 W3 W4 W5 W6].
  split.
  - intros a b Hab o F HoF. apply in_offs_cons in Hab as (i & (a' & b') & Hi & Hq & E). cbn [dn dis dos fst snd] in *.
    injection E as -> ->.
    destruct (Z_lt_le_dec i n1) as [Hlt|Hge].
    + assert (Hab1 : In (i * s + a', i * u + b') (offs (mkdim n1 s u :: vec))).
      { apply in_offs_cons. exists i, (a', b'). cbn. split; [lia|auto]. }
      rewrite <- (V1 _ _ Hab1 o F HoF).
      assert (Ho : InP O (ol X (mkdim n1 s u :: vec)) (sh O (i * u + b' + o))) by (apply InP_intro; eapply in_ol_intro; eauto).
      apply F2; [exact W2| |].
      * intros C. exact (DO _ Ho C).
      * right. intros C. exact (DX1 _ Ho C).
    + assert (Hab2 : In ((i - n1) * s + a', (i - n1) * u + b') (offs (mkdim n2 s u :: vec))).
      { apply in_offs_cons. exists (i - n1), (a', b'). cbn. split; [lia|auto]. }
      specialize (V2 _ _ Hab2 o F HoF). rewrite sh_sh in V2.
      replace (n1 * u + ((i - n1) * u + b' + o)) with (i * u + b' + o) in V2 by ring.
      rewrite V2. eapply HX; eauto. intros z Hz. rewrite sh_sh.
      replace (n1 * s + ((i - n1) * s + a' + z)) with (i * s + a' + z) by ring.
      assert (Ho : InP (sh I (n1 * s)) (il X (mkdim n2 s u :: vec)) (sh (sh I (n1 * s)) ((i - n1) * s + a' + z)))
        by (apply InP_intro; eapply in_il_intro; eauto).
      rewrite sh_sh in Ho. replace (n1 * s + ((i - n1) * s + a' + z)) with (i * s + a' + z) in Ho by ring.
      apply F1; [exact W1| |].
      * intros C. exact (DX1 _ C Ho).
      * right. intros C. exact (DI _ C Ho).
  - intros l Hl Ho Hi. transitivity (m1 l).
    + apply F2; auto. destruct Hi; auto.
    + apply F1; auto.
      * intros C. apply Ho. eapply InP_incl; eauto.
      * destruct Hi as [Hi|Hi]; auto. right. intros C. apply Hi. eapply InP_incl; eauto.
Qed.

(** ** Loops *)
Fixpoint nfor (n : nat) (body : Z -> mem -> mem) (m : mem) : mem :=
  match n with O => m | S k => body (Z.of_nat k) (nfor k body m) end.
(** for (i = 0; i < n; ++i) body(i) *)
Definition zfor (n : Z) (body : Z -> mem -> mem) (m : mem) : mem := nfor (Z.to_nat n) body m.

Lemma zfor_neg n b m : n <= 0 -> zfor n b m = m.
Proof. intros H. unfold zfor. replace (Z.to_nat n) with O by lia. reflexivity. Qed.
Lemma zfor_0 b m : zfor 0 b m = m. Proof. reflexivity. Qed.
Lemma zfor_succ n b m : 0 <= n -> zfor (n + 1) b m = b n (zfor n b m).
Proof.
  intros H. unfold zfor. replace (Z.to_nat (n + 1)) with (S (Z.to_nat n)) by lia. cbn.
  now rewrite Z2Nat.id.
Qed.
Lemma zfor_1 b m : zfor 1 b m = b 0 m. Proof. reflexivity. Qed.

Definition vloop (n s u : Z) (f : rapply) : rapply :=
  fun nx I O m => zfor n (fun i m => f nx (sh I (i * s)) (sh O (i * u)) m) m.

Lemma Correct_dim1 nd ip X vec s u f : Correct nd ip X vec f -> Correct nd ip X (mkdim 1 s u :: vec) f.
Proof.
  apply Correct_sim; [apply xsim_refl|rewrite offs_1; auto|]. intros H. now inversion H.
Qed.
Lemma Correct_dim0 nd ip X vec s u n : n <= 0 -> Correct nd ip X (mkdim n s u :: vec) (fun _ _ _ m => m).
Proof.
  intros Hn nx I O m HW. split.
  - intros a b Hab. rewrite offs_0 in Hab by exact Hn. easy.
  - intros l _ _ _. reflexivity.
Qed.

Lemma Correct_loop nd ip X vec n s u f : xwf X ->
  (ip = true -> s = u /\ same_set X vec) ->
  Correct nd ip X vec f -> Correct nd ip X (mkdim n s u :: vec) (vloop n s u f).
Proof.
  intros HX Hip C. destruct (Z_le_gt_dec n 0) as [Hn|Hn].
  { eapply Correct_ext; [|apply Correct_dim0; exact Hn]. intros. unfold vloop. now rewrite zfor_neg. }
  assert (G : forall k, 0 <= k -> Correct nd ip X (mkdim k s u :: vec) (vloop k s u f)).
  { intros k Hk. pattern k. apply natlike_ind; [|intros j Hj IH|exact Hk].
    - apply Correct_dim0. lia.
    - unfold Z.succ. eapply Correct_ext; [|apply (Correct_seq nd ip X vec j 1 s u (vloop j s u f) f); auto; try lia].
      + intros. unfold seq_at, vloop. now rewrite zfor_succ.
      + now apply Correct_dim1. }
  apply G. lia.
Qed.
