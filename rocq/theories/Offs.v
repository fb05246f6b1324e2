(** * Offsets described by dimension lists (proof library).

    [offs t] enumerates the (input offset, output offset) pairs of all
    multi-indices of [t]; [locs l] enumerates the offsets of a list of
    (length, stride) pairs. *)
From Coq Require Import Reals ZArith List Lia Bool Permutation.
From Verif Require Import NumTheory Cplx Spec.
Import ListNotations.
Open Scope Z_scope.

Definition zr (n : Z) : list Z := zrange 0 (Z.to_nat n).
Lemma in_zr n i : In i (zr n) <-> 0 <= i < n.
Proof. unfold zr. rewrite in_zrange. lia. Qed.
Lemma NoDup_zr n : NoDup (zr n).
Proof. apply NoDup_zrange. Qed.
Lemma zr_neg n : n <= 0 -> zr n = [].
Proof. intros H. unfold zr. replace (Z.to_nat n) with O by lia. reflexivity. Qed.
Lemma zr_succ n : 0 <= n -> zr (n + 1) = zr n ++ [n].
Proof.
  intros H. unfold zr, zrange. replace (Z.to_nat (n + 1)) with (S (Z.to_nat n)) by lia.
  rewrite seq_S, map_app. cbn. f_equal. f_equal. lia.
Qed.
Lemma zr_1 : zr 1 = [0]. Proof. reflexivity. Qed.

Definition padd (p q : Z * Z) : Z * Z := (fst p + fst q, snd p + snd q).
Definition oplus (l1 l2 : list (Z * Z)) : list (Z * Z) :=
  flat_map (fun p => map (padd p) l2) l1.

Definition dimoffs (d : iodim) : list (Z * Z) :=
  map (fun i => (i * dis d, i * dos d)) (zr (dn d)).
Fixpoint offs (t : list iodim) : list (Z * Z) :=
  match t with [] => [(0, 0)] | d :: t' => oplus (dimoffs d) (offs t') end.

Lemma padd_comm p q : padd p q = padd q p.
Proof. unfold padd. f_equal; lia. Qed.
Lemma padd_assoc p q r : padd p (padd q r) = padd (padd p q) r.
Proof. unfold padd; cbn. f_equal; lia. Qed.
Lemma padd_0 p : padd (0, 0) p = p.
Proof. destruct p. reflexivity. Qed.

Lemma in_oplus x l1 l2 : In x (oplus l1 l2) <-> exists p q, In p l1 /\ In q l2 /\ x = padd p q.
Proof.
  unfold oplus. rewrite in_flat_map. split.
  - intros (p & Hp & Hx). apply in_map_iff in Hx as (q & <- & Hq). eauto.
  - intros (p & q & Hp & Hq & ->). exists p. split; auto. apply in_map_iff. eauto.
Qed.

Lemma oplus_0_l l : oplus [(0, 0)] l = l.
Proof.
  unfold oplus. cbn. rewrite app_nil_r. rewrite <- (map_id l) at 2. apply map_ext. apply padd_0.
Qed.
Lemma oplus_app_l a b l : oplus (a ++ b) l = oplus a l ++ oplus b l.
Proof. apply flat_map_app. Qed.
Lemma oplus_cons_l p b l : oplus (p :: b) l = map (padd p) l ++ oplus b l.
Proof. reflexivity. Qed.
Lemma map_padd_oplus p a l : map (padd p) (oplus a l) = oplus (map (padd p) a) l.
Proof.
  induction a as [|q a IH]; [reflexivity|]. cbn [map]. rewrite !oplus_cons_l, map_app, IH. f_equal.
  rewrite map_map. apply map_ext. intros. apply padd_assoc.
Qed.
Lemma oplus_assoc a b l : oplus (oplus a b) l = oplus a (oplus b l).
Proof.
  induction a as [|p a IH]; [reflexivity|].
  rewrite !oplus_cons_l, oplus_app_l, IH, map_padd_oplus. reflexivity.
Qed.
Lemma oplus_nil_r a : oplus a [] = [].
Proof. induction a; cbn; auto. Qed.
Lemma oplus_cons_r a p b : Permutation (oplus a (p :: b)) (map (padd p) a ++ oplus a b).
Proof.
  induction a as [|q a IH]; [reflexivity|]. rewrite !oplus_cons_l. cbn [map app].
  rewrite (padd_comm q p). apply perm_skip. rewrite IH.
  rewrite !app_assoc. apply Permutation_app_tail. apply Permutation_app_comm.
Qed.
Lemma oplus_comm a b : Permutation (oplus a b) (oplus b a).
Proof.
  revert b. induction a as [|p a IH]; intros b.
  - rewrite oplus_nil_r. reflexivity.
  - rewrite oplus_cons_l, IH. symmetry. apply oplus_cons_r.
Qed.
Lemma oplus_perm_l a a' b : Permutation a a' -> Permutation (oplus a b) (oplus a' b).
Proof. intros H. unfold oplus. now apply Permutation_flat_map. Qed.
Lemma oplus_perm_r a b b' : Permutation b b' -> Permutation (oplus a b) (oplus a b').
Proof. intros H. rewrite (oplus_comm a b), (oplus_comm a b'). now apply oplus_perm_l. Qed.

Lemma offs_app a b : offs (a ++ b) = oplus (offs a) (offs b).
Proof.
  induction a as [|d a IH]; cbn [app offs]; [now rewrite oplus_0_l|].
  now rewrite IH, oplus_assoc.
Qed.
Lemma offs_perm a b : Permutation a b -> Permutation (offs a) (offs b).
Proof.
  induction 1 as [|d a b H IH|d e a|a b c H1 IH1 H2 IH2]; cbn [offs].
  - reflexivity.
  - now apply oplus_perm_r.
  - rewrite <- !oplus_assoc. apply oplus_perm_l, oplus_comm.
  - now rewrite IH1.
Qed.
Lemma offs_1 d t : dn d = 1 -> offs (d :: t) = offs t.
Proof.
  intros H. cbn [offs]. unfold dimoffs. rewrite H, zr_1. cbn [map]. rewrite !Z.mul_0_l. apply oplus_0_l.
Qed.
Lemma offs_0 d t : dn d <= 0 -> offs (d :: t) = [].
Proof. intros H. cbn [offs]. unfold dimoffs. now rewrite zr_neg. Qed.

(** merging two dimensions *)
Lemma dimoffs_merge n1 n2 s u : 0 <= n1 -> 0 <= n2 ->
  dimoffs (mkdim (n1 * n2) s u) = oplus (dimoffs (mkdim n1 (s * n2) (u * n2))) (dimoffs (mkdim n2 s u)).
Proof.
  intros H1 H2. unfold dimoffs. cbn [dn dis dos].
  pattern n1. apply natlike_ind; [|intros k Hk IH|exact H1].
  - reflexivity.
  - unfold Z.succ. rewrite zr_succ by lia. rewrite map_app, oplus_app_l, <- IH.
    replace ((k + 1) * n2) with (k * n2 + n2) by ring.
    assert (E : forall b, 0 <= b -> zr (k * n2 + b) = zr (k * n2) ++ map (fun i => k * n2 + i) (zr b)).
    { intros b Hb. pattern b. apply natlike_ind; [|intros j Hj IHj|exact Hb].
      - rewrite Z.add_0_r. cbn. now rewrite app_nil_r.
      - unfold Z.succ. rewrite Z.add_assoc. rewrite zr_succ, IHj, zr_succ by nia.
        rewrite map_app, app_assoc. reflexivity. }
    rewrite E by lia. rewrite map_app. f_equal. unfold oplus. cbn [map flat_map]. rewrite app_nil_r.
    rewrite !map_map. apply map_ext. intros i. unfold padd. cbn. f_equal; ring.
Qed.
Lemma offs_merge n1 n2 s u t : 0 <= n1 -> 0 <= n2 ->
  offs (mkdim (n1 * n2) s u :: t) = offs (mkdim n1 (s * n2) (u * n2) :: mkdim n2 s u :: t).
Proof. intros. cbn [offs]. now rewrite dimoffs_merge, oplus_assoc. Qed.

Lemma in_dimoffs p d : In p (dimoffs d) <-> exists i, 0 <= i < dn d /\ p = (i * dis d, i * dos d).
Proof.
  unfold dimoffs. rewrite in_map_iff. split.
  - intros (i & <- & H). apply in_zr in H. eauto.
  - intros (i & H & ->). exists i. split; auto. now apply in_zr.
Qed.
Lemma in_offs_cons p d t : In p (offs (d :: t)) <->
  exists i q, 0 <= i < dn d /\ In q (offs t) /\ p = (i * dis d + fst q, i * dos d + snd q).
Proof.
  cbn [offs]. rewrite in_oplus. split.
  - intros (x & q & Hx & Hq & ->). apply in_dimoffs in Hx as (i & Hi & ->). exists i, q. auto.
  - intros (i & q & Hi & Hq & ->). exists (i * dis d, i * dos d), q. split; [apply in_dimoffs; eauto|]. auto.
Qed.

Lemma in_offs p t : In p (offs t) <-> exists ks, in_box t ks /\ p = (ioff t ks, ooff t ks).
Proof.
  revert p. induction t as [|d t IH]; intros p.
  - cbn. split.
    + intros [<-|[]]. exists []. auto.
    + intros ([|k ks] & H & ->); [now left|easy].
  - rewrite in_offs_cons. split.
    + intros (i & q & Hi & Hq & ->). apply IH in Hq as (ks & Hks & ->). exists (i :: ks). cbn. auto.
    + intros ([|k ks] & H & ->); [easy|]. cbn in H. destruct H as [Hk Hks].
      exists k, (ioff t ks, ooff t ks). split; [exact Hk|]. split; [apply IH; eauto|reflexivity].
Qed.
Lemma in_offs_box t ks : in_box t ks -> In (ioff t ks, ooff t ks) (offs t).
Proof. intros H. apply in_offs. eauto. Qed.

(** ** Offsets of one side *)
Definition dimlocs (d : Z * Z) : list Z := map (fun i => i * snd d) (zr (fst d)).
Definition lplus (l1 l2 : list Z) : list Z := flat_map (fun p => map (Z.add p) l2) l1.
Fixpoint locs (t : list (Z * Z)) : list Z :=
  match t with [] => [0] | d :: t' => lplus (dimlocs d) (locs t') end.
Definition ti (t : list iodim) : list (Z * Z) := map (fun d => (dn d, dis d)) t.
Definition to_ (t : list iodim) : list (Z * Z) := map (fun d => (dn d, dos d)) t.
Definition mirror (p : Z * Z) : iodim := mkdim (fst p) (snd p) (snd p).

Lemma ti_app a b : ti (a ++ b) = ti a ++ ti b. Proof. apply map_app. Qed.
Lemma to_app a b : to_ (a ++ b) = to_ a ++ to_ b. Proof. apply map_app. Qed.

Lemma map_fst_oplus a b : map fst (oplus a b) = lplus (map fst a) (map fst b).
Proof.
  unfold oplus, lplus. induction a as [|p a IH]; [reflexivity|]. cbn [flat_map map].
  rewrite map_app, IH, !map_map. reflexivity.
Qed.
Lemma map_snd_oplus a b : map snd (oplus a b) = lplus (map snd a) (map snd b).
Proof.
  unfold oplus, lplus. induction a as [|p a IH]; [reflexivity|]. cbn [flat_map map].
  rewrite map_app, IH, !map_map. reflexivity.
Qed.
Lemma ilocs_offs t : map fst (offs t) = locs (ti t).
Proof.
  induction t as [|d t IH]; [reflexivity|]. cbn [offs ti map locs]. rewrite map_fst_oplus, IH. f_equal.
  unfold dimoffs, dimlocs. rewrite map_map. reflexivity.
Qed.
Lemma olocs_offs t : map snd (offs t) = locs (to_ t).
Proof.
  induction t as [|d t IH]; [reflexivity|]. cbn [offs to_ map locs]. rewrite map_snd_oplus, IH. f_equal.
  unfold dimoffs, dimlocs. rewrite map_map. reflexivity.
Qed.
Lemma locs_mirror l : locs l = map fst (offs (map mirror l)).
Proof.
  rewrite ilocs_offs. unfold ti. rewrite map_map. cbn. f_equal.
  rewrite <- (map_id l) at 1. apply map_ext. now intros [n s].
Qed.
Lemma in_lplus x a b : In x (lplus a b) <-> exists p q, In p a /\ In q b /\ x = p + q.
Proof.
  unfold lplus. rewrite in_flat_map. split.
  - intros (p & Hp & Hx). apply in_map_iff in Hx as (q & <- & Hq). eauto.
  - intros (p & q & Hp & Hq & ->). exists p. split; auto. apply in_map_iff. eauto.
Qed.
Lemma in_locs_cons x n s t : In x (locs ((n, s) :: t)) <->
  exists i o, 0 <= i < n /\ In o (locs t) /\ x = i * s + o.
Proof.
  cbn [locs]. rewrite in_lplus. unfold dimlocs. cbn [fst snd]. split.
  - intros (p & q & Hp & Hq & ->). apply in_map_iff in Hp as (i & <- & Hi). apply in_zr in Hi. eauto.
  - intros (i & o & Hi & Ho & ->). exists (i * s), o. split; auto. apply in_map_iff. exists i. split; auto.
    now apply in_zr.
Qed.
Lemma in_locs_nil x : In x (locs []) <-> x = 0.
Proof. cbn. intuition. Qed.
Lemma locs_perm a b : Permutation a b -> Permutation (locs a) (locs b).
Proof. intros H. rewrite !locs_mirror. apply Permutation_map, offs_perm, Permutation_map, H. Qed.
Lemma lplus_assoc a b l : lplus (lplus a b) l = lplus a (lplus b l).
Proof.
  unfold lplus. induction a as [|p a IH]; [reflexivity|]. cbn [flat_map].
  rewrite flat_map_app, IH. f_equal. rewrite flat_map_concat_map, map_map, <- flat_map_concat_map.
  clear. induction b as [|q b IH]; [reflexivity|]. cbn [flat_map]. rewrite map_app, <- IH. f_equal.
  rewrite map_map. apply map_ext. intros; lia.
Qed.
Lemma locs_app a b : locs (a ++ b) = lplus (locs a) (locs b).
Proof.
  induction a as [|d a IH]; cbn [app locs].
  - unfold lplus. cbn. rewrite app_nil_r. rewrite <- (map_id (locs b)) at 1. apply map_ext. intros; lia.
  - now rewrite IH, lplus_assoc.
Qed.
Lemma in_locs_app x a b : In x (locs (a ++ b)) <-> exists p q, In p (locs a) /\ In q (locs b) /\ x = p + q.
Proof. rewrite locs_app. apply in_lplus. Qed.
Lemma locs_merge r m s t : 0 <= r -> 0 <= m ->
  locs ((r * m, s) :: t) = locs ((r, s * m) :: (m, s) :: t).
Proof.
  intros. rewrite !locs_mirror. cbn [map]. unfold mirror at 1 3 4. cbn [fst snd].
  rewrite offs_merge by auto. reflexivity.
Qed.
Lemma locs_1 s t : locs ((1, s) :: t) = locs t.
Proof. rewrite !locs_mirror. cbn [map]. now rewrite offs_1. Qed.

(** ** Distinctness *)
Lemma NoDup_app_intro {A} (a b : list A) : NoDup a -> NoDup b -> (forall x, In x a -> In x b -> False) -> NoDup (a ++ b).
Proof.
  intros Ha Hb H. induction a as [|x a IH]; cbn; auto. inversion Ha; subst. constructor.
  - intros Hx. apply in_app_or in Hx as [Hx|Hx]; [auto|]. apply (H x); auto. now left.
  - apply IH; auto. intros y Hy Hy'. apply (H y); auto. now right.
Qed.
Lemma NoDup_app_inv {A} (a b : list A) : NoDup (a ++ b) -> NoDup a /\ NoDup b /\ (forall x, In x a -> In x b -> False).
Proof.
  induction a as [|x a IH]; cbn.
  - intros H. split; [constructor|]. split; auto.
  - intros H. inversion H; subst. destruct (IH H3) as (H1 & H4 & H5). split; [|split]; auto.
    + constructor; auto. intros Hx. apply H2. apply in_or_app; auto.
    + intros y [->|Hy] Hy'; [apply H2; apply in_or_app; auto|eauto].
Qed.
Lemma NoDup_map_shift a (l : list Z) : NoDup (map (Z.add a) l) <-> NoDup l.
Proof.
  split; [apply NoDup_map_inv|]. intros H. apply NoDup_map_inj; auto. intros; lia.
Qed.
Lemma NoDup_lplus_inv a b : NoDup (lplus a b) ->
  forall p p' q q', In p a -> In p' a -> In q b -> In q' b -> p + q = p' + q' -> p = p' /\ q = q'.
Proof.
  unfold lplus. induction a as [|x a IH]; [easy|]. cbn [flat_map]. intros H p p' q q' Hp Hp' Hq Hq' E.
  assert (N : NoDup (flat_map (fun p => map (Z.add p) b) a)).
  { revert H. generalize (map (Z.add x) b). intros l. induction l; cbn; auto. intros H; inversion H; auto. }
  assert (D : forall y, In y (map (Z.add x) b) -> In y (flat_map (fun p => map (Z.add p) b) a) -> False).
  { revert H. clear. generalize (map (Z.add x) b) as l, (flat_map (fun p => map (Z.add p) b) a) as l'.
    induction l as [|z l IH]; cbn; [easy|]. intros l' H y [->|Hy] Hy'; inversion H; subst.
    - apply H2. apply in_or_app. auto.
    - eapply IH; eauto. }
  assert (M : forall z w, In z a -> In w b -> In (z + w) (flat_map (fun p => map (Z.add p) b) a)).
  { intros z w Hz Hw. apply in_flat_map. exists z. split; auto. apply in_map_iff; eauto. }
  destruct Hp as [<-|Hp], Hp' as [<-|Hp'].
  - lia.
  - exfalso. apply (D (x + q)); [apply in_map_iff; eauto|]. rewrite E. auto.
  - exfalso. apply (D (x + q')); [apply in_map_iff; eauto|]. rewrite <- E. auto.
  - apply (IH N p p' q q'); auto.
Qed.
Lemma NoDup_lplus a b : NoDup a -> NoDup b ->
  (forall p p' q q', In p a -> In p' a -> In q b -> In q' b -> p + q = p' + q' -> p = p' /\ q = q') ->
  NoDup (lplus a b).
Proof.
  intros Ha Hb. unfold lplus. induction a as [|x a IH]; [constructor|]. cbn [flat_map]. intros H.
  inversion Ha; subst.
  apply NoDup_app_intro.
  - now apply NoDup_map_shift.
  - apply IH; auto. intros p p' q q' Hp Hp' Hq Hq' E. apply (H p p' q q'); auto; now right.
  - intros y Hy Hy'. apply in_map_iff in Hy as (q & <- & Hq). apply in_flat_map in Hy' as (p & Hp & Hy').
    apply in_map_iff in Hy' as (q' & E & Hq').
    destruct (H x p q q') as [-> _]; auto; [now left|now right].
Qed.

Lemma NoDup_lplus_l a b q : NoDup (lplus a b) -> In q b -> NoDup a.
Proof.
  intros H Hq. induction a as [|x a IH]; [constructor|].
  unfold lplus in H. cbn [flat_map] in H. apply NoDup_app_inv in H as (H1 & H2 & H3).
  constructor; [|apply IH; exact H2]. intros Hx. apply (H3 (x + q)).
  - apply in_map_iff; eauto.
  - apply in_flat_map. exists x. split; auto. apply in_map_iff; eauto.
Qed.
Lemma NoDup_lplus_r a b p : NoDup (lplus a b) -> In p a -> NoDup b.
Proof.
  intros H Hp. induction a as [|x a IH]; [easy|].
  unfold lplus in H. cbn [flat_map] in H. apply NoDup_app_inv in H as (H1 & H2 & H3).
  now apply NoDup_map_shift in H1.
Qed.
Lemma NoDup_dimlocs n s i j : NoDup (dimlocs (n, s)) -> 0 <= i < n -> 0 <= j < n -> i * s = j * s -> i = j.
Proof.
  intros H Hi Hj E. destruct (Z.eq_dec s 0) as [->|Hs]; [|nia].
  assert (n <= 1); [|lia].
  assert (Hlen : (length (dimlocs (n, 0%Z)) <= length [0%Z])%nat).
  { apply NoDup_incl_length; [exact H|]. intros x Hx. unfold dimlocs in Hx. apply in_map_iff in Hx as (y & <- & _).
    cbn. left. lia. }
  unfold dimlocs in Hlen. rewrite map_length in Hlen. unfold zr in Hlen. rewrite length_zrange in Hlen.
  cbn in Hlen. lia.
Qed.
Lemma locs_inj_cons n s t i i' o o' : NoDup (locs ((n, s) :: t)) ->
  0 <= i < n -> 0 <= i' < n -> In o (locs t) -> In o' (locs t) ->
  i * s + o = i' * s + o' -> i = i' /\ o = o'.
Proof.
  intros H Hi Hi' Ho Ho' E. cbn [locs] in H.
  assert (M : forall j, 0 <= j < n -> In (j * s) (dimlocs (n, s))).
  { intros j Hj. apply in_map_iff. exists j. split; auto. now apply in_zr. }
  destruct (NoDup_lplus_inv _ _ H (i * s) (i' * s) o o') as [E1 E2]; auto.
  split; auto. apply NoDup_lplus_l with (q := o) in H; auto. eapply NoDup_dimlocs; eauto.
Qed.
Lemma locs_inj_app a b p p' q q' : NoDup (locs (a ++ b)) ->
  In p (locs a) -> In p' (locs a) -> In q (locs b) -> In q' (locs b) ->
  p + q = p' + q' -> p = p' /\ q = q'.
Proof. rewrite locs_app. intros. eapply NoDup_lplus_inv; eauto. Qed.
Lemma NoDup_locs_tl n s t : 0 < n -> NoDup (locs ((n, s) :: t)) -> NoDup (locs t).
Proof.
  intros Hn H. cbn [locs] in H. eapply NoDup_lplus_r; eauto.
  apply in_map_iff. exists 0. split; [reflexivity|]. apply in_zr. cbn. lia.
Qed.
Lemma locs_ne t : Forall (fun d => 0 < fst d) t -> In 0 (locs t).
Proof.
  induction t as [|[n s] t IH]; intros H; [now left|]. inversion H; subst. cbn in *.
  apply in_locs_cons. exists 0, 0. split; [lia|]. split; auto.
Qed.
Lemma NoDup_locs_app_l a b : In 0 (locs b) -> NoDup (locs (a ++ b)) -> NoDup (locs a).
Proof. rewrite locs_app. intros Hb H. eapply NoDup_lplus_l; eauto. Qed.
Lemma NoDup_locs_app_r a b : In 0 (locs a) -> NoDup (locs (a ++ b)) -> NoDup (locs b).
Proof. rewrite locs_app. intros Hb H. eapply NoDup_lplus_r; eauto. Qed.

(** in_box / NoDup bridge *)
Lemma in_ilocs t x : In x (locs (ti t)) <-> exists ks, in_box t ks /\ x = ioff t ks.
Proof.
  rewrite <- ilocs_offs, in_map_iff. split.
  - intros (p & <- & H). apply in_offs in H as (ks & H & ->). eauto.
  - intros (ks & H & ->). exists (ioff t ks, ooff t ks). split; auto. now apply in_offs_box.
Qed.
Lemma in_olocs t x : In x (locs (to_ t)) <-> exists ks, in_box t ks /\ x = ooff t ks.
Proof.
  rewrite <- olocs_offs, in_map_iff. split.
  - intros (p & <- & H). apply in_offs in H as (ks & H & ->). eauto.
  - intros (ks & H & ->). exists (ioff t ks, ooff t ks). split; auto. now apply in_offs_box.
Qed.
Lemma inj_NoDup_i t : (forall ks js, in_box t ks -> in_box t js -> ioff t ks = ioff t js -> ks = js) ->
  NoDup (locs (ti t)).
Proof.
  induction t as [|d t IH]; intros H; cbn [ti map locs]; [repeat constructor; easy|]. fold (ti t).
  destruct (Z_le_gt_dec (dn d) 0) as [Hn|Hn].
  { unfold dimlocs. cbn [fst]. rewrite zr_neg by lia. constructor. }
  assert (E : forall j j', 0 <= j < dn d -> 0 <= j' < dn d -> forall ks ks', in_box t ks -> in_box t ks' ->
     j * dis d + ioff t ks = j' * dis d + ioff t ks' -> j = j' /\ ks = ks').
  { intros j j' Hj Hj' ks ks' Hk Hk' E. assert (X : j :: ks = j' :: ks') by (apply H; cbn; auto).
    now injection X. }
  assert (T : NoDup (locs (ti t))).
  { apply IH. intros ks js Hk Hj EE. destruct (E 0 0 ltac:(lia) ltac:(lia) ks js Hk Hj); auto. }
  destruct (locs (ti t)) as [|o l] eqn:El.
  { replace (lplus (dimlocs (dn d, dis d)) []) with (@nil Z); [constructor|]. unfold lplus. clear. induction (dimlocs (dn d, dis d)); cbn; auto. }
  rewrite <- El in *. clear T.
  assert (Ho : In o (locs (ti t))) by (rewrite El; now left).
  apply NoDup_lplus.
  - apply NoDup_map_inj; [|apply NoDup_zr]. intros x y Hx Hy Exy. apply in_zr in Hx, Hy. cbn in Hx, Hy, Exy.
    apply in_ilocs in Ho as (ks & Hks & _). destruct (E x y Hx Hy ks ks Hks Hks); auto. lia.
  - apply IH. intros ks js Hk Hj EE. destruct (E 0 0 ltac:(lia) ltac:(lia) ks js Hk Hj); auto.
  - intros p p' q q' Hp Hp' Hq Hq' EE. unfold dimlocs in Hp, Hp'. apply in_map_iff in Hp as (i & <- & Hi), Hp' as (i' & <- & Hi').
    apply in_zr in Hi, Hi'. cbn in *. apply in_ilocs in Hq as (ks & Hks & ->), Hq' as (ks' & Hks' & ->).
    destruct (E i i' Hi Hi' ks ks' Hks Hks' EE); subst; auto.
Qed.
Definition flipd (d : iodim) := mkdim (dn d) (dos d) (dis d).
Lemma flip_box t ks : in_box (map flipd t) ks <-> in_box t ks.
Proof. revert ks. induction t as [|d t IH]; intros [|k ks]; cbn; try tauto. now rewrite IH. Qed.
Lemma flip_ioff t ks : ioff (map flipd t) ks = ooff t ks.
Proof. revert ks. induction t as [|d t IH]; intros [|k ks]; cbn; auto. now rewrite IH. Qed.
Lemma flip_ti t : ti (map flipd t) = to_ t.
Proof. unfold ti, to_. rewrite map_map. reflexivity. Qed.
Lemma inj_NoDup_o t : (forall ks js, in_box t ks -> in_box t js -> ooff t ks = ooff t js -> ks = js) ->
  NoDup (locs (to_ t)).
Proof.
  intros H. rewrite <- flip_ti. apply inj_NoDup_i. intros ks js. rewrite !flip_box, !flip_ioff. apply H.
Qed.

Lemma zr_add a b : 0 <= a -> 0 <= b -> zr (a + b) = zr a ++ map (Z.add a) (zr b).
Proof.
  intros Ha Hb. pattern b. apply natlike_ind; [|intros j Hj IHj|exact Hb].
  - rewrite Z.add_0_r. cbn. now rewrite app_nil_r.
  - unfold Z.succ. rewrite Z.add_assoc. rewrite zr_succ, IHj, zr_succ by lia.
    rewrite map_app, app_assoc. reflexivity.
Qed.
Lemma lplus_app_l a b l : lplus (a ++ b) l = lplus a l ++ lplus b l.
Proof. apply flat_map_app. Qed.
Lemma lplus_shift_l x a l : lplus (map (Z.add x) a) l = map (Z.add x) (lplus a l).
Proof.
  unfold lplus. induction a as [|y a IH]; [reflexivity|]. cbn [map flat_map]. rewrite map_app, <- IH. f_equal.
  rewrite map_map. apply map_ext. intros; lia.
Qed.
Lemma locs_add a b s t : 0 <= a -> 0 <= b ->
  locs ((a + b, s) :: t) = locs ((a, s) :: t) ++ map (Z.add (a * s)) (locs ((b, s) :: t)).
Proof.
  intros Ha Hb. cbn [locs]. unfold dimlocs. cbn [fst snd]. rewrite zr_add by auto.
  rewrite map_app, lplus_app_l. f_equal. rewrite <- lplus_shift_l. f_equal. rewrite !map_map. apply map_ext.
  intros; lia.
Qed.
Lemma NoDup_locs_range n s t i0 n' : 0 <= i0 -> 0 <= n' -> i0 + n' <= n ->
  NoDup (locs ((n, s) :: t)) -> NoDup (locs ((n', s) :: t)).
Proof.
  intros H1 H2 H3. replace n with (i0 + (n' + (n - i0 - n'))) by ring. rewrite locs_add by lia.
  intros H. apply NoDup_app_inv in H as (_ & H & _). apply NoDup_map_shift in H.
  rewrite locs_add in H by lia. apply NoDup_app_inv in H. tauto.
Qed.
