(** * MpiProofs: facts about the MPI block distribution *)
From Coq Require Import ZArith List Lia Bool Znumtheory.
From Verif Require Import Base PrimesModel PrimesProofs MpiModel.
Import ListNotations.
Open Scope Z_scope.

Definition nblk (n b : Z) : Z := (n + b - 1) / b.

Lemma cdiv_pos a b : 0 <= a -> 0 < b -> cdiv a b = Ret (a / b).
Proof.
  intros Ha Hb. unfold cdiv. destruct (Z.eqb_spec b 0); [lia|]. now rewrite Z.quot_div_nonneg by lia.
Qed.
Lemma crem_pos a b : 0 <= a -> 0 < b -> crem a b = Ret (a mod b).
Proof.
  intros Ha Hb. unfold crem. destruct (Z.eqb_spec b 0); [lia|]. now rewrite Z.rem_mod_nonneg by lia.
Qed.
Lemma num_blocks_ok n b : 0 <= n -> 1 <= b -> num_blocks n b = Ret (nblk n b).
Proof. intros. unfold num_blocks, nblk. apply cdiv_pos; lia. Qed.
Lemma default_block_ok n p : 0 <= n -> 1 <= p -> default_block n p = Ret (nblk n p).
Proof. intros. unfold default_block, nblk. apply cdiv_pos; lia. Qed.

Lemma nblk_bounds n b : 0 <= n -> 1 <= b -> n <= nblk n b * b < n + b.
Proof.
  intros Hn Hb. unfold nblk.
  pose proof (Z.div_mod (n + b - 1) b ltac:(lia)). pose proof (Z.mod_pos_bound (n + b - 1) b ltac:(lia)). nia.
Qed.
Lemma nblk_pos n b : 1 <= n -> 1 <= b -> 1 <= nblk n b.
Proof. intros Hn Hb. pose proof (nblk_bounds n b ltac:(lia) Hb). nia. Qed.
Lemma nblk_le n b k : 0 <= n -> 1 <= b -> n <= k * b -> nblk n b <= k.
Proof. intros Hn Hb H. pose proof (nblk_bounds n b Hn Hb). nia. Qed.
Lemma nblk_self n b : 1 <= n -> n <= b -> nblk n b = 1.
Proof. intros Hn Hb. pose proof (nblk_bounds n b ltac:(lia) ltac:(lia)). nia. Qed.
Lemma nblk_one n b : 1 <= n -> 1 <= b -> nblk n b = 1 -> n <= b.
Proof. intros Hn Hb H. pose proof (nblk_bounds n b ltac:(lia) Hb). nia. Qed.
(** default block sizes never need more processes than there are *)
Lemma nblk_default n p : 1 <= n -> 1 <= p -> nblk n (nblk n p) <= p.
Proof.
  intros Hn Hp. apply nblk_le; [lia|apply nblk_pos; lia|]. pose proof (nblk_bounds n p ltac:(lia) Hp). lia.
Qed.

Lemma block_in n b w j : 1 <= b -> 0 <= w -> 0 <= j < n -> (w * b <= j < w * b + block n b w <-> w = j / b).
Proof.
  intros Hb Hw Hj. unfold block.
  pose proof (Z.div_mod j b ltac:(lia)) as E. pose proof (Z.mod_pos_bound j b ltac:(lia)) as B.
  destruct (Z.leb_spec (n - w * b) 0).
  - split; intros; [lia|subst w; nia].
  - destruct (Z.ltb_spec b (n - w * b)); split; intros; try (subst w; nia); nia.
Qed.
Lemma block_nonneg n b w : 1 <= b -> 0 <= block n b w <= b.
Proof. intros Hb. unfold block. destruct (Z.leb_spec (n - w * b) 0); [lia|]. destruct (Z.ltb_spec b (n - w * b)); lia. Qed.
Lemma block_range n b w : 0 < block n b w -> w * b + block n b w <= n.
Proof. unfold block. destruct (Z.leb_spec (n - w * b) 0); [lia|]. destruct (Z.ltb_spec b (n - w * b)); lia. Qed.
Lemma block_pos n b w : 1 <= n -> 1 <= b -> 0 <= w -> (0 < block n b w <-> w < nblk n b).
Proof.
  intros Hn Hb Hw. pose proof (nblk_bounds n b ltac:(lia) Hb). unfold block.
  destruct (Z.leb_spec (n - w * b) 0); [|destruct (Z.ltb_spec b (n - w * b))]; split; intros; nia.
Qed.
Lemma block_min n b w : 1 <= n -> 1 <= b -> 0 <= w -> block n b w = Z.max 0 (Z.min b (n - w * b)).
Proof. intros. unfold block. destruct (Z.leb_spec (n - w * b) 0); [lia|]. destruct (Z.ltb_spec b (n - w * b)); lia. Qed.

(** ** Mixed radix *)
Fixpoint zprod (l : list Z) : Z := match l with [] => 1 | x :: t => x * zprod t end.
Fixpoint digits (rn : list Z) (w : Z) : list Z :=
  match rn with [] => [] | nb :: t => w mod nb :: digits t (w / nb) end.
Fixpoint encr (rn rc : list Z) : Z :=
  match rn, rc with nb :: t, c :: cs => c + nb * encr t cs | _, _ => 0 end.

Lemma zprod_pos l : Forall (fun x => 1 <= x) l -> 1 <= zprod l.
Proof. induction 1; cbn; nia. Qed.
Lemma zprod_app a b : zprod (a ++ b) = zprod a * zprod b.
Proof. induction a as [|x a IH]; cbn [app zprod]; [lia|]. rewrite IH; ring. Qed.
Lemma zprod_rev a : zprod (rev a) = zprod a.
Proof. induction a as [|x a IH]; cbn [rev zprod]; auto. rewrite zprod_app, IH. cbn; ring. Qed.

Lemma digits_encr rn rc : Forall2 (fun nb c => 0 <= c < nb) rn rc ->
  digits rn (encr rn rc) = rc /\ 0 <= encr rn rc < zprod rn.
Proof.
  induction 1 as [|nb c rn rc Hc H [IH1 IH2]]; cbn [digits encr zprod]; [split; [auto|lia]|].
  split; [|nia].
  replace ((c + nb * encr rn rc) mod nb) with c
    by (symmetry; rewrite Z.mul_comm, Z.mod_add by lia; apply Z.mod_small; lia).
  replace ((c + nb * encr rn rc) / nb) with (encr rn rc)
    by (symmetry; rewrite Z.mul_comm, Z.div_add by lia; rewrite Z.div_small by lia; lia).
  now rewrite IH1.
Qed.
Lemma digits_box rn : forall w, Forall (fun x => 1 <= x) rn -> Forall2 (fun nb c => 0 <= c < nb) rn (digits rn w).
Proof.
  induction rn as [|nb rn IH]; intros w H; cbn; constructor; inversion H; subst; auto. apply Z.mod_pos_bound; lia.
Qed.
Lemma encr_digits rn : forall w, Forall (fun x => 1 <= x) rn -> 0 <= w < zprod rn -> encr rn (digits rn w) = w.
Proof.
  induction rn as [|nb rn IH]; intros w H Hw; cbn in *; [lia|]. inversion H; subst.
  rewrite IH; auto; [pose proof (Z.div_mod w nb ltac:(lia)); lia|].
  split; [apply Z.div_pos; lia|apply Z.div_lt_upper_bound; lia].
Qed.

(** ** Distributed dimensions *)
Definition good (k : kind) (sz : list ddim) : Prop := Forall (fun d => 1 <= dn_ d /\ 1 <= bk k d) sz.
Definition nbs (k : kind) (sz : list ddim) : list Z := map (fun d => nblk (dn_ d) (bk k d)) sz.

Lemma nbs_pos k sz : good k sz -> Forall (fun x => 1 <= x) (nbs k sz).
Proof. induction 1 as [|d sz [H1 H2] H IH]; cbn; constructor; auto. apply nblk_pos; auto. Qed.

Lemma total_loop_ok k sz : good k sz -> forall a, num_blocks_total_loop sz k a = Ret (a * zprod (nbs k sz)).
Proof.
  induction 1 as [|d sz [H1 H2] H IH]; intros a; cbn [num_blocks_total_loop nbs map zprod]; [f_equal; ring|].
  unfold num_blocks_kind. rewrite num_blocks_ok by lia. cbn [bind]. rewrite IH. f_equal. cbn. fold (nbs k sz). ring.
Qed.
Lemma total_ok k sz : good k sz -> num_blocks_total sz k = Ret (zprod (nbs k sz)).
Proof. intros H. unfold num_blocks_total. rewrite total_loop_ok by auto. f_equal. ring. Qed.

Lemma coords_loop_ok k rsz : good k rsz -> forall w acc, 0 <= w ->
  block_coords_loop rsz k w acc = Ret (rev (digits (nbs k rsz) w) ++ acc).
Proof.
  induction 1 as [|d sz [H1 H2] H IH]; intros w acc Hw; cbn [block_coords_loop nbs map digits rev app]; auto.
  unfold num_blocks_kind. rewrite num_blocks_ok by lia. cbn [bind].
  pose proof (nblk_pos _ _ H1 H2). rewrite crem_pos, cdiv_pos by lia. cbn [bind].
  rewrite IH by (apply Z.div_pos; lia). now rewrite <- app_assoc.
Qed.
Lemma good_rev k sz : good k sz -> good k (rev sz).
Proof. intros H. apply Forall_forall. intros x Hx. apply in_rev in Hx. eapply Forall_forall in H; eauto. Qed.
Definition coords (k : kind) (sz : list ddim) (w : Z) : list Z := rev (digits (rev (nbs k sz)) w).
Lemma coords_ok k sz w : good k sz -> 0 <= w -> block_coords sz k w = Ret (coords k sz w).
Proof.
  intros H Hw. unfold block_coords. rewrite coords_loop_ok; [|now apply good_rev|auto]. rewrite app_nil_r.
  unfold coords, nbs. now rewrite map_rev.
Qed.

Definition locw (k : kind) (sz : list ddim) (w : Z) : list Z * list Z :=
  if zprod (nbs k sz) <=? w then (map (fun _ => 0) sz, map (fun _ => 0) sz) else local_blocks sz k (coords k sz w).
Lemma local_size_ok k sz w : good k sz -> 0 <= w -> local_size w sz k = Ret (locw k sz w).
Proof.
  intros H Hw. unfold local_size, locw. rewrite total_ok by auto. cbn [bind].
  destruct (Z.leb_spec (zprod (nbs k sz)) w); auto. now rewrite coords_ok.
Qed.

(** A rectangle [(n, start)] owns the multi-index [j]. *)
Definition owns (r : list Z * list Z) (j : list Z) : Prop :=
  length j = length (fst r) /\
  forall i, (i < length j)%nat ->
    nth i (snd r) 0 <= nth i j 0 < nth i (snd r) 0 + nth i (fst r) 0.
Definition index_of (ns j : list Z) : Prop :=
  length j = length ns /\ forall i, (i < length j)%nat -> 0 <= nth i j 0 < nth i ns 0.

Lemma index_of_cons n ns x j : index_of (n :: ns) (x :: j) <-> 0 <= x < n /\ index_of ns j.
Proof.
  unfold index_of. cbn [length]. split.
  - intros [H1 H2]. split; [apply (H2 0%nat); lia|]. split; [lia|]. intros i Hi. apply (H2 (S i)); lia.
  - intros [H1 [H2 H3]]. split; [lia|]. intros [|i] Hi; [exact H1|]. apply H3; lia.
Qed.
Lemma owns_cons n ns s ss x j : owns (n :: ns, s :: ss) (x :: j) <-> s <= x < s + n /\ owns (ns, ss) j.
Proof.
  unfold owns. cbn [length fst snd]. split.
  - intros [H1 H2]. split; [apply (H2 0%nat); lia|]. split; [lia|]. intros i Hi. apply (H2 (S i)); lia.
  - intros [H1 [H2 H3]]. split; [lia|]. intros [|i] Hi; [exact H1|]. apply H3; lia.
Qed.
Lemma index_of_len ns j : index_of ns j -> length j = length ns.
Proof. now intros [H _]. Qed.

Fixpoint quots (k : kind) (sz : list ddim) (j : list Z) : list Z :=
  match sz, j with d :: t, x :: r => x / bk k d :: quots k t r | _, _ => [] end.

Lemma owns_blocks k sz : good k sz -> forall cs j, Forall2 (fun nb c => 0 <= c < nb) (nbs k sz) cs ->
  index_of (map dn_ sz) j -> (owns (local_blocks sz k cs) j <-> cs = quots k sz j).
Proof.
  induction 1 as [|d sz [H1 H2] H IH]; intros cs j Hc Hj.
  - inversion Hc; subst. cbn. destruct Hj as [Hj _]. destruct j; [|discriminate].
    split; auto. intros _. split; auto. cbn. lia.
  - inversion Hc as [|? c ? cs' Hc0 Hc']; subst. destruct j as [|x j]; [destruct Hj; discriminate|].
    apply index_of_cons in Hj as [Hx Hj]. cbn [local_blocks quots].
    specialize (IH cs' j Hc' Hj). destruct (local_blocks sz k cs') as [ln ls]. rewrite owns_cons, IH.
    rewrite block_in by lia. split; [intros [-> ->]; auto|]. intros E; injection E; auto.
Qed.
Lemma quots_box k sz : good k sz -> forall j, index_of (map dn_ sz) j ->
  Forall2 (fun nb c => 0 <= c < nb) (nbs k sz) (quots k sz j).
Proof.
  induction 1 as [|d sz [H1 H2] H IH]; intros j Hj; cbn [nbs map quots].
  - destruct j; constructor.
  - destruct j as [|x j]; [destruct Hj; discriminate|]. apply index_of_cons in Hj as [Hx Hj].
    constructor; [|apply IH; auto]. split; [apply Z.div_pos; lia|].
    pose proof (nblk_bounds (dn_ d) (bk k d) ltac:(lia) H2). apply Z.div_lt_upper_bound; nia.
Qed.
Lemma owns_inside k sz : good k sz -> forall cs j, Forall2 (fun nb c => 0 <= c < nb) (nbs k sz) cs ->
  owns (local_blocks sz k cs) j -> index_of (map dn_ sz) j.
Proof.
  induction 1 as [|d sz [H1 H2] H IH]; intros cs j Hc Ho.
  - cbn in *. destruct Ho as [Ho _]. destruct j; [|discriminate]. split; auto. cbn; lia.
  - inversion Hc as [|? c ? cs' Hc0 Hc']; subst. cbn [local_blocks] in Ho.
    destruct (local_blocks sz k cs') as [ln ls] eqn:E.
    destruct j as [|x j]; [destruct Ho; discriminate|]. apply owns_cons in Ho as [Hx Ho].
    apply index_of_cons. split; [|apply (IH cs'); auto; now rewrite E].
    pose proof (block_range (dn_ d) (bk k d) c ltac:(lia)). nia.
Qed.

Lemma Forall2_rev' {A B} (P : A -> B -> Prop) l l' : Forall2 P l l' -> Forall2 P (rev l) (rev l').
Proof.
  induction 1; cbn; auto. apply Forall2_app; auto.
Qed.
Lemma coords_box k sz w : good k sz -> Forall2 (fun nb c => 0 <= c < nb) (nbs k sz) (coords k sz w).
Proof.
  intros H. unfold coords. rewrite <- (rev_involutive (nbs k sz)) at 1. apply Forall2_rev', digits_box.
  apply Forall_rev. now apply nbs_pos.
Qed.

Lemma dist_unique k sz P : good k sz -> zprod (nbs k sz) <= P -> sz <> [] -> forall j, index_of (map dn_ sz) j ->
  exists w, 0 <= w < P /\ owns (locw k sz w) j /\ forall w', 0 <= w' < P -> owns (locw k sz w') j -> w' = w.
Proof.
  intros H HP Hne j Hj.
  pose proof (quots_box k sz H j Hj) as Hq.
  pose proof (Forall2_rev' _ _ _ Hq) as Hq'. destruct (digits_encr _ _ Hq') as [D1 D2]. rewrite zprod_rev in D2.
  set (w := encr (rev (nbs k sz)) (rev (quots k sz j))) in *.
  exists w. split; [lia|]. split.
  - unfold locw. destruct (Z.leb_spec (zprod (nbs k sz)) w); [lia|].
    apply owns_blocks; auto; [now apply coords_box|]. unfold coords. rewrite D1. apply rev_involutive.
  - intros w' Hw' Ho. unfold locw in Ho. destruct (Z.leb_spec (zprod (nbs k sz)) w').
    + exfalso. destruct sz as [|d sz]; [congruence|]. destruct j as [|x j]; [destruct Hj; discriminate|].
      cbn [map] in Ho. apply owns_cons in Ho as [? _]. lia.
    + apply owns_blocks in Ho; auto; [|now apply coords_box].
      assert (E : digits (rev (nbs k sz)) w' = rev (quots k sz j))
        by (rewrite <- Ho; unfold coords; now rewrite rev_involutive).
      unfold w. rewrite <- E. symmetry. apply encr_digits; [apply Forall_rev; now apply nbs_pos|]. rewrite zprod_rev. lia.
Qed.
Lemma dist_inside k sz w j : good k sz -> sz <> [] -> owns (locw k sz w) j -> index_of (map dn_ sz) j.
Proof.
  intros H Hne Ho. unfold locw in Ho. destruct (Z.leb_spec (zprod (nbs k sz)) w).
  - exfalso. destruct sz as [|d sz]; [congruence|]. destruct j as [|x j]; [destruct Ho; discriminate|].
    cbn [map] in Ho. apply owns_cons in Ho as [? _]. lia.
  - eapply owns_inside; eauto. now apply coords_box.
Qed.
