(** * MpiSlab: one-dimensional (slab) distributions *)
From Coq Require Import ZArith List Lia Bool Znumtheory.
From Verif Require Import Base PrimesModel PrimesProofs MpiModel MpiProofs MpiProofs2.
Import ListNotations.
Open Scope Z_scope.

Definition zeros {A} (l : list A) : list Z := map (fun _ => 0) l.
Definition local (k : kind) (sz : list ddim) : Prop := Forall (fun d => bk k d = dn_ d) sz.

Lemma digits_ones l : Forall (eq 1) l -> forall m w, digits (l ++ m) w = zeros l ++ digits m w.
Proof.
  induction 1 as [|x l <- H IH]; intros m w; cbn [app digits zeros map]; auto.
  rewrite Z.mod_1_r, Z.div_1_r, IH. reflexivity.
Qed.
Lemma zprod_ones l : Forall (eq 1) l -> zprod l = 1.
Proof. induction 1 as [|x l <- H IH]; cbn [zprod]; lia. Qed.
Lemma nbs_local k sz : good k sz -> local k sz -> Forall (eq 1) (nbs k sz).
Proof.
  induction 1 as [|d t [H1 H2] H IH]; intros L; cbn [nbs map]; constructor; inversion L; subst; auto.
  symmetry. apply nblk_self; lia.
Qed.
Lemma zeros_app {A} (a b : list A) : zeros (a ++ b) = zeros a ++ zeros b.
Proof. apply map_app. Qed.
Lemma zeros_rev {A} (a : list A) : zeros (rev a) = zeros a.
Proof.
  induction a as [|x a IH]; auto. cbn [rev]. rewrite zeros_app, IH. unfold zeros. cbn [map].
  clear. induction a as [|y a IH]; cbn; auto. now rewrite IH.
Qed.
Lemma rev_zeros {A} (a : list A) : rev (zeros a) = zeros a.
Proof. unfold zeros. rewrite <- map_rev. exact (zeros_rev a). Qed.
Lemma zeros_nbs k sz : zeros (nbs k sz) = zeros sz.
Proof. unfold zeros, nbs. now rewrite map_map. Qed.

Lemma local_blocks_zeros k sz : good k sz -> local k sz -> local_blocks sz k (zeros sz) = (map dn_ sz, zeros sz).
Proof.
  induction 1 as [|d t [H1 H2] H IH]; intros L; auto. inversion L as [|? ? E L']; subst.
  cbn [zeros map local_blocks]. fold (@zeros ddim t). rewrite IH by auto. f_equal. f_equal.
  unfold block. rewrite Z.mul_0_l, Z.sub_0_r, E. destruct (Z.leb_spec (dn_ d) 0); [lia|]. now rewrite Z.ltb_irrefl.
Qed.
Lemma local_blocks_app k a : good k a -> local k a -> forall b cs,
  local_blocks (a ++ b) k (zeros a ++ cs) = (map dn_ a ++ fst (local_blocks b k cs), zeros a ++ snd (local_blocks b k cs)).
Proof.
  induction 1 as [|d t [H1 H2] H IH]; intros L b cs; [cbn; now destruct (local_blocks b k cs)|].
  inversion L as [|? ? E L']; subst. cbn [app zeros map local_blocks]. fold (@zeros ddim t). rewrite IH by auto.
  f_equal. f_equal. unfold block. rewrite Z.mul_0_l, Z.sub_0_r, E. destruct (Z.leb_spec (dn_ d) 0); [lia|]. now rewrite Z.ltb_irrefl.
Qed.

Lemma locw_slab k pre d post w : good k (pre ++ d :: post) -> local k pre -> local k post -> 0 <= w ->
  locw k (pre ++ d :: post) w =
  if nblk (dn_ d) (bk k d) <=? w then (zeros (pre ++ d :: post), zeros (pre ++ d :: post))
  else (map dn_ pre ++ block (dn_ d) (bk k d) w :: map dn_ post, zeros pre ++ w * bk k d :: zeros post).
Proof.
  intros G L1 L2 Hw. unfold good in G. apply Forall_app in G as [G1 G2]. inversion G2 as [|? ? [D1 D2] G3]; subst.
  pose proof (nbs_local k pre G1 L1) as O1. pose proof (nbs_local k post G3 L2) as O2.
  assert (E : nbs k (pre ++ d :: post) = nbs k pre ++ nblk (dn_ d) (bk k d) :: nbs k post).
  { unfold nbs. now rewrite map_app. }
  unfold locw. rewrite E. rewrite zprod_app. cbn [zprod]. rewrite !zprod_ones by auto.
  rewrite Z.mul_1_l, Z.mul_1_r.
  destruct (Z.leb_spec (nblk (dn_ d) (bk k d)) w); auto.
  assert (C : coords k (pre ++ d :: post) w = zeros pre ++ w :: zeros post).
  { unfold coords. rewrite E. rewrite rev_app_distr. cbn [rev]. rewrite <- !app_assoc. cbn [app].
    rewrite digits_ones by (now apply Forall_rev). cbn [digits].
    rewrite Z.mod_small by lia.
    pose proof (nblk_pos _ _ D1 D2). rewrite Z.div_small by lia.
    rewrite <- (app_nil_r (rev (nbs k pre))), digits_ones by (now apply Forall_rev). cbn [digits].
    rewrite app_nil_r. rewrite rev_app_distr. cbn [rev]. rewrite <- app_assoc. cbn [app].
    rewrite !zeros_rev, !rev_zeros, !zeros_nbs. reflexivity. }
  rewrite C. rewrite local_blocks_app by auto. cbn [local_blocks]. rewrite local_blocks_zeros by auto. reflexivity.
Qed.

Lemma fold_mul l : forall a, fold_left Z.mul l a = a * zprod l.
Proof. induction l as [|x l IH]; intros a; cbn [fold_left zprod]; [lia|]. rewrite IH. ring. Qed.
Lemma prod_zprod l : prod l = zprod l.
Proof. unfold prod. rewrite fold_mul. lia. Qed.
