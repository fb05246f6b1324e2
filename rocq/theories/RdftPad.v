(** * redft00e-r2hc-pad.c and rodft00e-r2hc-pad.c are correct (proof library) *)
From Coq Require Import Reals ZArith List Lia Lra Bool Permutation.
From Verif Require Import NumTheory Cplx Spec SpecR2R Base TensorModel Offs TensorProofs XForm XKern XSeq
  DftModel RdftModel DftTw DftPrime RSum RdftX RdftLib RdftLoop RMath RdftDht RdftGen RdftReo.
Import ListNotations.
Open Scope Z_scope.

(** a copy from a scratch block *)
Lemma run_copy1 nd n a os f (nx : nat) b O m : Correct nd false xcopy [mkdim n a os] f ->
  0 <= n -> (fst O < nx)%nat -> inj1 n a -> inj1 n os ->
  (forall k, 0 <= k < n -> f (S nx) (sh (nx, 0) b) O m (sh O (k * os)) = m (sh (nx, 0) (b + k * a))) /\
  (forall l, (fst l < nx)%nat -> (forall k, 0 <= k < n -> l <> sh O (k * os)) -> f (S nx) (sh (nx, 0) b) O m l = m l).
Proof.
  intros C Hn HO Ja Jo. rewrite <- rx_nil in C.
  assert (L : forall s, locs (map (fun d => d) [(n, s)]) = locs [(n, s)]) by reflexivity.
  destruct (C (S nx) (sh (nx, 0) b) O m) as [V F].
  - constructor.
    + cbn. lia.
    + lia.
    + constructor; [cbn; lia|constructor].
    + rewrite il_rx. change (NoDup (locs [(n, a)])). now apply inj1_NoDup.
    + rewrite ol_rx. change (NoDup (locs [(n, os)])). now apply inj1_NoDup.
    + intros l. rewrite il_rx, ol_rx. change (InP (sh (nx, 0) b) (locs [(n, a)]) l -> InP O (locs [(n, os)]) l -> False).
      rewrite !InP_x1. intros (k & _ & ->) (k' & _ & E). apply (f_equal fst) in E. cbn in E. lia.
  - split.
    + intros k Hk. rewrite rx_nil, vals_rx0 in V. rewrite (V (k * a) (k * os)); [now rewrite sh_sh|]. now apply offs1_in.
    + intros l Hl Ho. apply F; [lia| |right].
      * rewrite ol_rx. change (~ InP O (locs [(n, os)]) l). rewrite InP_x1. intros (k & Hk & ->). now apply (Ho k).
      * rewrite il_rx. change (~ InP (sh (nx, 0) b) (locs [(n, a)]) l). rewrite InP_x1. intros (k & Hk & ->). cbn in Hl. lia.
Qed.
Lemma inj1_m1 n : inj1 n (-1).
Proof. intros j k Hj Hk E. lia. Qed.

Section Pad.
  Variable n : Z.
  Hypothesis Hn : 0 < n.

  (** x_0 ... x_n x_(n-1) ... x_1 *)
  Definition evx (x : Z -> R) (k : Z) : R := if k <=? n then x k else x (2 * n - k)%Z.
  Lemma redft00_load_ok is (nx : nat) I m : (fst I < nx)%nat ->
     (forall k, 0 <= k < 2 * n -> redft00_load n is (nx, 0) I m (sh (nx, 0) k) = evx (fun j => m (sh I (j * is))) k) /\
     (forall l, (fst l < nx)%nat -> redft00_load n is (nx, 0) I m l = m l).
  Proof.
    intros HI. unfold redft00_load. cbn zeta. set (m0 := upd m (sh (nx, 0) 0) (m (sh I 0))).
    assert (M0 : forall l, (fst l < nx)%nat -> m0 l = m l).
    { intros l Hl. unfold m0. apply upd_other. intros <-. cbn in Hl. lia. }
    destruct (loop_cells (n - 1) (fun i' m => upd (upd m (sh (nx, 0) (i' + 1)) (m (sh I ((i' + 1) * is)))) (sh (nx, 0) (2 * n - (i' + 1))) (m (sh I ((i' + 1) * is)))) m0
      (fun i k => k = i + 1 \/ k = 2 * n - (i + 1)) (fun k => sh (nx, 0) k) (evx (fun j => m (sh I (j * is))))) as [L1 L2].
    { intros i m' Hi Hm.
      rewrite (Hm (sh I ((i + 1) * is))), M0 by (try (intros; intros E; symmetry in E; revert E; intros E; apply (f_equal fst) in E; cbn in E; lia); cbn; lia).
      destruct (upd2 m' (sh (nx, 0) (i + 1)) (sh (nx, 0) (2 * n - (i + 1))) (m (sh I ((i + 1) * is))) (m (sh I ((i + 1) * is)))) as (U1 & U2 & U3).
      { intros E. apply sh_nx_inj in E. lia. }
      split.
      - intros k [->| ->]; [rewrite U1|rewrite U2]; unfold evx.
        + destruct (Z.leb_spec (i + 1) n); [reflexivity|lia].
        + destruct (Z.leb_spec (2 * n - (i + 1)) n); [lia|]. do 3 f_equal. lia.
      - intros l Hl. apply U3; apply Hl; auto. }
    { intros i j k k' Hi Hj Ne Hk Hk' E. apply sh_nx_inj in E. lia. }
    set (m1 := zfor _ _ m0) in *. clearbody m1.
    assert (M1 : forall l, (fst l < nx)%nat -> m1 l = m l).
    { intros l Hl. rewrite L2, M0; auto. intros i k _ _ ->. cbn in Hl. lia. }
    split.
    - intros k Hk. destruct (Z.eq_dec k n) as [->|Nn].
      + rewrite upd_same, M1 by (cbn; lia). unfold evx. now rewrite Z.leb_refl.
      + rewrite upd_other by (intros E; apply sh_nx_inj in E; lia).
        destruct (Z.eq_dec k 0) as [->|N0].
        * rewrite L2 by (intros i k' Hi Hk' E; apply sh_nx_inj in E; lia). unfold m0. rewrite upd_same. unfold evx.
          destruct (Z.leb_spec 0 n); [|lia]. now rewrite Z.mul_0_l.
        * apply (L1 (if k <? n then k - 1 else 2 * n - k - 1)); destruct (Z.ltb_spec k n); lia.
    - intros l Hl. rewrite upd_other; [now apply M1|]. intros <-. cbn in Hl. lia.
  Qed.
  Lemma redft00_math x k : 0 <= k <= n ->
    Rsum (2 * n) (fun j => evx x j * rk R2HC (2 * n) j k)%R = Rsum (n + 1) (fun j => x j * rk REDFT00 (n + 1) j k)%R.
  Proof.
    intros Hk. rewrite hc_re by lia. rewrite (Rsum_pairs_even (2 * n) n) by lia.
    rewrite Rsum_succ, (Rsum_head n) by lia. 
    rewrite rk_redft00_0.
    pose proof (rk_redft00_n (n + 1) k ltac:(lia)) as Rn. replace (n + 1 - 1) with n in Rn by lia. rewrite Rn. clear Rn.
    assert (E0 : evx x 0 = x 0) by (unfold evx; destruct (Z.leb_spec 0 n); [reflexivity|lia]).
    assert (En : evx x n = x n) by (unfold evx; now rewrite Z.leb_refl).
    rewrite E0, En, Z.mul_0_l, cs_0.
    rewrite (Rsum_ext (n - 1) (fun i => evx x (i + 1) * cs (2 * n) ((i + 1) * k) + evx x (2 * n - (i + 1)) * cs (2 * n) ((2 * n - (i + 1)) * k))%R
      (fun i => x (i + 1)%Z * rk REDFT00 (n + 1) (i + 1) k)%R); [ring|].
    intros i Hi. rewrite rk_redft00 by lia. replace (n + 1 - 1) with n by lia. rewrite cs_ref' by lia. unfold evx.
    destruct (Z.leb_spec (i + 1) n); [|lia]. destruct (Z.leb_spec (2 * n - (i + 1)) n); [lia|]. replace (2 * n - (2 * n - (i + 1))) with (i + 1) by lia. ring.
  Qed.
  Lemma redft00_pad_correct nd nd2 ip is os f fc : Correct nd2 true (rx (x1 R2HC (2 * n) 1 1)) [] f ->
    Correct nd2 false xcopy [mkdim (n + 1) 1 os] fc ->
    Correct nd ip (rx (x1 REDFT00 (n + 1) is os)) [] (redft00_pad n is f fc).
  Proof.
    intros C Cc. apply prove_r1. intros nx I O m [HI HO Ji Jo _]. unfold redft00_pad. cbn zeta.
    destruct (redft00_load_ok is nx I m HI) as [L1 L2]. set (m1 := redft00_load n is (nx, 0) I m) in *. clearbody m1.
    destruct (r2hc_buf nd2 (2 * n) f nx m1 _ C L1) as [F1 F2]. set (m2 := f (S nx) (nx, 0) (nx, 0) m1) in *. clearbody m2.
    destruct (run_copy1 nd2 (n + 1) 1 os fc nx 0 O m2 Cc ltac:(lia) HO (inj1_1 _) Jo) as [S1 S2]. rewrite sh_0 in S1, S2. split.
    - intros k Hk. rewrite S1 by auto. replace (0 + k * 1) with k by lia. rewrite F1 by lia. apply redft00_math. lia.
    - intros l Hl Ho _. rewrite S2, F2, L2; auto.
  Qed.

  (** 0, -x_0, ..., -x_(n-2), 0, x_(n-2), ..., x_0 *)
  Definition odx (x : Z -> R) (k : Z) : R :=
    if k =? 0 then 0%R else if k =? n then 0%R else if k <? n then (- x (k - 1)%Z)%R else x (2 * n - k - 1)%Z.
  Lemma rodft00_load_ok is (nx : nat) I m : (fst I < nx)%nat ->
     (forall k, 0 <= k < 2 * n -> rodft00_load n is (nx, 0) I m (sh (nx, 0) k) = odx (fun j => m (sh I (j * is))) k) /\
     (forall l, (fst l < nx)%nat -> rodft00_load n is (nx, 0) I m l = m l).
  Proof.
    intros HI. unfold rodft00_load. cbn zeta. set (m0 := upd m (sh (nx, 0) 0) 0%R).
    assert (M0 : forall l, (fst l < nx)%nat -> m0 l = m l).
    { intros l Hl. unfold m0. apply upd_other. intros <-. cbn in Hl. lia. }
    destruct (loop_cells (n - 1) (fun i' m => upd (upd m (sh (nx, 0) (i' + 1)) (- m (sh I ((i' + 1 - 1) * is)%Z))%R) (sh (nx, 0) (2 * n - (i' + 1))) (m (sh I ((i' + 1 - 1) * is)))) m0
      (fun i k => k = i + 1 \/ k = 2 * n - (i + 1)) (fun k => sh (nx, 0) k) (odx (fun j => m (sh I (j * is))))) as [L1 L2].
    { intros i m' Hi Hm.
      rewrite (Hm (sh I ((i + 1 - 1) * is))), M0 by (try (intros; intros E; symmetry in E; revert E; intros E; apply (f_equal fst) in E; cbn in E; lia); cbn; lia).
      destruct (upd2 m' (sh (nx, 0) (i + 1)) (sh (nx, 0) (2 * n - (i + 1))) (- m (sh I ((i + 1 - 1) * is)%Z))%R (m (sh I ((i + 1 - 1) * is)))) as (U1 & U2 & U3).
      { intros E. apply sh_nx_inj in E. lia. }
      split.
      - intros k [->| ->]; [rewrite U1|rewrite U2]; unfold odx.
        + destruct (Z.eqb_spec (i + 1) 0), (Z.eqb_spec (i + 1) n), (Z.ltb_spec (i + 1) n); try lia. reflexivity.
        + destruct (Z.eqb_spec (2 * n - (i + 1)) 0), (Z.eqb_spec (2 * n - (i + 1)) n), (Z.ltb_spec (2 * n - (i + 1)) n); try lia. do 3 f_equal. lia.
      - intros l Hl. apply U3; apply Hl; auto. }
    { intros i j k k' Hi Hj Ne Hk Hk' E. apply sh_nx_inj in E. lia. }
    set (m1 := zfor _ _ m0) in *. clearbody m1.
    assert (M1 : forall l, (fst l < nx)%nat -> m1 l = m l).
    { intros l Hl. rewrite L2, M0; auto. intros i k _ _ ->. cbn in Hl. lia. }
    split.
    - intros k Hk. destruct (Z.eq_dec k n) as [->|Nn].
      + rewrite upd_same. unfold odx. rewrite Z.eqb_refl. now destruct (n =? 0).
      + rewrite upd_other by (intros E; apply sh_nx_inj in E; lia).
        destruct (Z.eq_dec k 0) as [->|N0].
        * rewrite L2 by (intros i k' Hi Hk' E; apply sh_nx_inj in E; lia). unfold m0. now rewrite upd_same.
        * apply (L1 (if k <? n then k - 1 else 2 * n - k - 1)); destruct (Z.ltb_spec k n); lia.
    - intros l Hl. rewrite upd_other; [now apply M1|]. intros <-. cbn in Hl. lia.
  Qed.
  Lemma rodft00_math x k : 0 <= k < n - 1 ->
    Rsum (2 * n) (fun j => odx x j * rk R2HC (2 * n) j (2 * n - 1 - k)%Z)%R = Rsum (n - 1) (fun j => x j * rk RODFT00 (n - 1) j k)%R.
  Proof.
    intros Hk. replace (2 * n - 1 - k) with (2 * n - (k + 1)) by lia. rewrite hc_im by lia. rewrite (Rsum_pairs_even (2 * n) n) by lia.
    assert (E0 : odx x 0 = 0%R) by reflexivity.
    assert (En : odx x n = 0%R) by (unfold odx; rewrite Z.eqb_refl; now destruct (n =? 0)).
    rewrite E0, En, !Rmult_0_l, !Rplus_0_l, <- Rsum_opp. apply Rsum_ext. intros i Hi.
    rewrite rk_rodft00 by lia. replace (n - 1 + 1) with n by lia. rewrite sn_ref' by lia. unfold odx.
    destruct (Z.eqb_spec (i + 1) 0), (Z.eqb_spec (i + 1) n), (Z.ltb_spec (i + 1) n); try lia.
    destruct (Z.eqb_spec (2 * n - (i + 1)) 0), (Z.eqb_spec (2 * n - (i + 1)) n), (Z.ltb_spec (2 * n - (i + 1)) n); try lia.
    replace (2 * n - (2 * n - (i + 1)) - 1) with i by lia. replace (i + 1 - 1) with i by lia. ring.
  Qed.
  Lemma rodft00_pad_correct nd nd2 ip is os f fc : Correct nd2 true (rx (x1 R2HC (2 * n) 1 1)) [] f ->
    Correct nd2 false xcopy [mkdim (n - 1) (-1) os] fc ->
    Correct nd ip (rx (x1 RODFT00 (n - 1) is os)) [] (rodft00_pad n is f fc).
  Proof.
    intros C Cc. apply prove_r1. intros nx I O m [HI HO Ji Jo _]. unfold rodft00_pad. cbn zeta.
    destruct (rodft00_load_ok is nx I m HI) as [L1 L2]. set (m1 := rodft00_load n is (nx, 0) I m) in *. clearbody m1.
    destruct (r2hc_buf nd2 (2 * n) f nx m1 _ C L1) as [F1 F2]. set (m2 := f (S nx) (nx, 0) (nx, 0) m1) in *. clearbody m2.
    destruct (run_copy1 nd2 (n - 1) (-1) os fc nx (2 * n - 1) O m2 Cc ltac:(lia) HO (inj1_m1 _) Jo) as [S1 S2]. split.
    - intros k Hk. rewrite S1 by auto. replace (2 * n - 1 + k * -1) with (2 * n - 1 - k) by lia. rewrite F1 by lia. apply rodft00_math. lia.
    - intros l Hl Ho _. rewrite S2, F2, L2; auto.
  Qed.
End Pad.
