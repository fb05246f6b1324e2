(** * Correctness of the in-place non-square transpositions by gcd and by cutting
    (rdft/vrank3-transpose.c; proofs). *)
From Coq Require Import Reals ZArith List Lia Bool Permutation.
From Verif Require Import NumTheory Cplx Spec Base PrimesModel TensorModel Offs TensorProofs XForm XKern XSeq
  CopyModel CopyProofs CopyBounds TransProofs Rank0Model Rank0Proofs.
Import ListNotations.
Open Scope Z_scope.

(** transposition of an [n] by [m] matrix of [vl]-tuples *)
Definition Tr (n m vl : Z) : list iodim := [mkdim n (m * vl) vl; mkdim m vl (n * vl); mkdim vl 1 1].

Lemma rm_bound n m vl i j v : 0 <= i < n -> 0 <= j < m -> 0 <= v < vl -> 0 <= i * (m * vl) + j * vl + v < n * (m * vl).
Proof.
  intros. assert (0 <= j * vl) by (apply Z.mul_nonneg_nonneg; lia).
  assert (j * vl + v < m * vl) by (assert ((j + 1) * vl <= m * vl) by (apply Z.mul_le_mono_nonneg_r; lia); lia).
  assert (0 <= i * (m * vl)) by (apply Z.mul_nonneg_nonneg; nia).
  assert ((i + 1) * (m * vl) <= n * (m * vl)) by (apply Z.mul_le_mono_nonneg_r; nia). lia.
Qed.
Lemma rm_decomp n m vl x : 0 < m -> 0 < vl -> 0 <= x < n * (m * vl) ->
  exists i j v, 0 <= i < n /\ 0 <= j < m /\ 0 <= v < vl /\ x = i * (m * vl) + j * vl + v.
Proof.
  intros Hm Hv Hx. assert (Hmv : 0 < m * vl) by nia.
  pose proof (Z.div_mod x (m * vl) ltac:(lia)) as E1. pose proof (Z.mod_pos_bound x (m * vl) Hmv) as B1.
  pose proof (Z.div_mod (x mod (m * vl)) vl ltac:(lia)) as E2. pose proof (Z.mod_pos_bound (x mod (m * vl)) vl Hv) as B2.
  exists (x / (m * vl)), (x mod (m * vl) / vl), (x mod (m * vl) mod vl).
  split. { split; [apply Z.div_pos; lia|]. apply Z.div_lt_upper_bound; lia. }
  split. { split; [apply Z.div_pos; lia|]. apply Z.div_lt_upper_bound; lia. }
  split; [lia|]. lia.
Qed.
Lemma radix3 s t a b c i j v i' j' v' : c <= t -> b * t <= s ->
  0 <= i < a -> 0 <= i' < a -> 0 <= j < b -> 0 <= j' < b -> 0 <= v < c -> 0 <= v' < c ->
  i * s + j * t + v = i' * s + j' * t + v' -> i = i' /\ j = j' /\ v = v'.
Proof.
  intros Hc Hb Hi Hi' Hj Hj' Hv Hv' E.
  assert (0 < t) by lia.
  assert (B : forall j v, 0 <= j < b -> 0 <= v < c -> 0 <= j * t + v < s).
  { intros y w Hy Hw. assert (0 <= y * t) by nia. assert ((y + 1) * t <= b * t) by nia. lia. }
  pose proof (B j v Hj Hv). pose proof (B j' v' Hj' Hv').
  assert (i = i') by nia. subst i'. assert (E2 : j * t + v = j' * t + v') by lia.
  assert (j = j') by nia. subst. lia.
Qed.

Lemma NoDup_radix3 a s b t c : c <= t -> b * t <= s -> NoDup (locs [(a, s); (b, t); (c, 1)]).
Proof.
  intros Hc Hb. change (NoDup (locs (ti [mkdim a s 0; mkdim b t 0; mkdim c 1 0]))).
  apply inj_NoDup_i. intros ks js Hk Hj E.
  destruct ks as [|k0 [|k1 [|kv [|]]]]; cbn in Hk; try tauto. destruct js as [|j0 [|j1 [|jv [|]]]]; cbn in Hj; try tauto. cbn in E.
  destruct (radix3 s t a b c k0 k1 kv j0 j1 jv) as (-> & -> & ->); try tauto; lia.
Qed.
Lemma NoDup_radix3' a s b t c : c <= s -> a * s <= t -> NoDup (locs [(a, s); (b, t); (c, 1)]).
Proof.
  intros. eapply Permutation_NoDup; [apply locs_perm, perm_swap|]. now apply NoDup_radix3.
Qed.

Lemma Tr_use nd (f : rapply) n m vl nx I mm : Correct nd true xcopy (Tr n m vl) f -> (fst I < nx)%nat ->
  0 < n -> 0 < m -> 0 < vl ->
  (forall i j v, 0 <= i < n -> 0 <= j < m -> 0 <= v < vl ->
     f nx I I mm (sh I (j * (n * vl) + i * vl + v)) = mm (sh I (i * (m * vl) + j * vl + v))) /\
  (forall l, (fst l < nx)%nat -> (forall x, 0 <= x < n * (m * vl) -> l <> sh I x) -> f nx I I mm l = mm l).
Proof.
  intros HC HI Hn Hm Hv.
  assert (Si : forall o, In o (il xcopy (Tr n m vl)) <-> 0 <= o < n * (m * vl)).
  { intros o. rewrite il_xcopy, in_ilocs. unfold Tr. split.
    - intros (ks & Hk & ->). destruct ks as [|k0 [|k1 [|kv [|]]]]; cbn in Hk; try tauto. cbn.
      pose proof (rm_bound n m vl k0 k1 kv). lia.
    - intros H. destruct (rm_decomp n m vl o Hm Hv H) as (i & j & v & Hi & Hj & Hv' & ->). exists [i; j; v]. cbn. split; [tauto|lia]. }
  assert (So : forall o, In o (ol xcopy (Tr n m vl)) <-> 0 <= o < n * (m * vl)).
  { intros o. rewrite ol_xcopy, in_olocs. unfold Tr. split.
    - intros (ks & Hk & ->). destruct ks as [|k0 [|k1 [|kv [|]]]]; cbn in Hk; try tauto. cbn.
      pose proof (rm_bound m n vl k1 k0 kv). lia.
    - intros H. destruct (rm_decomp m n vl o Hn Hv) as (i & j & v & Hi & Hj & Hv' & ->); [lia|]. exists [j; i; v]. cbn. split; [tauto|lia]. }
  destruct (HC nx I I mm) as [V F].
  { constructor; auto.
    - unfold Tr. repeat constructor; cbn; lia.
    - rewrite il_xcopy. exact (NoDup_radix3 n (m * vl) m vl vl ltac:(lia) ltac:(lia)).
    - rewrite ol_xcopy. exact (NoDup_radix3' n vl m (n * vl) vl ltac:(lia) ltac:(lia)).
    - split; auto. intros o. now rewrite Si, So. }
  split.
  - intros i j v Hi Hj Hv'. rewrite vals_xcopy in V. specialize (V [i; j; v]). cbn in V.
    rewrite !Z.mul_1_r, !Z.add_0_r, !Z.add_assoc in V. rewrite (Z.add_comm (j * (n * vl))). apply V. tauto.
  - intros l Hl H. apply F; auto.
    + intros (o & Ho & ->). apply So in Ho. now apply (H o).
    + right. intros (o & Ho & ->). apply Si in Ho. now apply (H o).
Qed.

Lemma Tr_intro nd (f : rapply) n m vl : 0 < n -> 0 < m -> 0 < vl ->
  (forall nx I mm, (fst I < nx)%nat ->
  (forall i j v, 0 <= i < n -> 0 <= j < m -> 0 <= v < vl ->
     f nx I I mm (sh I (j * (n * vl) + i * vl + v)) = mm (sh I (i * (m * vl) + j * vl + v))) /\
  (forall l, (fst l < nx)%nat -> (forall x, 0 <= x < n * (m * vl) -> l <> sh I x) -> f nx I I mm l = mm l)) ->
  Correct nd true xcopy (Tr n m vl) f.
Proof.
  intros Hn Hm Hv H nx I O mm HW. pose proof (wf_x _ _ _ _ _ _ HW) as [-> _].
  destruct (H nx O mm (wf_bi _ _ _ _ _ _ HW)) as [A F]. split.
  - apply vals_xcopy. intros ks Hk. destruct ks as [|k0 [|k1 [|kv [|]]]]; cbn in Hk; try tauto. cbn.
    rewrite !Z.mul_1_r, !Z.add_0_r, !Z.add_assoc, (Z.add_comm (k0 * vl)). apply A; tauto.
  - intros l Hl Ho _. apply F; auto. intros x Hx ->. apply Ho. rewrite ol_xcopy. apply InP_intro. apply in_olocs.
    destruct (rm_decomp m n vl x Hn Hv) as (i & j & v & Hi & Hj & Hv' & ->); [lia|]. exists [j; i; v]. cbn. split; [tauto|lia].
Qed.

Lemma mv_in k I O m v : 0 <= v < k -> mv k I O m (sh O v) = m (sh I v).
Proof.
  intros Hv. unfold mv. apply stores_in.
  - rewrite map_map. cbn. rewrite map_id. apply NoDup_zr.
  - apply in_map_iff. exists v. split; auto. now apply in_zr.
Qed.

(** rows packed together (memmove towards lower addresses) *)
Lemma compact_loop I k s t n m : 0 <= n -> 0 <= k <= t -> t <= s ->
  let m' := zfor n (fun i => mv k (sh I (s * i)) (sh I (t * i))) m in
  (forall i w, 0 <= i < n -> 0 <= w < k -> m' (sh I (t * i + w)) = m (sh I (s * i + w))) /\
  (forall l, (forall x, 0 <= x < t * n -> l <> sh I x) -> m' l = m l).
Proof.
  intros Hn Hk Hs. cbn zeta. pattern n. apply natlike_ind; [| |exact Hn].
  - split; [intros; lia|]. reflexivity.
  - intros x Hx [A F]. unfold Z.succ. rewrite zfor_succ by auto. set (m' := zfor x _ m) in *. split.
    + intros i w Hi Hw. destruct (Z.eq_dec i x) as [->|Hne].
      * rewrite <- sh_sh. rewrite mv_in by auto. rewrite sh_sh. apply F. intros y Hy E. apply sh_inj in E.
        assert (t * x <= s * x) by nia. lia.
      * rewrite mv_other; [apply A; lia|]. intros v Hv E. rewrite sh_sh in E. apply sh_inj in E.
        assert (t * (i + 1) <= t * x) by nia. lia.
    + intros l Hl. rewrite mv_other.
      * apply F. intros y Hy. apply Hl. nia.
      * intros v Hv. rewrite sh_sh. apply Hl. nia.
Qed.

(** rows spread apart (memmove towards higher addresses, from the last row) *)
Lemma expand_loop I k k0 s t n m : 0 <= n -> 0 <= k0 <= k -> k <= t -> k0 <= s -> s <= t ->
  let m' := zford n (fun i => mv k (sh I (s * i)) (sh I (t * i))) m in
  (forall i w, 0 <= i < n -> 0 <= w < k0 -> m' (sh I (t * i + w)) = m (sh I (s * i + w))) /\
  (forall l, (forall x, 0 <= x < t * n -> l <> sh I x) -> m' l = m l).
Proof.
  intros Hn Hk Hkt Hks Hst. cbn zeta. unfold zford.
  assert (G : forall p, 0 <= p -> p <= n ->
    let m' := zfor p (fun i => mv k (sh I (s * (n - 1 - i))) (sh I (t * (n - 1 - i)))) m in
    (forall i w, n - p <= i < n -> 0 <= w < k0 -> m' (sh I (t * i + w)) = m (sh I (s * i + w))) /\
    (forall l, (forall x, t * (n - p) <= x < t * n -> l <> sh I x) -> m' l = m l)).
  { intros p Hp. pattern p. apply natlike_ind; [| |exact Hp].
    - intros _. cbn zeta. split; [intros; lia|]. reflexivity.
    - intros x Hx IH Hle. unfold Z.succ in *. destruct (IH ltac:(lia)) as [A F]. cbn zeta. rewrite zfor_succ by auto.
      set (m' := zfor x _ m) in *. set (y := n - 1 - x) in *. split.
      + intros i w Hi Hw. destruct (Z.eq_dec i y) as [->|Hne].
        * rewrite <- sh_sh. rewrite mv_in by lia. rewrite sh_sh. apply F. intros z Hz E. apply sh_inj in E.
          assert (s * (y + 1) <= t * (y + 1)) by nia. replace (n - x) with (y + 1) in Hz by lia. lia.
        * rewrite mv_other; [apply A; lia|]. intros v Hv E. rewrite sh_sh in E. apply sh_inj in E.
          assert (t * (y + 1) <= t * i) by nia. lia.
      + intros l Hl. replace (n - (x + 1)) with y in Hl by lia. rewrite mv_other.
        * apply F. intros z Hz. apply Hl. replace (n - x) with (y + 1) in Hz by lia. nia.
        * intros v Hv. rewrite sh_sh. apply Hl. nia. }
  destruct (G n Hn ltac:(lia)) as [A F]. split.
  - intros. apply A; lia.
  - intros l Hl. apply F. intros x Hx. apply Hl. nia.
Qed.

Theorem apply_cut_correct nd n m nc mc vl c1 c2 c3 : 0 < nc <= n -> 0 < mc <= m -> 0 < vl ->
  (mc < m -> Correct true false xcopy [mkdim nc (m * vl) vl; mkdim (m - mc) vl (nc * vl); mkdim vl 1 1] c1) ->
  Correct true true xcopy (Tr nc mc vl) c2 ->
  (nc < n -> Correct true false xcopy [mkdim (n - nc) (m * vl) vl; mkdim m vl (n * vl); mkdim vl 1 1] c3) ->
  Correct nd true xcopy (Tr n m vl) (apply_cut n m nc mc vl c1 c2 c3).
Proof.
  intros Hnc Hmc Hv H1 H2 H3. apply Tr_intro; try lia. intros nx I mm HI.
  unfold apply_cut. cbn zeta. set (buf := (nx, 0) : loc). set (buf2 := sh buf ((m - mc) * (nc * vl))).
  assert (Hb : fst buf = nx) by reflexivity. assert (Hb2 : fst buf2 = nx) by reflexivity.
  assert (HN : nc * (mc * vl) <= nc * (m * vl)) by nia. assert (HN2 : nc * (m * vl) <= n * (m * vl)) by nia.
  assert (HN3 : mc * (n * vl) <= m * (n * vl)) by nia.
  assert (EN : m * (n * vl) = n * (m * vl)) by ring.
  (* stage 1 *)
  set (m1 := if mc <? m then _ else mm).
  assert (S1 : (forall i j v, 0 <= i < nc -> 0 <= j < mc -> 0 <= v < vl -> m1 (sh I (i * (mc * vl) + j * vl + v)) = mm (sh I (i * (m * vl) + j * vl + v))) /\
     (forall i j v, 0 <= i < nc -> mc <= j < m -> 0 <= v < vl -> m1 (sh buf ((j - mc) * (nc * vl) + i * vl + v)) = mm (sh I (i * (m * vl) + j * vl + v))) /\
     (forall x, nc * (m * vl) <= x -> m1 (sh I x) = mm (sh I x)) /\
     (forall l, (fst l < nx)%nat -> (forall x, 0 <= x < n * (m * vl) -> l <> sh I x) -> m1 l = mm l)).
  { unfold m1. destruct (Z.ltb_spec mc m) as [Hlt|Hge].
    - specialize (H1 Hlt). destruct (cpy_use c1 (S nx) nc (m * vl) vl (m - mc) vl (nc * vl) vl (sh I (mc * vl)) buf mm H1) as [A F];
        try (cbn; lia); try (apply NoDup_radix3; nia); try (apply NoDup_radix3'; nia).
      set (ma := c1 _ _ _ mm) in *.
      destruct (compact_loop I (mc * vl) (m * vl) (mc * vl) nc ma) as [B G]; try nia.
      set (mb := zfor nc _ ma) in *.
      assert (Fa : forall l, fst l <> nx -> (fst l < S nx)%nat -> ma l = mm l).
      { intros l Hl Hl'. apply F; auto. intros i0 i1 v _ _ _ ->. now rewrite sh_blk in Hl. }
      repeat split.
      + intros i j v Hi Hj Hv'.
        assert (0 <= j * vl + v < mc * vl) by (pose proof (rm_bound 1 mc vl 0 j v); lia).
        replace (i * (mc * vl) + j * vl + v) with (mc * vl * i + (j * vl + v)) by ring. rewrite B by lia.
        rewrite Fa by (rewrite sh_blk; lia). f_equal. f_equal. ring.
      + intros i j v Hi Hj Hv'. rewrite G.
        * rewrite (Z.add_comm ((j - mc) * (nc * vl))). rewrite A by lia. rewrite sh_sh. f_equal. f_equal. ring.
        * intros x Hx. apply sh_ne_blk. cbn. lia.
      + intros x Hx. rewrite G.
        * apply Fa; rewrite sh_blk; lia.
        * intros y Hy E. apply sh_inj in E. nia.
      + intros l Hl Hl'. rewrite G.
        * apply Fa; lia.
        * intros x Hx. apply Hl'. nia.
    - assert (mc = m) by lia. subst mc. repeat split; auto. intros; lia. }
  destruct S1 as (S1a & S1b & S1c & S1d). clearbody m1.
  (* stage 2 *)
  destruct (Tr_use true c2 nc mc vl (S nx) I m1 H2) as [S2 F2]; try lia.
  set (m2 := c2 _ _ _ m1) in *. clearbody m2.
  assert (T2a : forall i j v, 0 <= i < nc -> 0 <= j < mc -> 0 <= v < vl -> m2 (sh I (j * (nc * vl) + i * vl + v)) = mm (sh I (i * (m * vl) + j * vl + v))).
  { intros. rewrite S2 by auto. now apply S1a. }
  assert (T2b : forall i j v, 0 <= i < nc -> mc <= j < m -> 0 <= v < vl -> m2 (sh buf ((j - mc) * (nc * vl) + i * vl + v)) = mm (sh I (i * (m * vl) + j * vl + v))).
  { intros. rewrite F2; [now apply S1b|rewrite sh_blk; cbn; lia|]. intros x Hx. apply sh_ne_blk. cbn; lia. }
  assert (T2c : forall x, nc * (m * vl) <= x -> m2 (sh I x) = mm (sh I x)).
  { intros x Hx. rewrite F2; [now apply S1c|rewrite sh_blk; lia|]. intros y Hy E. apply sh_inj in E. lia. }
  assert (T2d : forall l, (fst l < nx)%nat -> (forall x, 0 <= x < n * (m * vl) -> l <> sh I x) -> m2 l = mm l).
  { intros l Hl Hl'. rewrite F2; [now apply S1d|lia|]. intros x Hx. apply Hl'. lia. }
  clear S1a S1b S1c S1d S2 F2.
  (* stage 3 *)
  set (m3 := if nc <? n then _ else m2).
  assert (S3 : (forall i j v, 0 <= i < n -> 0 <= j < mc -> 0 <= v < vl -> m3 (sh I (j * (n * vl) + i * vl + v)) = mm (sh I (i * (m * vl) + j * vl + v))) /\
     (forall i j v, nc <= i < n -> 0 <= j < m -> 0 <= v < vl -> m3 (sh I (j * (n * vl) + i * vl + v)) = mm (sh I (i * (m * vl) + j * vl + v))) /\
     (forall i j v, 0 <= i < nc -> mc <= j < m -> 0 <= v < vl -> m3 (sh buf ((j - mc) * (nc * vl) + i * vl + v)) = mm (sh I (i * (m * vl) + j * vl + v))) /\
     (forall l, (fst l < nx)%nat -> (forall x, 0 <= x < n * (m * vl) -> l <> sh I x) -> m3 l = mm l)).
  { unfold m3. destruct (Z.ltb_spec nc n) as [Hlt|Hge].
    - specialize (H3 Hlt).
      set (m3a := mv _ _ buf2 m2).
      assert (A1 : forall w, 0 <= w < (n - nc) * (m * vl) -> m3a (sh buf2 w) = mm (sh I (nc * (m * vl) + w))).
      { intros w Hw. unfold m3a. rewrite mv_in by auto. rewrite sh_sh. apply T2c. lia. }
      assert (A2 : forall l, fst l <> nx -> m3a l = m2 l).
      { intros l Hl. apply mv_other. intros v _ ->. now rewrite sh_blk in Hl. }
      assert (A3 : forall x, x < (m - mc) * (nc * vl) -> m3a (sh buf x) = m2 (sh buf x)).
      { intros x Hx. apply mv_other. intros v Hv' E. unfold buf2 in E. rewrite sh_sh in E. apply sh_inj in E. lia. }
      clearbody m3a.
      destruct (expand_loop I (n * vl) (nc * vl) (nc * vl) (n * vl) mc m3a) as [B G]; try nia.
      set (m3b := zford mc _ m3a) in *. clearbody m3b.
      assert (Gb : forall x, m3b (sh buf x) = m3a (sh buf x)).
      { intros x. apply G. intros y _. apply sh_ne_blk. cbn. lia. }
      destruct (cpy_use c3 (S nx) (n - nc) (m * vl) vl m vl (n * vl) vl buf2 (sh I (nc * vl)) m3b H3) as [A F];
        try (cbn; lia); try (apply NoDup_radix3; nia); try (apply NoDup_radix3'; nia).
      set (m3c := c3 _ _ _ m3b) in *. clearbody m3c.
      assert (E3 : forall i j v, nc <= i < n -> 0 <= j < m -> 0 <= v < vl -> m3c (sh I (j * (n * vl) + i * vl + v)) = mm (sh I (i * (m * vl) + j * vl + v))).
      { intros i j v Hi Hj Hv'. specialize (A (i - nc) j v ltac:(lia) Hj Hv'). rewrite sh_sh in A.
        replace (nc * vl + ((i - nc) * vl + j * (n * vl) + v)) with (j * (n * vl) + i * vl + v) in A by ring.
        rewrite A. unfold buf2 at 1. rewrite sh_sh, Gb, <- sh_sh. fold buf2. rewrite A1.
        - f_equal. f_equal. ring.
        - pose proof (rm_bound (n - nc) m vl (i - nc) j v). lia. }
      repeat split.
      + intros i j v Hi Hj Hv'. destruct (Z_lt_le_dec i nc) as [Hinc|Hinc]; [|apply E3; lia].
        rewrite F.
        * assert (0 <= i * vl + v < nc * vl) by (pose proof (rm_bound 1 nc vl 0 i v); lia).
          replace (j * (n * vl) + i * vl + v) with (n * vl * j + (i * vl + v)) by ring.
          rewrite B by lia. rewrite A2 by (rewrite sh_blk; lia). rewrite <- T2a by lia. f_equal. f_equal. ring.
        * rewrite sh_blk. lia.
        * intros i0 j0 v0 Hi0 Hj0 Hv0 E. rewrite sh_sh in E. apply sh_inj in E.
          destruct (radix3 (n * vl) vl m n vl j i v j0 (nc + i0) v0) as (_ & E1 & _); try lia; try nia.
      + intros i j v Hi Hj Hv'. apply E3; lia.
      + intros i j v Hi Hj Hv'.
        assert (R : 0 <= (j - mc) * (nc * vl) + i * vl + v < (m - mc) * (nc * vl)) by (apply rm_bound; lia).
        rewrite F.
        * rewrite Gb, A3 by lia. now apply T2b.
        * cbn; lia.
        * intros i0 j0 v0 _ _ _. apply sh_ne_blk. cbn. lia.
      + intros l Hl Hl'. rewrite F.
        * rewrite G; [rewrite A2; [now apply T2d|lia]|]. intros x Hx. apply Hl'. nia.
        * lia.
        * intros i0 j0 v0 Hi0 Hj0 Hv0. rewrite sh_sh. apply Hl'.
          pose proof (rm_bound m n vl j0 (nc + i0) v0). lia.
    - assert (nc = n) by lia. subst nc. repeat split; auto. intros; lia. }
  destruct S3 as (S3a & S3b & S3c & S3d). clearbody m3. clear T2a T2b T2c T2d.
  destruct (Z.ltb_spec mc m) as [Hmlt|Hmge].
  2:{ split; [|exact S3d]. intros. apply S3a; lia. }
  destruct (Z.ltb_spec nc n) as [Hnlt|Hnge].
  - set (mz := zfor (m - mc) _ m3).
    assert (Z1 : forall k, 0 <= k -> k <= m - mc ->
      let mz := zfor k (fun j => mv (nc * vl) (sh buf (j * (nc * vl))) (sh I ((mc + j) * (n * vl)))) m3 in
      (forall j w, 0 <= j < k -> 0 <= w < nc * vl -> mz (sh I ((mc + j) * (n * vl) + w)) = m3 (sh buf (j * (nc * vl) + w))) /\
      (forall l, (forall j w, 0 <= j < k -> 0 <= w < nc * vl -> l <> sh I ((mc + j) * (n * vl) + w)) -> mz l = m3 l)).
    { intros k Hk. pattern k. apply natlike_ind; [| |exact Hk].
      - intros _. cbn zeta. split; [intros; lia|reflexivity].
      - intros x Hx IH Hle. unfold Z.succ in *. destruct (IH ltac:(lia)) as [A F]. cbn zeta. rewrite zfor_succ by auto.
        set (mx := zfor x _ m3) in *. split.
        + intros j w Hj Hw. destruct (Z.eq_dec j x) as [->|Hne].
          * rewrite <- sh_sh, mv_in, sh_sh by auto. apply F. intros. apply sh_ne_blk. cbn; lia.
          * rewrite mv_other; [apply A; lia|]. intros v Hv' E. rewrite sh_sh in E. apply sh_inj in E.
            assert ((mc + j + 1) * (n * vl) <= (mc + x) * (n * vl)) by (apply Z.mul_le_mono_nonneg_r; nia).
            assert (nc * vl <= n * vl) by nia. lia.
        + intros l Hl. rewrite mv_other.
          * apply F. intros j w Hj. apply Hl. lia.
          * intros v Hv'. rewrite sh_sh. apply Hl; lia. }
    destruct (Z1 (m - mc) ltac:(lia) ltac:(lia)) as [A F]. fold mz in A, F. clearbody mz. clear Z1. split.
    + intros i j v Hi Hj Hv'. destruct (Z_lt_le_dec j mc) as [Hjm|Hjm].
      * rewrite F; [apply S3a; lia|]. intros j0 w Hj0 Hw E. apply sh_inj in E.
        assert (0 <= i * vl + v < n * vl) by (pose proof (rm_bound 1 n vl 0 i v); lia).
        assert ((j + 1) * (n * vl) <= (mc + j0) * (n * vl)) by (apply Z.mul_le_mono_nonneg_r; nia). lia.
      * destruct (Z_lt_le_dec i nc) as [Hinc|Hinc].
        -- assert (0 <= i * vl + v < nc * vl) by (pose proof (rm_bound 1 nc vl 0 i v); lia).
           rewrite <- S3c by lia. specialize (A (j - mc) (i * vl + v) ltac:(lia) ltac:(lia)).
           rewrite Z.add_assoc in A. replace (mc + (j - mc)) with j in A by ring.
           rewrite !Z.add_assoc in A. rewrite A. reflexivity.
        -- rewrite F; [apply S3b; lia|]. intros j0 w Hj0 Hw E. apply sh_inj in E.
           assert (0 <= i * vl + v < n * vl) by (pose proof (rm_bound 1 n vl 0 i v); lia).
           assert (nc * vl <= i * vl + v) by nia. assert (nc * vl <= n * vl) by nia.
           assert (j = mc + j0) by nia. subst j. lia.
    + intros l Hl Hl'. rewrite F; [now apply S3d|]. intros j w Hj Hw. apply Hl'.
      assert (nc * vl <= n * vl) by nia. assert (0 <= (mc + j) * (n * vl)) by nia.
      assert ((mc + j + 1) * (n * vl) <= m * (n * vl)) by (apply Z.mul_le_mono_nonneg_r; nia). lia.
  - assert (nc = n) by lia. subst nc. split.
    + intros i j v Hi Hj Hv'. destruct (Z_lt_le_dec j mc) as [Hjm|Hjm].
      * rewrite mv_other; [apply S3a; lia|]. intros w Hw E. rewrite sh_sh in E. apply sh_inj in E.
        assert (0 <= i * vl + v < n * vl) by (pose proof (rm_bound 1 n vl 0 i v); lia).
        assert ((j + 1) * (n * vl) <= mc * (n * vl)) by (apply Z.mul_le_mono_nonneg_r; nia). lia.
      * rewrite <- S3c by lia.
        replace (j * (n * vl) + i * vl + v) with (mc * (n * vl) + ((j - mc) * (n * vl) + i * vl + v)) by ring.
        rewrite <- sh_sh. apply mv_in. apply rm_bound; lia.
    + intros l Hl Hl'. rewrite mv_other; [now apply S3d|]. intros v Hv'. rewrite sh_sh. apply Hl'.
      assert (0 <= mc * (n * vl)) by nia. lia.
Qed.

(** ** The gcd algorithm *)
Lemma locs_rm4 a b c e : 0 <= a -> 0 <= b -> 0 <= c -> 0 <= e ->
  locs [(a, b * c * e); (b, c * e); (c, e); (e, 1)] = locs [(a * b * c * e, 1)].
Proof.
  intros. rewrite (locs_merge (a * b * c) e) by nia. rewrite Z.mul_1_l.
  rewrite (locs_merge (a * b) c) by nia. rewrite (locs_merge a b) by nia.
  replace (b * c * e) with (e * c * b) by ring. now replace (c * e) with (e * c) by ring.
Qed.

Lemma Correct_dim_nop nd vec : Forall (fun d => dn d = 1 \/ dis d = dos d) vec ->
  Correct nd true xcopy vec (fun _ _ _ m => m).
Proof.
  intros H. eapply Correct_sim with (vec' := map (fun d => mkdim (dn d) (dis d) (dis d)) vec); [apply xsim_refl| | |].
  - induction H as [|d t Hd _ IH]; [reflexivity|]. cbn [map]. 
    assert (E : dimoffs d = dimoffs (mkdim (dn d) (dis d) (dis d))).
    { unfold dimoffs. cbn. destruct Hd as [->|E]; [reflexivity|]. apply map_ext. intros. now rewrite E. }
    cbn [offs]. rewrite E. now apply oplus_perm_r.
  - unfold nnegd. rewrite !Forall_forall. intros Hp x Hx. apply in_map_iff in Hx as (y & <- & Hy). cbn. now apply Hp.
  - apply nop_correct. unfold tensor_inplace_strides. apply forallb_forall. intros x Hx.
    apply in_map_iff in Hx as (y & <- & _). cbn. apply Z.eqb_refl.
Qed.

(** copy into a buffer and back, row by row *)
Lemma buf_rows nd d N vec c : 0 <= d -> 0 <= N -> nnegd vec ->
  Permutation (locs (ti vec)) (locs [(N, 1)]) -> Permutation (locs (to_ vec)) (locs [(N, 1)]) ->
  Correct true false xcopy vec c ->
  Correct nd true xcopy (mkdim d N N :: vec)
    (fun nx I O mm => zfor d (fun i mm => mv N (nx, 0) (sh I (i * N)) (c (S nx) (sh I (i * N)) (nx, 0) mm)) mm).
Proof.
  intros Hd HN Hv Pi Po HC.
  assert (C1 : Correct nd true xcopy vec (fun nx I O m => mv N (nx, 0) O (c (S nx) I (nx, 0) m))).
  { apply (Correct_buf2 nd true xcopy vec xcopy vec xcopy [mkdim N 1 1] c (fun _ I O m => mv N I O m) (fun nx => (nx, 0))); auto.
    - repeat constructor; cbn; auto.
    - rewrite !ol_xcopy. exact Po.
    - rewrite ol_xcopy. eapply Permutation_NoDup; [symmetry; exact Po|]. apply NoDup_locs_unit. lia.
    - rewrite ol_xcopy, il_xcopy. exact Po.
    - intros nx I O m m1 m2 V1 V2. rewrite vals_xcopy in *. intros ks Hk. rewrite <- V1 by auto.
      assert (Ho : In (ooff vec ks) (locs [(N, 1)])).
      { eapply Permutation_in; [exact Po|]. apply in_olocs. eauto. }
      apply in_locs_cons in Ho as (i & o & Hi & Ho & E). cbn in Ho. destruct Ho as [<-|[]]. rewrite Z.mul_1_r, Z.add_0_r in E. subst i.
      specialize (V2 [ooff vec ks]). cbn in V2. rewrite !Z.mul_1_r, !Z.add_0_r in V2. apply V2. auto.
    - apply Correct_nd. exact HC.
    - apply mv_correct. }
  assert (SS : same_set xcopy vec) by (apply same_set_locs; now rewrite Pi, Po).
  pose proof (Correct_loop nd true xcopy vec d N N _ xcopy_wf (fun _ => Logic.conj eq_refl SS) C1) as C2.
  intros nx I O m HW. pose proof (wf_x _ _ _ _ _ _ HW) as [-> _].
  exact (C2 nx O O m HW).
Qed.

Theorem apply_gcd_correct nd n m d vl c1 c2 c3 : 0 < n -> 0 < m -> 0 < d -> 0 < vl ->
  (1 < n -> Correct true false xcopy [mkdim n (d * m * vl) (m * vl); mkdim d (m * vl) (n * m * vl); mkdim (m * vl) 1 1] c1) ->
  Correct true true xcopy [mkdim d (d * n * m * vl) (n * m * vl); mkdim d (n * m * vl) (d * n * m * vl); mkdim (n * m * vl) 1 1] c2 ->
  (1 < m -> Correct true false xcopy [mkdim (d * n) (m * vl) vl; mkdim m vl (d * n * vl); mkdim vl 1 1] c3) ->
  Correct nd true xcopy (Tr (d * n) (d * m) vl) (apply_gcd n m d vl c1 c2 c3).
Proof.
  intros Hn Hm Hd Hv H1 H2 H3. set (N := n * m * d * vl).
  assert (HN : 0 < N) by (unfold N; repeat apply Z.mul_pos_pos; lia).
  assert (Pmv : 0 <= m * vl) by nia. assert (Pnmv : 0 <= n * m * vl) by (rewrite <- Z.mul_assoc; nia).
  set (v1 := [mkdim d N N; mkdim n (d * m * vl) (m * vl); mkdim d (m * vl) (n * m * vl); mkdim (m * vl) 1 1]).
  set (v2 := [mkdim d (d * n * m * vl) (n * m * vl); mkdim d (n * m * vl) (d * n * m * vl); mkdim (n * m * vl) 1 1]).
  set (v3 := [mkdim d N N; mkdim (d * n) (m * vl) vl; mkdim m vl (d * n * vl); mkdim vl 1 1]).
  set (g1 := fun nx I (O : loc) mm => if 1 <? n then zfor d (fun i mm => mv N (nx, 0) (sh I (i * N)) (c1 (S nx) (sh I (i * N)) (nx, 0) mm)) mm else mm).
  set (g3 := fun nx I (O : loc) mm => if 1 <? m then zfor d (fun i mm => mv N (nx, 0) (sh I (i * N)) (c3 (S nx) (sh I (i * N)) (nx, 0) mm)) mm else mm).
  set (U := locs [(d * N, 1)]).
  (* all the location sets are an interval *)
  assert (T0i : Permutation (locs (ti (Tr (d * n) (d * m) vl))) U).
  { unfold U, Tr, N. cbn [ti map dn dis].
    replace (d * (n * m * d * vl)) with (d * n * (d * m) * vl) by ring.
    rewrite (locs_merge (d * n * (d * m)) vl 1) by nia. rewrite (locs_merge (d * n) (d * m)) by nia.
    replace (1 * vl * (d * m)) with (d * m * vl) by ring. now rewrite Z.mul_1_l. }
  assert (T0o : Permutation (locs (to_ (Tr (d * n) (d * m) vl))) U).
  { unfold U, Tr, N. cbn [to_ map dn dos]. etransitivity; [apply locs_perm, perm_swap|].
    replace (d * (n * m * d * vl)) with (d * m * (d * n) * vl) by ring.
    rewrite (locs_merge (d * m * (d * n)) vl 1) by nia. rewrite (locs_merge (d * m) (d * n)) by nia.
    replace (1 * vl * (d * n)) with (d * n * vl) by ring. now rewrite Z.mul_1_l. }
  assert (Rows1i : Permutation (locs (ti (tl v1))) (locs [(N, 1)])).
  { unfold v1, N. cbn [tl ti map dn dis]. replace (n * m * d * vl) with (n * d * (m * vl)) by ring.
    rewrite (locs_merge (n * d) (m * vl) 1) by nia. rewrite (locs_merge n d) by nia.
    replace (1 * (m * vl) * d) with (d * m * vl) by ring. now rewrite Z.mul_1_l. }
  assert (Rows1o : Permutation (locs (to_ (tl v1))) (locs [(N, 1)])).
  { unfold v1, N. cbn [tl to_ map dn dos]. etransitivity; [apply locs_perm, perm_swap|].
    replace (n * m * d * vl) with (d * n * (m * vl)) by ring.
    rewrite (locs_merge (d * n) (m * vl) 1) by nia. rewrite (locs_merge d n) by nia.
    replace (1 * (m * vl) * n) with (n * m * vl) by ring. now rewrite Z.mul_1_l. }
  assert (Rows3i : Permutation (locs (ti (tl v3))) (locs [(N, 1)])).
  { unfold v3, N. cbn [tl ti map dn dis]. replace (n * m * d * vl) with (d * n * m * vl) by ring.
    rewrite (locs_merge (d * n * m) vl 1) by nia. rewrite (locs_merge (d * n) m) by nia.
    replace (1 * vl * m) with (m * vl) by ring. now rewrite Z.mul_1_l. }
  assert (Rows3o : Permutation (locs (to_ (tl v3))) (locs [(N, 1)])).
  { unfold v3, N. cbn [tl to_ map dn dos]. etransitivity; [apply locs_perm, perm_swap|].
    replace (n * m * d * vl) with (m * (d * n) * vl) by ring.
    rewrite (locs_merge (m * (d * n)) vl 1) by nia. rewrite (locs_merge m (d * n)) by nia.
    replace (1 * vl * (d * n)) with (d * n * vl) by ring. now rewrite Z.mul_1_l. }
  assert (RU : forall A, Permutation (locs A) (locs [(N, 1)]) -> Permutation (locs ((d, N) :: A)) U).
  { intros A HA. unfold U. rewrite (locs_merge d N 1) by lia. rewrite Z.mul_1_l. cbn [locs] in *. now apply lplus_perm_r. }
  assert (T1i : Permutation (locs (ti v1)) U) by exact (RU _ Rows1i).
  assert (T1o : Permutation (locs (to_ v1)) U) by exact (RU _ Rows1o).
  assert (T3i : Permutation (locs (ti v3)) U) by exact (RU _ Rows3i).
  assert (T3o : Permutation (locs (to_ v3)) U) by exact (RU _ Rows3o).
  assert (T2i : Permutation (locs (ti v2)) U).
  { unfold v2, U, N. cbn [ti map dn dis]. replace (d * (n * m * d * vl)) with (d * d * (n * m * vl)) by ring.
    rewrite (locs_merge (d * d) (n * m * vl) 1) by nia. rewrite (locs_merge d d) by nia.
    replace (1 * (n * m * vl) * d) with (d * n * m * vl) by ring. now rewrite Z.mul_1_l. }
  assert (T2o : Permutation (locs (to_ v2)) U).
  { unfold v2, U, N. cbn [to_ map dn dos]. etransitivity; [apply locs_perm, perm_swap|]. exact T2i. }
  assert (C1 : Correct nd true xcopy v1 g1).
  { unfold g1. destruct (Z.ltb_spec 1 n) as [Hlt|Hge].
    - apply buf_rows; try lia; auto. unfold v1. repeat constructor; cbn; lia.
    - apply Correct_dim_nop. assert (n = 1) by lia. subst n. unfold v1.
      repeat first [apply Forall_cons | apply Forall_nil]; cbn [dn dis dos]; first [left; reflexivity | right; ring]. }
  assert (C3 : Correct nd true xcopy v3 g3).
  { unfold g3. destruct (Z.ltb_spec 1 m) as [Hlt|Hge].
    - apply buf_rows; try lia; auto. unfold v3. repeat constructor; cbn; nia.
    - apply Correct_dim_nop. assert (m = 1) by lia. subst m. unfold v3.
      repeat first [apply Forall_cons | apply Forall_nil]; cbn [dn dis dos]; first [left; reflexivity | right; ring]. }
  assert (N1 : nnegd v1) by (unfold v1; repeat constructor; cbn; lia).
  assert (N2 : nnegd v2) by (unfold v2; repeat constructor; cbn; lia).
  assert (N3 : nnegd v3) by (unfold v3; repeat constructor; cbn; nia).
  assert (NT : nnegd (Tr (d * n) (d * m) vl)) by (unfold Tr; repeat constructor; cbn; nia).
  (* stages 1 and 2 together move [i1][i2][j1][w] to [j1][i1][i2][w] *)
  set (v12 := [mkdim d (d * n * m * vl) (n * m * vl); mkdim n (d * m * vl) (m * vl); mkdim d (m * vl) (d * n * m * vl); mkdim (m * vl) 1 1]).
  assert (T12i : Permutation (locs (ti v12)) U).
  { unfold v12. cbn [ti map dn dis]. replace (d * n * m * vl) with N by (unfold N; ring). exact T1i. }
  assert (T12o : Permutation (locs (to_ v12)) U).
  { unfold v12, U, N. cbn [to_ map dn dos]. 
    transitivity (locs [(d, d * n * (m * vl)); (d, n * (m * vl)); (n, m * vl); (m * vl, 1)]).
    - apply locs_perm. replace (d * n * m * vl) with (d * n * (m * vl)) by ring. replace (n * m * vl) with (n * (m * vl)) by ring.
      etransitivity; [apply perm_skip, perm_swap|]. apply perm_swap.
    - rewrite locs_rm4 by lia. replace (d * d * n * (m * vl)) with (d * (n * m * d * vl)) by ring. reflexivity. }
  assert (C12 : Correct nd true xcopy v12 (fun nx I O mm => c2 (S nx) O O (g1 nx I O mm))).
  { apply (Correct_after nd true true xcopy v12 xcopy v1 xcopy v2 g1 (fun nx => c2 (S nx))); auto.
    - rewrite !il_xcopy. now rewrite T12i, T1i.
    - rewrite !ol_xcopy. now rewrite T12o, T1o.
    - rewrite ol_xcopy, il_xcopy. now rewrite T12o, T2i.
    - rewrite !ol_xcopy. now rewrite T12o, T2o.
    - intros I O m0 m1 m2 V1 V2. rewrite vals_xcopy in *. intros ks Hk.
      destruct ks as [|i1 [|i2 [|j1 [|w [|]]]]]; cbn in Hk; try tauto.
      specialize (V1 [i1; i2; j1; w]). specialize (V2 [i1; j1; i2 * (m * vl) + w]). cbn in V1, V2 |- *.
      assert (B : 0 <= i2 * (m * vl) + w < n * m * vl).
      { assert (0 <= i2 * (m * vl)) by nia. assert ((i2 + 1) * (m * vl) <= n * (m * vl)) by nia. lia. }
      etransitivity; [etransitivity; [|apply V2; tauto]|etransitivity; [etransitivity; [|apply V1; tauto]|]].
      + f_equal. f_equal. ring.
      + f_equal. f_equal. unfold N. ring.
      + f_equal. f_equal. unfold N. ring.
    - intros nx I O m0 HW. destruct (H2 (S nx) I O m0) as [V F].
      { destruct HW as [W1 W2 W3 W4 W5 W6]. constructor; auto. }
      split; auto. intros l Hl. apply F. lia. }
  pose proof (Correct_after nd nd true xcopy (Tr (d * n) (d * m) vl) xcopy v12 xcopy v3 (fun nx I O mm => c2 (S nx) O O (g1 nx I O mm)) g3) as CA.
  assert (CF : Correct nd true xcopy (Tr (d * n) (d * m) vl) (fun nx I O mm => g3 nx O O (c2 (S nx) O O (g1 nx I O mm)))).
  { apply CA; auto; clear CA.
    - unfold v12. repeat constructor; cbn; lia.
    - rewrite !il_xcopy. now rewrite T12i, T0i.
    - rewrite !ol_xcopy. now rewrite T12o, T0o.
    - rewrite ol_xcopy, il_xcopy. now rewrite T0o, T3i.
    - rewrite !ol_xcopy. now rewrite T0o, T3o.
    - intros I O m0 m1 m2 V1 V2. rewrite vals_xcopy in *. intros ks Hk.
      destruct ks as [|i [|j [|v [|]]]]; cbn in Hk; try tauto.
      pose proof (Z.div_mod i n ltac:(lia)) as Ei. pose proof (Z.mod_pos_bound i n Hn) as Bi.
      pose proof (Z.div_mod j m ltac:(lia)) as Ej. pose proof (Z.mod_pos_bound j m Hm) as Bj.
      assert (Qi : 0 <= i / n < d) by (split; [apply Z.div_pos; lia|apply Z.div_lt_upper_bound; lia]).
      assert (Qj : 0 <= j / m < d) by (split; [apply Z.div_pos; lia|apply Z.div_lt_upper_bound; lia]).
      set (i1 := i / n) in *. set (i2 := i mod n) in *. set (j1 := j / m) in *. set (j2 := j mod m) in *. clearbody i1 i2 j1 j2.
      assert (Bw : 0 <= j2 * vl + v < m * vl) by (pose proof (rm_bound 1 m vl 0 j2 v); lia).
      specialize (V1 [i1; i2; j1; j2 * vl + v]). specialize (V2 [j1; i; j2; v]). cbn in V1, V2 |- *.
      etransitivity; [etransitivity; [|apply V2; tauto]|etransitivity; [etransitivity; [|apply V1; tauto]|]].
      + f_equal. f_equal. subst j. unfold N. ring.
      + f_equal. f_equal. subst i. unfold N. ring.
      + f_equal. f_equal. subst i j. unfold N. ring. }
  intros nx I O mm HW. pose proof (wf_x _ _ _ _ _ _ HW) as [-> _]. exact (CF nx O O mm HW).
Qed.

(** ** Bounds on the cut *)
Lemma gcd_fuel_pos f : forall a b, 0 < a -> 0 < b -> (Z.to_nat b < f)%nat ->
  0 < gcd_fuel f a b /\ gcd_fuel f a b = Z.gcd a b.
Proof.
  induction f as [|f IH]; intros a b Ha Hb Hf; [lia|]. cbn [gcd_fuel].
  pose proof (Z.rem_bound_pos a b ltac:(lia) Hb) as B. rewrite Z.rem_mod_nonneg in * by lia.
  destruct (Z.eqb_spec (a mod b) 0) as [E|E].
  - split; auto. rewrite Z.gcd_comm, <- Z.gcd_mod, E by lia. rewrite Z.gcd_0_l. lia.
  - destruct (IH b (a mod b)) as [P Q]; try lia. split; auto. rewrite Q. rewrite Z.gcd_comm. rewrite Z.gcd_mod by lia. apply Z.gcd_comm.
Qed.
Lemma cgcd_gcd a b : 0 < a -> 0 < b -> cgcd a b = Z.gcd a b.
Proof. intros. unfold cgcd. apply gcd_fuel_pos; lia. Qed.

Definition cut_ok (n m : Z) (st : Z * Z * Z) : Prop := 0 < snd (fst st) <= n /\ 0 < snd st <= m.
Lemma cut_inner_ok n m c : forall ns ms st, ns <= n -> 0 < ms <= m -> cut_ok n m st -> cut_ok n m (cut_inner c ns ms st).
Proof.
  induction c as [|c IH]; intros ns ms [[dc nc] mc] Hn Hm Hs; [exact Hs|]. cbn [cut_inner].
  destruct (Z.ltb_spec 0 ns); [|exact Hs].
  assert (Hs' : cut_ok n m (cgcd ms ns, ns, ms)) by (split; cbn; lia).
  destruct (_ <? _); [destruct (_ =? _); [exact Hs'|apply IH; auto; lia]|apply IH; auto; lia].
Qed.
Lemma cut_outer_ok n m c : 0 < n -> forall ms st, ms <= m -> cut_ok n m st -> cut_ok n m (cut_outer c n ms st).
Proof.
  intros Hn. induction c as [|c IH]; intros ms st Hm Hs; [exact Hs|]. cbn [cut_outer].
  destruct (Z.ltb_spec 0 ms); [|exact Hs].
  assert (Hs' : cut_ok n m (cut_inner 32 n ms st)) by (apply cut_inner_ok; auto; lia).
  destruct (_ =? _); [exact Hs'|apply IH; auto; lia].
Qed.
Lemma choose_cut_ok n m vl nc mc : 0 < n -> 0 < m -> choose_cut n m vl = (nc, mc) -> 0 < nc <= n /\ 0 < mc <= m.
Proof.
  intros Hn Hm. unfold choose_cut. destruct (cut1 n m vl).
  - intros E. injection E as <- <-. lia.
  - pose proof (cut_outer_ok n m 32 Hn m (cgcd m n, n, m) ltac:(lia) ltac:(split; cbn; lia)) as H.
    destruct (cut_outer 32 n m _) as [[dc nc'] mc']. intros E. injection E as <- <-. exact H.
Qed.

Lemma tr_dims_spec vec a b vl vs : tr_dims vec a b vl vs -> dn a <> dn b -> Ntuple_transposable a b vl vs = true -> posd vec ->
  Permutation (offs vec) (offs (Tr (dn a) (dn b) vl)) /\ 0 < dn a /\ 0 < dn b /\ 0 < vl.
Proof.
  intros H Hne HN Hp. unfold Ntuple_transposable in HN.
  apply andb_true_iff in HN as [HN H4]. apply andb_true_iff in HN as [HN H3]. apply andb_true_iff in HN as [H1 H2].
  apply Z.eqb_eq in H1, H2, H3. apply orb_true_iff in H4. destruct H4 as [H4|H4].
  { apply andb_true_iff in H4 as [H4 _]. apply andb_true_iff in H4 as [H4 _]. apply andb_true_iff in H4 as [H4 _]. apply Z.eqb_eq in H4. lia. }
  apply andb_true_iff in H4 as [H4 H5]. apply Z.eqb_eq in H4, H5.
  destruct H as [a b P|a b c P Ec].
  - assert (Q : posd [a; b]) by (eapply posd_perm; eauto). inversion Q as [|? ? Q1 Q2]; subst. inversion Q2; subst.
    split; [|auto with zarith]. rewrite (offs_perm _ _ P). destruct a as [na sa ua], b as [nb sb ub]. cbn [dn dis dos] in *. subst. unfold Tr.
    rewrite <- (offs_1 (mkdim 1 1 1)) by reflexivity. apply offs_perm.
    apply (Permutation_app_comm [mkdim 1 1 1] [mkdim na (nb * 1) 1; mkdim nb 1 (na * 1)]).
  - assert (Q : posd [a; b; c]) by (eapply posd_perm; eauto). inversion Q as [|? ? Q1 Q2]; subst. inversion Q2 as [|? ? Q3 Q4]; subst. inversion Q4; subst.
    split; [|auto with zarith]. rewrite (offs_perm _ _ P). destruct a as [na sa ua], b as [nb sb ub], c as [nc sc uc]. cbn in *. subst. reflexivity.
Qed.
