(** * Proofs about the copy kernels *)
From Coq Require Import Reals ZArith List Lia Bool Permutation.
From Verif Require Import NumTheory Cplx Spec Base PrimesModel PrimesProofs TensorModel Offs TensorProofs XForm XKern CopyModel.
Import ListNotations.
Open Scope Z_scope.

Lemma zfor_ext n b b' m : (forall i m, 0 <= i < n -> b i m = b' i m) -> zfor n b m = zfor n b' m.
Proof.
  intros H. destruct (Z_le_gt_dec n 0) as [Hn|Hn]; [now rewrite !zfor_neg|].
  assert (G : forall k, 0 <= k -> k <= n -> zfor k b m = zfor k b' m).
  { intros k Hk. pattern k. apply natlike_ind; [| |exact Hk]; [reflexivity|].
    intros x Hx IH Hle. unfold Z.succ in *. rewrite !zfor_succ by lia. rewrite IH by lia. apply H. lia. }
  apply G; lia.
Qed.

Lemma mv_correct nd ip k : Correct nd ip xcopy [mkdim k 1 1] (fun _ I O m => mv k I O m).
Proof.
  intros nx I O m [W1 W2 W3 W4 W5 W6]. unfold mv. rewrite ol_xcopy in W5.
  assert (E : map fst (map (fun v => (v, m (sh I v))) (zr k)) = locs (to_ [mkdim k 1 1])).
  { rewrite map_map. cbn [to_ map locs dn dos]. rewrite lplus_0_r. unfold dimlocs. cbn [fst snd].
    apply map_ext. intros; cbn; lia. }
  split.
  - intros a b Hab o F HoF. cbn in HoF. destruct HoF as [HF|[]]. injection HF as <- <-.
    apply in_offs_cons in Hab as (i & q & Hi & Hq & Ep). cbn in Hq. destruct Hq as [<-|[]].
    cbn [dn dis dos fst snd] in *. injection Ep as -> ->. rewrite !Z.mul_1_r, !Z.add_0_r.
    apply stores_in; [rewrite E; exact W5|]. apply in_map_iff. exists i. split; auto. now apply in_zr.
  - intros l Hl Ho _. apply stores_other. rewrite E. now rewrite ol_xcopy in Ho.
Qed.

Lemma same_set_false X vec s u : false = true -> s = u :> Z /\ same_set X vec.
Proof. discriminate. Qed.

(** A loop nest over copies. *)
Lemma Correct_vloop_copy nd n s u vec f : Correct nd false xcopy vec f ->
  Correct nd false xcopy (mkdim n s u :: vec) (vloop n s u f).
Proof. intros H. apply Correct_loop; auto using xcopy_wf. discriminate. Qed.


Lemma mv_loop nd n is os k : Correct nd false xcopy [mkdim n is os; mkdim k 1 1]
  (fun _ I O m => zfor n (fun i => mv k (sh I (i * is)) (sh O (i * os))) m).
Proof. exact (Correct_vloop_copy nd n is os [mkdim k 1 1] _ (mv_correct nd false k)). Qed.

Lemma offs_cons_eq d t t' : offs t = offs t' -> offs (d :: t) = offs (d :: t').
Proof. cbn [offs]. now intros ->. Qed.
Lemma Correct_offs nd ip X vec vec' f : offs vec = offs vec' -> nnegd vec' -> Correct nd ip X vec' f -> Correct nd ip X vec f.
Proof. intros E Hn. apply Correct_sim; [apply xsim_refl|rewrite E; reflexivity|auto]. Qed.

Lemma even_quot n : Z.odd n = false -> n = Z.quot n 2 * 2.
Proof.
  intros H. rewrite <- Z.negb_even in H. apply negb_false_iff in H. apply Z.even_spec in H as (k & ->).
  rewrite Z.mul_comm, Z.quot_mul by lia. reflexivity.
Qed.

Lemma cpy1d_4_correct nd n is os : Correct nd false xcopy [mkdim n is os; mkdim 4 1 1] (fun _ I O m => cpy1d_4 I O n is os m).
Proof. apply mv_loop. Qed.
Lemma cpy1d_2_correct nd n is os : 0 <= n ->
  Correct nd false xcopy [mkdim n is os; mkdim 2 1 1] (fun _ I O m => cpy1d_2 I O n is os m).
Proof.
  intros Hn. unfold cpy1d_2. destruct (Z.odd n || negb (is =? 2) || negb (os =? 2)) eqn:E.
  - apply mv_loop.
  - apply orb_false_iff in E as [E E3]. apply orb_false_iff in E as [E1 E2].
    apply negb_false_iff, Z.eqb_eq in E2, E3. subst. apply even_quot in E1.
    assert (0 <= Z.quot n 2) by (apply Z.quot_pos; lia).
    eapply Correct_offs; [| |apply cpy1d_4_correct].
    + rewrite E1 at 1. rewrite offs_merge by lia. change (2 * 2) with 4. apply offs_cons_eq.
      change 4 with (2 * 2) at 1. change 2 with (1 * 2) at 2 3.
      symmetry. change (mkdim 4 1 1) with (mkdim (2 * 2) 1 1). now rewrite offs_merge by lia.
    + constructor; [exact H|]. constructor; [cbn; lia|constructor].
Qed.
Lemma cpy1d_1_correct nd n is os : 0 <= n ->
  Correct nd false xcopy [mkdim n is os; mkdim 1 1 1] (fun _ I O m => cpy1d_1 I O n is os m).
Proof.
  intros Hn. unfold cpy1d_1. destruct (Z.odd n || negb (is =? 1) || negb (os =? 1)) eqn:E.
  - apply mv_loop.
  - apply orb_false_iff in E as [E E3]. apply orb_false_iff in E as [E1 E2].
    apply negb_false_iff, Z.eqb_eq in E2, E3. subst. apply even_quot in E1.
    assert (0 <= Z.quot n 2) by (apply Z.quot_pos; lia).
    eapply Correct_offs; [| |apply cpy1d_2_correct; exact H].
    + rewrite E1 at 1. rewrite offs_merge by lia. change (1 * 2) with 2. apply offs_cons_eq.
      apply offs_cons_eq. rewrite offs_1; reflexivity.
    + constructor; [exact H|]. constructor; [cbn; lia|constructor].
Qed.

Lemma zfor1_mv nd vl : 0 <= vl -> Correct nd false xcopy [mkdim vl 1 1]
   (fun _ I O m => zfor vl (fun v => mv 1 (sh I v) (sh O v)) m).
Proof.
  intros Hv. eapply Correct_offs with (vec' := [mkdim vl 1 1; mkdim 1 1 1]).
  - apply offs_cons_eq. rewrite offs_1; reflexivity.
  - repeat constructor; cbn; lia.
  - eapply Correct_ext; [|apply (Correct_vloop_copy nd vl 1 1 [mkdim 1 1 1]); apply mv_correct].
    intros nx I O m. unfold vloop. apply zfor_ext. intros v m' _. now rewrite !Z.mul_1_r.
Qed.

Theorem cpy1d_correct nd n is os vl : 0 <= n -> 0 <= vl ->
  Correct nd false xcopy [mkdim n is os; mkdim vl 1 1] (cpy1d n is os vl).
Proof.
  intros Hn Hv. unfold cpy1d. destruct (Z.eqb_spec vl 1) as [->|]; [now apply cpy1d_1_correct|].
  destruct (Z.eqb_spec vl 2) as [->|]; [now apply cpy1d_2_correct|].
  destruct (Z.eqb_spec vl 4) as [->|]; [now apply cpy1d_4_correct|].
  eapply Correct_ext; [|apply Correct_vloop_copy, zfor1_mv; exact Hv].
  intros nx I O m. unfold vloop. apply zfor_ext. intros i m' _. apply zfor_ext. intros v m'' _. now rewrite !sh_sh.
Qed.

Lemma cpy2d_nest nd n0 is0 os0 n1 is1 os1 vl (B : loc -> loc -> mem -> mem) :
  Correct nd false xcopy [mkdim vl 1 1] (fun _ I O m => B I O m) ->
  Correct nd false xcopy [mkdim n1 is1 os1; mkdim n0 is0 os0; mkdim vl 1 1]
    (fun _ I O m => zfor n1 (fun i1 => zfor n0 (fun i0 => B (sh I (i0 * is0 + i1 * is1)) (sh O (i0 * os0 + i1 * os1)))) m).
Proof.
  intros H. eapply Correct_ext; [|apply Correct_vloop_copy, Correct_vloop_copy; exact H].
  intros nx I O m. unfold vloop. apply zfor_ext. intros i m' _. apply zfor_ext. intros v m'' _. rewrite !sh_sh.
  f_equal; f_equal; lia.
Qed.

Theorem cpy2d_correct nd n0 is0 os0 n1 is1 os1 vl : 0 <= vl ->
  Correct nd false xcopy [mkdim n0 is0 os0; mkdim n1 is1 os1; mkdim vl 1 1] (cpy2d n0 is0 os0 n1 is1 os1 vl).
Proof.
  intros Hv. eapply Correct_vperm; [apply perm_swap|]. unfold cpy2d.
  destruct (Z.eqb_spec vl 1) as [->|]; [apply cpy2d_nest, mv_correct|].
  destruct (Z.eqb_spec vl 2) as [->|]; [apply cpy2d_nest, mv_correct|].
  eapply Correct_ext; [|apply cpy2d_nest, zfor1_mv; exact Hv].
  intros nx I O m. cbn beta. apply zfor_ext. intros i m' _. apply zfor_ext. intros v m'' _.
  apply zfor_ext. intros w m3 _. now rewrite !sh_sh.
Qed.
Theorem cpy2d_ci_correct nd n0 is0 os0 n1 is1 os1 vl : 0 <= vl ->
  Correct nd false xcopy [mkdim n0 is0 os0; mkdim n1 is1 os1; mkdim vl 1 1] (cpy2d_ci n0 is0 os0 n1 is1 os1 vl).
Proof.
  intros Hv. unfold cpy2d_ci. destruct (_ <? _); [now apply cpy2d_correct|].
  eapply Correct_vperm; [apply perm_swap|]. now apply cpy2d_correct.
Qed.
Theorem cpy2d_co_correct nd n0 is0 os0 n1 is1 os1 vl : 0 <= vl ->
  Correct nd false xcopy [mkdim n0 is0 os0; mkdim n1 is1 os1; mkdim vl 1 1] (cpy2d_co n0 is0 os0 n1 is1 os1 vl).
Proof.
  intros Hv. unfold cpy2d_co. destruct (_ <? _); [now apply cpy2d_correct|].
  eapply Correct_vperm; [apply perm_swap|]. now apply cpy2d_correct.
Qed.

(** ** Tiling *)
Lemma quot_mid a b : 0 <= a -> a + 2 <= b -> a < Z.quot (b + a) 2 < b.
Proof. intros H1 H2. rewrite Z.quot_div_nonneg by lia. pose proof (Z.div_mod (b + a) 2). pose proof (Z.mod_pos_bound (b + a) 2). lia. Qed.

Section Tile.
  Context (nd : bool) (is0 os0 is1 os1 : Z) (vec : list iodim).
  (** closure: base pointers, then the tile *)
  Context (F : nat -> loc -> loc -> Z -> Z -> Z -> Z -> mem -> mem).
  Definition tdims a b c d := mkdim (b - a) is0 os0 :: mkdim (d - c) is1 os1 :: vec.
  Definition at_base (a c : Z) (G : nat -> loc -> loc -> mem -> mem) : rapply :=
    fun nx I O m => G nx (sh I (- (a * is0 + c * is1))) (sh O (- (a * os0 + c * os1))) m.
  Hypothesis HF : forall a b c d, 0 <= a <= b -> 0 <= c <= d ->
    Correct nd false xcopy (tdims a b c d) (at_base a c (fun nx I O => F nx I O a b c d)).

  Lemma tile2d_fuel_correct ts fuel a b c d : 0 < ts -> 0 <= a <= b -> 0 <= c <= d ->
    (Z.to_nat (b - a + (d - c)) < fuel)%nat ->
    Correct nd false xcopy (tdims a b c d) (at_base a c (fun nx I O => tile2d_fuel fuel a b c d ts (F nx I O))).
  Proof.
    intros Hts. revert a b c d. induction fuel as [|fu IH]; intros a b c d Ha Hc Hf; [lia|].
    cbn [tile2d_fuel].
    destruct ((d - c <=? b - a) && (ts <? b - a)) eqn:E1; [|destruct (ts <? d - c) eqn:E2; [|now apply HF]].
    - apply andb_true_iff in E1 as [_ E1]. apply Z.ltb_lt in E1.
      pose proof (quot_mid a b ltac:(lia) ltac:(lia)) as Hm. set (q := Z.quot (b + a) 2) in *.
      unfold tdims. replace (b - a) with ((q - a) + (b - q)) by ring.
      eapply Correct_ext; [|apply (Correct_seq nd false xcopy (mkdim (d - c) is1 os1 :: vec) (q - a) (b - q) is0 os0)];
        [|apply xcopy_wf|lia|lia|discriminate|apply (IH a q c d); lia|apply (IH q b c d); lia].
      intros nx I O m. unfold seq_at, at_base. rewrite !sh_sh.
      replace ((q - a) * is0 + - (q * is0 + c * is1)) with (- (a * is0 + c * is1)) by ring.
      replace ((q - a) * os0 + - (q * os0 + c * os1)) with (- (a * os0 + c * os1)) by ring. reflexivity.
    - apply Z.ltb_lt in E2.
      pose proof (quot_mid c d ltac:(lia) ltac:(lia)) as Hm. set (q := Z.quot (d + c) 2) in *.
      eapply Correct_vperm; [apply perm_swap|]. replace (d - c) with ((q - c) + (d - q)) by ring.
      eapply Correct_ext; [|apply (Correct_seq nd false xcopy (mkdim (b - a) is0 os0 :: vec) (q - c) (d - q) is1 os1)];
        [|apply xcopy_wf|lia|lia|discriminate| |].
      2:{ eapply Correct_vperm; [apply perm_swap|]. apply (IH a b c q); lia. }
      2:{ eapply Correct_vperm; [apply perm_swap|]. apply (IH a b q d); lia. }
      intros nx I O m. unfold seq_at, at_base. rewrite !sh_sh.
      replace ((q - c) * is1 + - (a * is0 + q * is1)) with (- (a * is0 + c * is1)) by ring.
      replace ((q - c) * os1 + - (a * os0 + q * os1)) with (- (a * os0 + c * os1)) by ring. reflexivity.
  Qed.

  Lemma tile2d_correct ts n0 n1 : 0 < ts -> 0 <= n0 -> 0 <= n1 ->
    Correct nd false xcopy (mkdim n0 is0 os0 :: mkdim n1 is1 os1 :: vec) (fun nx I O => tile2d 0 n0 0 n1 ts (F nx I O)).
  Proof.
    intros Ht H0 H1. replace n0 with (n0 - 0) at 1 by ring. replace n1 with (n1 - 0) at 1 by ring.
    eapply Correct_ext; [|apply (tile2d_fuel_correct ts (S (Z.to_nat (n0 - 0 + (n1 - 0)))) 0 n0 0 n1); lia].
    intros nx I O m. unfold at_base, tile2d. rewrite !Z.mul_0_l. cbn [Z.add Z.opp]. now rewrite !sh_0.
  Qed.
End Tile.

(** ** A buffered stage: I -> fresh block -> O *)
Lemma vals_xcopy vec I O m m' : vals xcopy vec I O m m' <->
  (forall ks, in_box vec ks -> m' (sh O (ooff vec ks)) = m (sh I (ioff vec ks))).
Proof.
  split.
  - intros H ks Hk. pose proof (H (ioff vec ks) (ooff vec ks) (in_offs_box _ _ Hk) 0 (fun x => x 0) (or_introl eq_refl)) as E.
    cbn beta in E. now rewrite !Z.add_0_r in E.
  - intros H a b Hab o F [E|[]]. injection E as <- <-. apply in_offs in Hab as (ks & Hk & E). injection E as -> ->.
    rewrite !Z.add_0_r. now apply H.
Qed.

Lemma Correct_buf2 nd ip X vec X1 v1 X2 v2 f1 f2 (B : nat -> loc) :
  (forall nx, fst (B nx) = nx) -> nnegd v1 -> nnegd v2 ->
  Permutation (il X vec) (il X1 v1) -> Permutation (ol X vec) (ol X2 v2) -> 
  NoDup (ol X1 v1) -> Permutation (ol X1 v1) (il X2 v2) ->
  (forall nx I O m m1 m2, vals X1 v1 I (B nx) m m1 -> vals X2 v2 (B nx) O m1 m2 -> vals X vec I O m m2) ->
  Correct (nd && negb ip) false X1 v1 f1 -> Correct false false X2 v2 f2 ->
  Correct nd ip X vec (fun nx I O m => f2 (S nx) (B nx) O (f1 (S nx) I (B nx) m)).
Proof.
  intros HB N1 N2 Pi Po ND P12 HV C1 C2 nx I O m HW.
  assert (HWI := wf_bi _ _ _ _ _ _ HW). assert (HWO := wf_bo _ _ _ _ _ _ HW).
  assert (W1 : Wf (S nx) false I (B nx) X1 v1).
  { constructor; auto; try (rewrite HB; lia); try lia.
    - eapply Permutation_NoDup; [exact Pi|apply HW].
    - intros l Hl Hl'. apply (InP_blk nx) in Hl; [|exact HWI]. destruct Hl' as (o & _ & ->).
      rewrite sh_blk, HB in Hl. lia. }
  assert (W2 : Wf (S nx) false (B nx) O X2 v2).
  { constructor; auto; try (rewrite HB; lia); try lia.
    - eapply Permutation_NoDup; [exact P12|exact ND].
    - eapply Permutation_NoDup; [exact Po|apply HW].
    - intros l Hl Hl'. apply (InP_blk nx) in Hl'; [|exact HWO]. destruct Hl as (o & _ & ->).
      rewrite sh_blk, HB in Hl'. lia. }
  destruct (C1 (S nx) I (B nx) m W1) as [V1 F1]. set (m1 := f1 (S nx) I (B nx) m) in *.
  destruct (C2 (S nx) (B nx) O m1 W2) as [V2 F2]. set (m2 := f2 (S nx) (B nx) O m1) in *.
  split; [now apply (HV nx I O m m1 m2)|].
  intros l Hl Ho Hi. transitivity (m1 l).
  - apply F2; [lia| |].
    + intros C. apply Ho. eapply InP_perm; [symmetry; exact Po|exact C].
    + right. intros (o & _ & ->). rewrite sh_blk, HB in Hl. lia.
  - apply F1; [lia| |].
    + intros (o & _ & ->). rewrite sh_blk, HB in Hl. lia.
    + destruct ip.
      * right. intros C. apply Ho. pose proof (wf_x _ _ _ _ _ _ HW) as (-> & E).
        eapply InP_incl; [|eapply InP_perm; [symmetry; exact Pi|exact C]]. intros o. apply E.
      * destruct Hi as [->|Hi]; [now left|]. right. intros C. apply Hi. eapply InP_perm; [symmetry; exact Pi|exact C].
Qed.

Lemma NoDup_locs_unit n s : s <> 0 -> NoDup (locs [(n, s)]).
Proof.
  intros Hs. cbn [locs]. rewrite lplus_0_r. unfold dimlocs. cbn [fst snd].
  apply FinFun.Injective_map_NoDup; [|apply NoDup_zr]. intros a b E. nia.
Qed.
Lemma NoDup_rowmajor3 a b c : 0 <= a -> 0 <= b -> 0 <= c -> NoDup (locs [(a, c); (b, c * a); (c, 1)]).
Proof.
  intros Ha Hb Hc.
  assert (P : Permutation (locs [(a, c); (b, c * a); (c, 1)]) (locs [(b * a * c, 1)])).
  { rewrite (locs_merge (b * a) c 1 []) by nia. rewrite Z.mul_1_l. rewrite (locs_merge b a c) by nia.
    apply locs_perm. rewrite perm_swap. reflexivity. }
  eapply Permutation_NoDup; [symmetry; exact P|]. apply NoDup_locs_unit. lia.
Qed.

Lemma tile_shift I a is0 c is1 : sh (sh I (- (a * is0 + c * is1))) (a * is0 + c * is1) = I.
Proof. rewrite sh_sh. replace (- (a * is0 + c * is1) + (a * is0 + c * is1)) with 0 by ring. apply sh_0. Qed.

Lemma cpy_dotile_correct nd is0 os0 is1 os1 vl : 0 <= vl ->
  forall a b c d, 0 <= a <= b -> 0 <= c <= d ->
  Correct nd false xcopy (tdims is0 os0 is1 os1 [mkdim vl 1 1] a b c d)
    (at_base is0 os0 is1 os1 a c (fun nx I O => cpy_dotile I O is0 os0 is1 os1 vl a b c d)).
Proof.
  intros Hv a b c d Ha Hc. unfold tdims, at_base, cpy_dotile.
  eapply Correct_ext; [|apply (cpy2d_correct nd (b - a) is0 os0 (d - c) is1 os1 vl Hv)].
  intros nx I O m. cbn beta. now rewrite !tile_shift.
Qed.

(** the buffer used by a tile holds [vl*(b-a)*(d-c)] consecutive elements *)
Lemma copy_via_buf nd ip n0 is0 os0 n1 is1 os1 vl : 0 <= n0 -> 0 <= n1 -> 0 <= vl ->
  Correct nd ip xcopy [mkdim n0 is0 os0; mkdim n1 is1 os1; mkdim vl 1 1]
    (fun nx I O m => cpy2d_co n0 vl os0 n1 (vl * n0) os1 vl 0%nat (nx, 0) O
                       (cpy2d_ci n0 is0 vl n1 is1 (vl * n0) vl 0%nat I (nx, 0) m)).
Proof.
  intros H0 H1 Hv.
  eapply Correct_ext; [|apply (Correct_buf2 nd ip xcopy _ xcopy [mkdim n0 is0 vl; mkdim n1 is1 (vl * n0); mkdim vl 1 1]
     xcopy [mkdim n0 vl os0; mkdim n1 (vl * n0) os1; mkdim vl 1 1]
     (cpy2d_ci n0 is0 vl n1 is1 (vl * n0) vl) (cpy2d_co n0 vl os0 n1 (vl * n0) os1 vl) (fun nx => (nx, 0)))].
  - intros nx I O m. cbn beta. unfold cpy2d_co, cpy2d_ci, cpy2d. repeat (destruct (_ <? _)); reflexivity.
  - reflexivity.
  - repeat constructor; cbn; auto.
  - repeat constructor; cbn; auto.
  - rewrite !il_xcopy. reflexivity.
  - rewrite !ol_xcopy. reflexivity.
  - rewrite ol_xcopy. apply NoDup_rowmajor3; auto.
  - rewrite ol_xcopy, il_xcopy. reflexivity.
  - intros nx I O m m1 m2 V1 V2. rewrite vals_xcopy in *. intros ks Hk.
    specialize (V1 ks). specialize (V2 ks). destruct ks as [|k0 [|k1 [|kv [|]]]]; cbn in Hk; try tauto.
    cbn [in_box ioff ooff dn dis dos] in *. rewrite V2 by tauto. now apply V1.
  - apply Correct_nd. now apply cpy2d_ci_correct.
  - now apply cpy2d_co_correct.
Qed.

Lemma cpy_dotile_buf_correct nd is0 os0 is1 os1 vl : 0 <= vl ->
  forall a b c d, 0 <= a <= b -> 0 <= c <= d ->
  Correct nd false xcopy (tdims is0 os0 is1 os1 [mkdim vl 1 1] a b c d)
    (at_base is0 os0 is1 os1 a c (fun nx I O => cpy_dotile_buf (nx, 0) I O is0 os0 is1 os1 vl a b c d)).
Proof.
  intros Hv a b c d Ha Hc. unfold tdims, at_base, cpy_dotile_buf.
  eapply Correct_ext; [|apply (copy_via_buf nd false (b - a) is0 os0 (d - c) is1 os1 vl); lia].
  intros nx I O m. cbn beta. now rewrite !tile_shift.
Qed.

(** ** Tile sizes *)
Lemma compute_tilesz_spec vl k : 1 <= vl -> 1 <= k ->
  0 <= compute_tilesz vl k /\ compute_tilesz vl k * compute_tilesz vl k * vl * sizeof_R * k <= CACHESIZE /\ (8 * vl * k <= 8192 -> 0 < compute_tilesz vl k).
Proof.
  intros Hv Hk. unfold compute_tilesz, CACHESIZE, sizeof_R.
  assert (Hp : 0 < 8 * vl * k) by nia.
  rewrite Z.quot_div_nonneg by lia. set (q := 8192 / (8 * vl * k)).
  assert (Hq : 0 <= q) by (apply Z.div_pos; lia).
  assert (Hq2 : 8 * vl * k * q <= 8192) by (apply Z.mul_div_le; lia).
  assert (q <= 8192) by nia.
  destruct (isqrt_spec INTMAX q ltac:(unfold INTMAX; lia)) as (g & -> & Hg & Hb).
  split; [exact Hg|]. split; [nia|]. intros Hle.
  assert (1 <= q) by (apply Z.div_le_lower_bound; lia). nia.
Qed.

Theorem cpy2d_tiled_correct nd n0 is0 os0 n1 is1 os1 vl : 0 <= n0 -> 0 <= n1 -> 1 <= vl <= 512 ->
  Correct nd false xcopy [mkdim n0 is0 os0; mkdim n1 is1 os1; mkdim vl 1 1] (cpy2d_tiled n0 is0 os0 n1 is1 os1 vl).
Proof.
  intros H0 H1 Hv. unfold cpy2d_tiled.
  apply (tile2d_correct nd is0 os0 is1 os1 [mkdim vl 1 1] (fun nx I O => cpy_dotile I O is0 os0 is1 os1 vl)); auto.
  - apply cpy_dotile_correct. lia.
  - apply compute_tilesz_spec; lia.
Qed.
Theorem cpy2d_tiledbuf_correct nd n0 is0 os0 n1 is1 os1 vl : 0 <= n0 -> 0 <= n1 -> 1 <= vl <= 512 ->
  Correct nd false xcopy [mkdim n0 is0 os0; mkdim n1 is1 os1; mkdim vl 1 1] (cpy2d_tiledbuf n0 is0 os0 n1 is1 os1 vl).
Proof.
  intros H0 H1 Hv. unfold cpy2d_tiledbuf.
  apply (tile2d_correct nd is0 os0 is1 os1 [mkdim vl 1 1] (fun nx I O => cpy_dotile_buf (nx, 0) I O is0 os0 is1 os1 vl)); auto.
  - apply cpy_dotile_buf_correct. lia.
  - apply compute_tilesz_spec; lia.
Qed.

(** ** Pairs (split complex data): a rank-0 complex transform *)
Lemma cpy_pair1 nd ip di do_ : Correct nd ip (cx di do_ []) []
  (fun _ I O m => let x0 := m (sh I 0) in let x1 := m (sh (sh I di) 0) in upd (upd m (sh O 0) x0) (sh (sh O do_) 0) x1).
Proof.
  intros nx I O m [W1 W2 W3 W4 W5 W6]. cbn zeta. rewrite !sh_sh, !Z.add_0_r, !sh_0.
  assert (Hne : sh O do_ <> O).
  { intros E. rewrite <- (sh_0 O) in E at 2. apply sh_inj in E. rewrite ol_cx in W5. cbn in W5. rewrite E in W5.
    cbn in W5. inversion W5 as [|x l Hn _ E1]; subst. apply Hn. now left. }
  split.
  - apply vals_cx. intros a b Hab ks Hk. destruct Hab as [E|[]]. injection E as <- <-.
    destruct ks; [|easy]. cbn [ooff mdft]. unfold rdc. cbn [fst snd]. rewrite !sh_sh, !Z.add_0_r, !sh_0.
    f_equal; [|apply upd_same]. rewrite upd_other by exact Hne. apply upd_same.
  - intros l Hl Ho _. rewrite ol_cx in Ho. rewrite !upd_other; auto.
    + intros <-. apply Ho. exists 0. rewrite sh_0. split; auto. apply in_locs_cons. exists 0, 0. cbn. split; [lia|]. auto.
    + intros <-. apply Ho. exists do_. split; auto. apply in_locs_cons. exists 1, 0. cbn [In locs to_ map app]. split; [lia|]. split; [auto|ring].
Qed.
Theorem cpy2d_pair_correct nd di do_ n0 is0 os0 n1 is1 os1 :
  Correct nd false (cx di do_ []) [mkdim n0 is0 os0; mkdim n1 is1 os1]
    (fun _ I O m => cpy2d_pair n0 is0 os0 n1 is1 os1 I (sh I di) O (sh O do_) m).
Proof.
  eapply Correct_vperm; [apply perm_swap|]. unfold cpy2d_pair.
  eapply Correct_ext; [|apply Correct_loop; [apply cx_wf|discriminate|apply Correct_loop; [apply cx_wf|discriminate|apply cpy_pair1]]].
  intros nx I O m. unfold vloop. apply zfor_ext. intros i m' _. apply zfor_ext. intros v m'' _.
  cbn zeta. rewrite !sh_sh, !Z.add_0_r.
  replace (di + (v * is0 + i * is1)) with (i * is1 + (v * is0 + di)) by ring.
  replace (do_ + (v * os0 + i * os1)) with (i * os1 + (v * os0 + do_)) by ring.
  replace (v * is0 + i * is1) with (i * is1 + v * is0) by ring.
  replace (v * os0 + i * os1) with (i * os1 + v * os0) by ring. reflexivity.
Qed.
Theorem cpy2d_pair_ci_correct nd di do_ n0 is0 os0 n1 is1 os1 :
  Correct nd false (cx di do_ []) [mkdim n0 is0 os0; mkdim n1 is1 os1]
    (fun _ I O m => cpy2d_pair_ci n0 is0 os0 n1 is1 os1 I (sh I di) O (sh O do_) m).
Proof.
  unfold cpy2d_pair_ci. destruct (_ <? _); [apply cpy2d_pair_correct|].
  eapply Correct_vperm; [apply perm_swap|]. apply cpy2d_pair_correct.
Qed.
Theorem cpy2d_pair_co_correct nd di do_ n0 is0 os0 n1 is1 os1 :
  Correct nd false (cx di do_ []) [mkdim n0 is0 os0; mkdim n1 is1 os1]
    (fun _ I O m => cpy2d_pair_co n0 is0 os0 n1 is1 os1 I (sh I di) O (sh O do_) m).
Proof.
  unfold cpy2d_pair_co. destruct (_ <? _); [apply cpy2d_pair_correct|].
  eapply Correct_vperm; [apply perm_swap|]. apply cpy2d_pair_correct.
Qed.

(** A complex copy is a real copy with one more dimension. *)
Lemma cx_nil_xcopy nd ip di do_ vec f :
  Correct nd ip (cx di do_ []) vec f <-> Correct nd ip xcopy (mkdim 2 di do_ :: vec) f.
Proof.
  assert (Pi : il xcopy (mkdim 2 di do_ :: vec) = il (cx di do_ []) vec) by (now rewrite il_xcopy, il_cx).
  assert (Po : ol xcopy (mkdim 2 di do_ :: vec) = ol (cx di do_ []) vec) by (now rewrite ol_xcopy, ol_cx).
  split; intros HC nx I O m HW.
  - destruct (HC nx I O m) as [V F].
    { eapply Wf_perm; [| | |exact HW]; [now rewrite Pi|now rewrite Po|]. destruct HW as [_ _ W _ _ _]. now inversion W. }
    split; [|eapply frame_perm; [| |exact F]; [now rewrite Pi|now rewrite Po]].
    apply vals_xcopy. intros ks Hk. destruct ks as [|k ks]; [easy|]. destruct Hk as [Hk Hks]. cbn [dn dis dos ioff ooff] in *.
    rewrite vals_cx in V. pose proof (V (ioff vec ks) (ooff vec ks) (in_offs_box _ _ Hks) [] Logic.I) as E.
    cbn [mdft ooff] in E. unfold rdc in E. cbn [fst snd] in E. rewrite !sh_sh, !Z.add_0_r in E. injection E as E1 E2.
    assert (k = 0 \/ k = 1) as [->| ->] by lia; [rewrite !Z.mul_0_l, !Z.add_0_l|rewrite !Z.mul_1_l]; auto.
  - destruct (HC nx I O m) as [V F].
    { eapply Wf_perm; [| | |exact HW]; [now rewrite Pi|now rewrite Po|]. constructor; [cbn; lia|]. apply HW. }
    split; [|eapply frame_perm; [| |exact F]; [now rewrite Pi|now rewrite Po]].
    rewrite vals_xcopy in V. apply vals_cx. intros a b Hab ks Hk. destruct ks; [|easy]. cbn [mdft ooff].
    apply in_offs in Hab as (ks & Hks & E). injection E as -> ->.
    unfold rdc. cbn [fst snd]. rewrite !sh_sh, !Z.add_0_r. f_equal.
    + specialize (V (0 :: ks)). cbn [in_box ioff ooff dn dis dos] in V. rewrite !Z.mul_0_l, !Z.add_0_l in V. apply V. split; [lia|auto].
    + specialize (V (1 :: ks)). cbn [in_box ioff ooff dn dis dos] in V. rewrite !Z.mul_1_l in V. apply V. split; [lia|auto].
Qed.
