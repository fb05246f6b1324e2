(** * C31: the incremental hash is MD5 *)
From Coq Require Import ZArith List Lia Bool.
From Verif Require Import Base SpecMd5 Md5Model.
Import ListNotations.
Open Scope Z_scope.

(** ** words *)
Lemma lor_disjoint a b k : 0 <= k -> 0 <= a < 2 ^ k -> Z.lor a (b * 2 ^ k) = a + b * 2 ^ k.
Proof.
  intros Hk Ha. rewrite <- Z.lxor_lor, <- Z.add_nocarry_lxor; auto.
  all: apply Z.bits_inj'; intros n Hn; rewrite Z.land_spec, Z.bits_0; destruct (Z.lt_ge_cases n k);
    [rewrite Z.mul_pow2_bits_low, andb_false_r by lia; reflexivity|].
  all: rewrite <- (Z.mod_small a (2 ^ k)) by lia; rewrite Z.mod_pow2_bits_high by lia; reflexivity.
Qed.
Definition isw (x : Z) : Prop := 0 <= x < W.
Lemma isw_mod x : isw (x mod W).
Proof. apply Z.mod_pos_bound. reflexivity. Qed.
Lemma cnot_eq x : isw x -> cnot x = not32 x.
Proof.
  intros H. unfold cnot, not32, M32, W, isw, W in *. unfold Z.lnot.
  replace (Z.pred (- x)) with (2 ^ 32 - 1 - x + (-1) * 2 ^ 32) by lia. rewrite Z.mod_add by lia. apply Z.mod_small. lia.
Qed.
Lemma land_mask x : isw x -> Z.land x 0xffffffff = x.
Proof. intros H. change 0xffffffff with (Z.ones 32). rewrite Z.land_ones by lia. apply Z.mod_small. exact H. Qed.
Lemma rol_eq x s : isw x -> 0 < s < 32 -> rol x s = rotl x s.
Proof.
  intros H Hs. unfold rol, rotl, M32, W, isw, W in *. rewrite Z.shiftl_mul_pow2, Z.shiftr_div_pow2 by lia.
  assert (E : 2 ^ 32 = 2 ^ (32 - s) * 2 ^ s) by (rewrite <- Z.pow_add_r by lia; f_equal; lia).
  assert (P1 : 0 < 2 ^ s) by (apply Z.pow_pos_nonneg; lia). assert (P2 : 0 < 2 ^ (32 - s)) by (apply Z.pow_pos_nonneg; lia).
  assert (Q : x * 2 ^ s mod 2 ^ 32 = x mod 2 ^ (32 - s) * 2 ^ s) by (rewrite E; apply Z.mul_mod_distr_r; lia).
  rewrite Q. rewrite Z.lor_comm, lor_disjoint; try lia.
  split; [apply Z.div_pos; lia|]. apply Z.div_lt_upper_bound; lia.
Qed.
Definition byte (z : Z) : Prop := 0 <= z < 256.
Lemma x_of_eq data i : (forall k, 0 <= k < 4 -> byte (data (4 * i + k))) ->
  x_of data i = data (4 * i + 0) + 2 ^ 8 * data (4 * i + 1) + 2 ^ 16 * data (4 * i + 2) + 2 ^ 24 * data (4 * i + 3).
Proof.
  intros H. unfold x_of, byte in *. pose proof (H 0 ltac:(lia)). pose proof (H 1 ltac:(lia)). pose proof (H 2 ltac:(lia)). pose proof (H 3 ltac:(lia)).
  unfold M32. rewrite !Z.shiftl_mul_pow2 by lia. rewrite !(Z.mod_small _ (2 ^ 32)) by lia.
  rewrite (lor_disjoint (data (4 * i + 0)) _ 8) by lia. rewrite (lor_disjoint _ _ 16) by lia. rewrite (lor_disjoint _ _ 24) by lia. ring.
Qed.

(** ** one block *)
Definition st_of (r : regs) (i : Z) : state4 := (r ((- i) mod 4), r ((1 - i) mod 4), r ((2 - i) mod 4), r ((3 - i) mod 4)).
Definition rw (r : regs) : Prop := forall j, 0 <= j < 4 -> isw (r j).
Lemma tabs : forall i, In i ops64 ->
  nth (Z.to_nat i) roundtab (0, 0) = (kidx i, sidx i) /\ nth (Z.to_nat i) sintab 0 = nth (Z.to_nat i) Ttab 0 /\ 0 < sidx i < 32 /\ 0 <= kidx i < 16 /\
  Z.shiftr i 4 = (if i <? 16 then 0 else if i <? 32 then 1 else if i <? 48 then 2 else 3).
Proof.
  intros i H. assert (E : In i (map Z.of_nat (seq 0 64))) by exact H. cbn [map seq] in E.
  repeat (destruct E as [<-|E]; [repeat split; first [reflexivity | vm_compute; discriminate]|]). destruct E.
Qed.
Lemma bits_rng x : isw x -> forall i, 32 <= i -> Z.testbit x i = false.
Proof. intros H i Hi. rewrite <- (Z.mod_small x (2 ^ 32)) by exact H. apply Z.mod_pow2_bits_high. lia. Qed.
Lemma isw_bits x : 0 <= x -> (forall i, 32 <= i -> Z.testbit x i = false) -> isw x.
Proof.
  intros H0 H. split; auto. destruct (Z.eq_dec x 0) as [->|N]; [reflexivity|].
  apply Z.log2_lt_pow2; [lia|]. destruct (Z.lt_ge_cases (Z.log2 x) 32) as [|L]; auto.
  specialize (H _ L). rewrite Z.bit_log2 in H by lia. discriminate.
Qed.
Lemma isw_not x : isw x -> isw (not32 x).
Proof. unfold isw, not32, W. lia. Qed.
Lemma isw_lor x y : isw x -> isw y -> isw (Z.lor x y).
Proof.
  intros Hx Hy. apply isw_bits; [apply Z.lor_nonneg; split; [apply Hx|apply Hy]|].
  intros i Hi. rewrite Z.lor_spec, (bits_rng x Hx), (bits_rng y Hy); auto.
Qed.
Lemma fn_eq i b c d : isw b -> isw c -> isw d ->
  (if (if i <? 16 then 0 else if i <? 32 then 1 else if i <? 48 then 2 else 3) =? 0 then Z.lor (Z.land b c) (Z.land (cnot b) d)
   else if (if i <? 16 then 0 else if i <? 32 then 1 else if i <? 48 then 2 else 3) =? 1 then Z.lor (Z.land b d) (Z.land c (cnot d))
   else if (if i <? 16 then 0 else if i <? 32 then 1 else if i <? 48 then 2 else 3) =? 2 then Z.lxor (Z.lxor b c) d
   else Z.lxor c (Z.lor b (cnot d))) = rnd i b c d.
Proof.
  intros Hb Hc Hd. rewrite !cnot_eq by auto. unfold rnd.
  destruct (i <? 16); [reflexivity|]. destruct (i <? 32); [reflexivity|]. destruct (i <? 48); [|reflexivity].
  cbn [Z.eqb]. unfold fH. now rewrite Z.lxor_assoc.
Qed.
Lemma M32_W x : M32 x = x mod W.
Proof. reflexivity. Qed.
Lemma mod4 a b : a mod 4 = b mod 4 -> forall r : regs, r (a mod 4) = r (b mod 4).
Proof. now intros ->. Qed.
Lemma round_op X X' r i : In i ops64 -> rw r -> (forall k, 0 <= k < 16 -> X' k = X k) ->
  round X' (st_of r i) i = st_of (op X r i) (i + 1) /\ rw (op X r i).
Proof.
  intros Hi Hr HX. destruct (tabs i Hi) as (T1 & T2 & T3 & T4 & T5).
  assert (R : forall k, isw (r (k mod 4))) by (intros k; apply Hr, Z.mod_pos_bound; lia).
  set (v := (r ((1 - i) mod 4) + rotl ((r ((- i) mod 4) + rnd i (r ((1 - i) mod 4)) (r ((2 - i) mod 4)) (r ((3 - i) mod 4)) + X (kidx i)
     + nth (Z.to_nat i) Ttab 0) mod W) (sidx i)) mod W).
  assert (O : forall j, op X r i j = if j =? (- i) mod 4 then v else r j) by reflexivity.
  assert (NE : forall k, 1 <= k <= 3 -> ((k - i) mod 4 =? (- i) mod 4) = false).
  { intros k Hk. apply Z.eqb_neq. intros E. assert ((k - i - (- i)) mod 4 = 0).
    { rewrite Zminus_mod, E, Z.sub_diag. reflexivity. }
    replace (k - i - - i) with k in H by lia. rewrite Z.mod_small in H; lia. }
  split.
  - unfold round, st_of. rewrite T1. rewrite T5. rewrite fn_eq by apply R.
    rewrite !O.
    replace (- (i + 1)) with (3 - i + (-1) * 4) by lia. rewrite Z.mod_add by lia.
    replace (1 - (i + 1)) with (- i) by lia. replace (2 - (i + 1)) with (1 - i) by lia. replace (3 - (i + 1)) with (2 - i) by lia.
    rewrite !NE by lia. rewrite Z.eqb_refl.
    set (a := r ((- i) mod 4)) in *. set (b := r ((1 - i) mod 4)) in *. set (c := r ((2 - i) mod 4)) in *. set (d := r ((3 - i) mod 4)) in *.
    assert (Ev : v = M32 (b + rol (Z.land (M32 (M32 (M32 (a + rnd i b c d) + nth (Z.to_nat i) sintab 0) + X' (kidx i))) 0xffffffff) (sidx i))).
    { unfold v. rewrite !M32_W. rewrite land_mask by apply isw_mod. rewrite rol_eq by (auto using isw_mod).
      f_equal. f_equal. f_equal. rewrite HX by auto. rewrite T2.
      set (F := rnd i b c d). set (T := nth (Z.to_nat i) Ttab 0). rewrite Z.add_mod_idemp_l by discriminate.
      replace ((a + F) mod W + T + X (kidx i)) with ((a + F) mod W + (T + X (kidx i))) by ring.
      rewrite Z.add_mod_idemp_l by discriminate. f_equal. ring. }
    rewrite <- Ev. reflexivity.
  - intros j Hj. rewrite O. destruct (j =? (- i) mod 4); [apply isw_mod|now apply Hr].
Qed.
Lemma rounds_ops X X' : (forall k, 0 <= k < 16 -> X' k = X k) -> forall cnt i r, (i + cnt = 64)%nat -> rw r ->
  rounds cnt X' (st_of r (Z.of_nat i)) (Z.of_nat i) = st_of (fold_left (op X) (map Z.of_nat (seq i cnt)) r) (Z.of_nat (i + cnt)) /\
  rw (fold_left (op X) (map Z.of_nat (seq i cnt)) r).
Proof.
  intros HX. induction cnt as [|cnt IH]; intros i r Hi Hr; cbn [rounds seq map fold_left].
  - rewrite Nat.add_0_r. auto.
  - destruct (round_op X X' r (Z.of_nat i)) as [E R]; auto.
    { apply in_map, in_seq. lia. }
    rewrite E. replace (Z.of_nat i + 1) with (Z.of_nat (S i)) by lia.
    replace (i + S cnt)%nat with (S i + cnt)%nat by lia. apply IH; auto. lia.
Qed.
Definition s4 (r : regs) : state4 := (r 0, r 1, r 2, r 3).
Lemma doblock_spec r blk data : rw r -> length blk = 64%nat -> Forall byte blk -> (forall j, 0 <= j < 64 -> data j = nth (Z.to_nat j) blk 0) ->
  doblock (s4 r) data = s4 (compress r blk) /\ rw (compress r blk).
Proof.
  intros Hr Hl Hb Hd. assert (HX : forall k, 0 <= k < 16 -> x_of data k = word blk k).
  { intros k Hk. rewrite x_of_eq.
    - unfold word. rewrite !Hd by lia. reflexivity.
    - intros j Hj. rewrite Hd by lia. rewrite Forall_forall in Hb. apply Hb, nth_In. lia. }
  destruct (rounds_ops (word blk) (x_of data) HX 64 0 r eq_refl Hr) as [E R].
  fold ops64 in E, R. change (st_of r (Z.of_nat 0)) with (s4 r) in E. change (Z.of_nat 0) with 0 in E.
  change (Z.of_nat (0 + 64)) with 64 in E.
  unfold doblock, s4 at 1. fold (s4 r). rewrite E. unfold st_of. change ((- 64) mod 4) with 0. change ((1 - 64) mod 4) with 1.
  change ((2 - 64) mod 4) with 2. change ((3 - 64) mod 4) with 3. rewrite !M32_W. rewrite !land_mask by apply isw_mod.
  split; [reflexivity|]. intros j Hj. apply isw_mod.
Qed.

(** ** streaming *)
(** the state after a list of bytes *)
Definition md5_of (m : list Z) (p : md5) : Prop :=
  let n := (length m / 64)%nat in
  m_l p = Z.of_nat (length m) /\ m_s p = s4 (blocks n m init) /\ rw (blocks n m init) /\
  forall j, 0 <= j < Z.of_nat (length m) - 64 * Z.of_nat n -> m_c p j = nth (Z.to_nat (64 * Z.of_nat n + j)) m 0.
Lemma blocks_snoc : forall n m r x, (64 * n <= length m)%nat -> blocks n (m ++ x) r = blocks n m r.
Proof.
  induction n as [|n IH]; intros m r x Hl; cbn [blocks]; [reflexivity|].
  rewrite firstn_app, skipn_app. replace (64 - length m)%nat with 0%nat by lia. rewrite firstn_O, app_nil_r. change (skipn 0 x) with x.
  apply IH. rewrite skipn_length. lia.
Qed.
Lemma skipn_skipn' {A} : forall a b (l : list A), skipn a (skipn b l) = skipn (b + a) l.
Proof. intros a b. induction b as [|b IH]; intros [|x l]; cbn [skipn Nat.add]; auto. destruct a; reflexivity. Qed.
Lemma blocks_S : forall n m r, (64 * S n <= length m)%nat -> blocks (S n) m r = compress (blocks n m r) (firstn 64 (skipn (64 * n) m)).
Proof.
  induction n as [|n IH]; intros m r Hl.
  - reflexivity.
  - change (blocks (S (S n)) m r) with (blocks (S n) (skipn 64 m) (compress r (firstn 64 m))). rewrite IH by (rewrite skipn_length; lia).
    change (blocks (S n) m r) with (blocks n (skipn 64 m) (compress r (firstn 64 m))). do 2 f_equal.
    rewrite skipn_skipn'. f_equal. lia.
Qed.
Lemma putc_ok m p c : md5_of m p -> Forall byte m -> byte c -> Z.of_nat (length m) + 1 < 2 ^ 32 -> md5_of (m ++ [c]) (md5putc p c).
Proof.
  intros (Hl & Hs & Hr & Hc) Hm Hb Hlen. unfold md5_of. set (n := (length m / 64)%nat) in *.
  set (q := (length m mod 64)%nat). assert (Em : (length m = 64 * n + q)%nat) by apply Nat.div_mod_eq.
  assert (Hq : (q < 64)%nat) by (apply Nat.mod_upper_bound; lia).
  assert (Eq : m_l p mod 64 = Z.of_nat q).
  { rewrite Hl, Em, Nat2Z.inj_add, Nat2Z.inj_mul. rewrite Z.add_comm, Z.mul_comm, Z.mod_add by lia. apply Z.mod_small. lia. }
  rewrite app_length. cbn [length]. unfold md5putc. cbv zeta. rewrite Eq.
  assert (El : M32 (m_l p + 1) = Z.of_nat (length m + 1)) by (unfold M32; rewrite Hl, Z.mod_small; lia). rewrite El.
  set (buf := fun j => if j =? Z.of_nat q then c else m_c p j).
  assert (HB : forall j, 0 <= j <= Z.of_nat q -> buf j = nth (Z.to_nat (64 * Z.of_nat n + j)) (m ++ [c]) 0).
  { intros j Hj. unfold buf. destruct (Z.eqb_spec j (Z.of_nat q)) as [->|N].
    - rewrite app_nth2 by lia. replace (Z.to_nat (64 * Z.of_nat n + Z.of_nat q) - length m)%nat with 0%nat by lia. reflexivity.
    - rewrite app_nth1 by lia. apply Hc. lia. }
  cbn [m_l m_s m_c].
  destruct (Nat.eq_dec q 63) as [E63|N63].
  - assert (EN : ((length m + 1) / 64 = S n)%nat) by (replace (length m + 1)%nat with ((S n) * 64)%nat by lia; apply Nat.div_mul; lia).
    rewrite EN. replace (Z.of_nat (length m + 1) mod 64 =? 0) with true.
    2:{ symmetry. apply Z.eqb_eq. replace (Z.of_nat (length m + 1)) with (Z.of_nat (S n) * 64) by lia. apply Z.mod_mul. lia. }
    assert (L : (64 * S n <= length (m ++ [c]))%nat) by (rewrite app_length; cbn [length]; lia).
    destruct (doblock_spec (blocks n m init) (firstn 64 (skipn (64 * n) (m ++ [c]))) buf) as [D1 D2]; auto.
    + rewrite firstn_length, skipn_length, app_length. cbn [length]. lia.
    + apply Forall_forall. intros x Hx. assert (In x (m ++ [c])) as Hx'.
      { rewrite <- (firstn_skipn (64 * n) (m ++ [c])). apply in_or_app. right. rewrite <- (firstn_skipn 64 (skipn (64 * n) (m ++ [c]))). apply in_or_app. now left. }
      apply in_app_or in Hx' as [Hx'|[<-|[]]]; auto. rewrite Forall_forall in Hm. auto.
    + intros j Hj. rewrite HB by lia.
      set (ss := skipn (64 * n) (m ++ [c])).
      assert (N1 : forall (l : list Z) k i, (i < k)%nat -> nth i (firstn k l) 0 = nth i l 0).
      { induction l as [|x l IH]; intros [|k] [|i] H; cbn; auto; try lia. apply IH. lia. }
      rewrite N1 by lia. unfold ss.
      assert (N2 : forall (l : list Z) k i, nth i (skipn k l) 0 = nth (k + i) l 0).
      { induction l as [|x l IH]; intros [|k] i; cbn; auto. now destruct i. }
      rewrite N2. f_equal. lia.
    + rewrite blocks_S by auto. rewrite (blocks_snoc n m init [c]) by lia. rewrite Hs, D1. split; auto. split; auto. split; auto. intros j Hj. lia.
  - assert (EN : ((length m + 1) / 64 = n)%nat).
    { replace (length m + 1)%nat with ((q + 1) + n * 64)%nat by lia. rewrite Nat.div_add by lia. rewrite Nat.div_small by lia. reflexivity. }
    rewrite EN. replace (Z.of_nat (length m + 1) mod 64 =? 0) with false.
    2:{ symmetry. apply Z.eqb_neq. replace (Z.of_nat (length m + 1)) with (Z.of_nat (q + 1) + Z.of_nat n * 64) by lia. rewrite Z.mod_add, Z.mod_small by lia. lia. }
    rewrite (blocks_snoc n m init [c]) by lia. split; auto. split; auto. split; auto. intros j Hj. apply HB. lia.
Qed.
Lemma begin_ok junk : md5_of [] (md5begin junk).
Proof.
  unfold md5_of. cbn [length Nat.div blocks]. split; [reflexivity|]. split; [reflexivity|]. split; [|intros; cbn in *; lia].
  intros j Hj. assert (j = 0 \/ j = 1 \/ j = 2 \/ j = 3) as [->|[->|[->| ->]]] by lia; split; vm_compute; first [discriminate | reflexivity].
Qed.
Lemma putb_ok d : forall m p, md5_of m p -> Forall byte m -> Forall byte d -> Z.of_nat (length m + length d) < 2 ^ 32 -> md5_of (m ++ d) (md5putb p d).
Proof.
  induction d as [|c d IH]; intros m p H Hm Hd Hl; cbn [md5putb fold_left].
  - now rewrite app_nil_r.
  - replace (m ++ c :: d) with ((m ++ [c]) ++ d) by now rewrite <- app_assoc. cbn [length] in Hl. inversion Hd; subst.
    apply IH; auto.
    + apply putc_ok; auto. lia.
    + apply Forall_app. auto.
    + rewrite app_length. cbn [length]. lia.
Qed.
Lemma pad_loop_ok : forall k fuel m p, md5_of m p -> Forall byte m -> Z.of_nat (length m + k) < 2 ^ 32 - 1 -> (k < fuel)%nat ->
  Z.of_nat (length m + k) mod 64 = 56 -> (forall k', (k' < k)%nat -> Z.of_nat (length m + k') mod 64 <> 56) ->
  exists p', pad_loop fuel p = Ret p' /\ md5_of (m ++ repeat 0 k) p'.
Proof.
  induction k as [|k IH]; intros fuel m p H Hm Hl Hf H56 Hn; (destruct fuel as [|fuel]; [lia|]); cbn [pad_loop repeat]; destruct H as (Ep & H).
  - rewrite Ep, Nat.add_0_r in *. rewrite H56, Z.eqb_refl. exists p. split; auto. rewrite app_nil_r. split; auto.
  - rewrite Ep. pose proof (Hn 0%nat ltac:(lia)) as N0. rewrite Nat.add_0_r in N0. destruct (Z.eqb_spec (Z.of_nat (length m) mod 64) 56); [contradiction|].
    destruct (IH fuel (m ++ [0]) (md5putc p 0)) as (p' & E & Q).
    + apply putc_ok; [split; auto|auto|unfold byte; lia|lia].
    + apply Forall_app. split; auto. constructor; auto. unfold byte. lia.
    + rewrite app_length. cbn [length]. lia.
    + lia.
    + rewrite app_length. cbn [length]. replace (length m + 1 + k)%nat with (length m + S k)%nat by lia. exact H56.
    + intros k' Hk'. rewrite app_length. cbn [length]. replace (length m + 1 + k')%nat with (length m + S k')%nat by lia. apply Hn. lia.
    + exists p'. split; auto. rewrite <- app_assoc in Q. exact Q.
Qed.
Lemma len_loop_ok : forall cnt m p l, md5_of m p -> Forall byte m -> 0 <= l -> Z.of_nat (length m + cnt) < 2 ^ 32 ->
  md5_of (m ++ map (fun k => l / 2 ^ (8 * Z.of_nat k) mod 256) (seq 0 cnt)) (len_loop cnt p l).
Proof.
  induction cnt as [|cnt IH]; intros m p l H Hm Hl Hlen; cbn [len_loop].
  - cbn [seq map]. now rewrite app_nil_r.
  - assert (B : Z.land l 0xFF = l mod 256) by (change 0xFF with (Z.ones 8); rewrite Z.land_ones by lia; reflexivity).
    assert (byte (l mod 256)) by (apply Z.mod_pos_bound; lia).
    assert (E : map (fun k => l / 2 ^ (8 * Z.of_nat k) mod 256) (seq 0 (S cnt)) =
      (l mod 256) :: map (fun k => Z.shiftr l 8 / 2 ^ (8 * Z.of_nat k) mod 256) (seq 0 cnt)).
    { cbn [seq map]. f_equal. - change (8 * Z.of_nat 0) with 0. rewrite Z.pow_0_r, Z.div_1_r. reflexivity.
      - rewrite <- seq_shift, map_map. apply map_ext. intros k. rewrite Z.shiftr_div_pow2 by lia. rewrite Z.div_div by (try apply Z.pow_pos_nonneg; lia).
        f_equal. f_equal. rewrite <- Z.pow_add_r by lia. f_equal. lia. }
    rewrite E, B. replace (m ++ l mod 256 :: map (fun k => Z.shiftr l 8 / 2 ^ (8 * Z.of_nat k) mod 256) (seq 0 cnt))
      with ((m ++ [l mod 256]) ++ map (fun k => Z.shiftr l 8 / 2 ^ (8 * Z.of_nat k) mod 256) (seq 0 cnt)) by now rewrite <- app_assoc.
    apply IH.
    + apply putc_ok; auto. lia.
    + apply Forall_app. auto.
    + apply Z.shiftr_nonneg. lia.
    + rewrite app_length. cbn [length]. lia.
Qed.
Lemma end_ok m p : md5_of m p -> Forall byte m -> Z.of_nat (length m) < 2 ^ 29 ->
  exists p', md5end p = Ret p' /\ m_s p' = s4 (MD5 m).
Proof.
  intros H Hm Hl. unfold md5end. cbv zeta. assert (El : m_l p = Z.of_nat (length m)) by apply H.
  set (k := Z.to_nat ((55 - Z.of_nat (length m)) mod 64)).
  assert (Hk : (k < 64)%nat) by (pose proof (Z.mod_pos_bound (55 - Z.of_nat (length m)) 64 ltac:(lia)); lia).
  assert (E56 : Z.of_nat (length m + 1 + k) mod 64 = 56).
  { unfold k. rewrite !Nat2Z.inj_add, Z2Nat.id by (apply Z.mod_pos_bound; lia). rewrite Z.add_mod_idemp_r by lia.
    replace (Z.of_nat (length m) + Z.of_nat 1 + (55 - Z.of_nat (length m))) with 56 by lia. reflexivity. }
  destruct (pad_loop_ok k 65 (m ++ [128]) (md5putc p 0x80)) as (p1 & E1 & H1).
  - apply putc_ok; auto; [unfold byte; lia|lia].
  - apply Forall_app. split; auto. constructor; auto. unfold byte. lia.
  - rewrite app_length. cbn [length]. lia.
  - lia.
  - rewrite app_length. cbn [length]. exact E56.
  - intros k' Hk'. rewrite app_length. cbn [length]. intros E.
    assert ((Z.of_nat (length m + 1 + k) - Z.of_nat (length m + 1 + k')) mod 64 = 0) by (rewrite Zminus_mod, E, E56; reflexivity).
    replace (Z.of_nat (length m + 1 + k) - Z.of_nat (length m + 1 + k')) with (Z.of_nat (k - k')) in H0 by lia. rewrite Z.mod_small in H0; lia.
  - rewrite E1. cbn [bind]. eexists. split; [reflexivity|].
    assert (Fz : forall k, Forall byte (repeat 0 k)) by (induction k0; cbn; constructor; auto; unfold byte; lia).
    pose proof (len_loop_ok 8 _ p1 (M32 (8 * m_l p)) H1) as H2.
    assert (EP : ((m ++ [128]) ++ repeat 0 k) ++ map (fun k0 => M32 (8 * m_l p) / 2 ^ (8 * Z.of_nat k0) mod 256) (seq 0 8) = pad m).
    { unfold pad, le64. cbv zeta. rewrite El. unfold M32. rewrite (Z.mod_small _ (2 ^ 32)), (Z.mod_small _ (2 ^ 64)) by lia. fold k. rewrite <- !app_assoc. reflexivity. }
    rewrite EP in H2. destruct H2 as (_ & S2 & _).
    + repeat (apply Forall_app; split; auto). constructor; auto. unfold byte. lia.
    + unfold M32. apply Z.mod_pos_bound. lia.
    + rewrite !app_length, repeat_length. cbn [length]. lia.
    + exact S2.
Qed.

(** C31: begin, any sequence of bytes, end yields MD5 of the bytes *)
Definition run (junk : Z -> Z) (m : list Z) : out md5 := md5end (md5putb (md5begin junk) m).
Theorem C31_md5 : forall junk m, Forall byte m -> Z.of_nat (length m) < 2 ^ 29 ->
  exists p, run junk m = Ret p /\ m_s p = (MD5 m 0, MD5 m 1, MD5 m 2, MD5 m 3).
Proof.
  intros junk m Hm Hl. unfold run. apply end_ok; auto. apply (putb_ok m [] (md5begin junk)); auto.
  - apply begin_ok.
  - cbn [length]. lia.
Qed.
(** ... however the bytes are fed: byte strings, C strings (with their
    terminating zero), ints, INTs and unsigneds in any order *)
Inductive feed := FB (d : list Z) | FS (s : list Z) | Fint (i : Z) | FINT (i : Z) | Fu (i : Z).
Definition fed (f : feed) : list Z :=
  match f with
  | FB d => d
  | FS s => map (fun c => c mod 256) s ++ [0]
  | Fint i | Fu i => map (fun k => i / 2 ^ (8 * Z.of_nat k) mod 256) (seq 0 4)
  | FINT i => map (fun k => i / 2 ^ (8 * Z.of_nat k) mod 256) (seq 0 8)
  end.
Definition do_feed (p : md5) (f : feed) : md5 :=
  match f with FB d => md5putb p d | FS s => md5puts p s | Fint i => md5int p i | FINT i => md5INT p i | Fu i => md5unsigned p i end.
Lemma le_bytes_eq n i : le_bytes n i = map (fun k => i / 2 ^ (8 * Z.of_nat k) mod 256) (seq 0 n).
Proof. apply map_ext. intros k. rewrite Z.shiftr_div_pow2 by lia. reflexivity. Qed.
Lemma do_feed_eq p f : do_feed p f = md5putb p (fed f).
Proof.
  destruct f; cbn [do_feed fed]; unfold md5puts, md5int, md5INT, md5unsigned; rewrite ?le_bytes_eq; try reflexivity.
  rewrite map_app. cbn [map]. f_equal. f_equal. apply map_ext. intros c. change 0xFF with (Z.ones 8). now rewrite Z.land_ones by lia.
Qed.
Theorem C31_any_feeding : forall junk fs, (forall d, In (FB d) fs -> Forall byte d) ->
  Z.of_nat (length (concat (map fed fs))) < 2 ^ 29 ->
  exists p, md5end (fold_left do_feed fs (md5begin junk)) = Ret p /\
    let m := concat (map fed fs) in m_s p = (MD5 m 0, MD5 m 1, MD5 m 2, MD5 m 3).
Proof.
  intros junk fs Hb Hl. assert (E : forall p, fold_left do_feed fs p = md5putb p (concat (map fed fs))).
  { clear. induction fs as [|f fs IH]; intros p; cbn [fold_left map concat]; [reflexivity|]. rewrite IH, do_feed_eq. unfold md5putb. now rewrite fold_left_app. }
  rewrite E. apply C31_md5; auto. clear E Hl. induction fs as [|f fs IH]; cbn [map concat]; [constructor|]. apply Forall_app. split.
  - assert (M : forall n i, Forall byte (map (fun k => i / 2 ^ (8 * Z.of_nat k) mod 256) (seq 0 n))).
    { intros n i. apply Forall_map, Forall_forall. intros k _. apply Z.mod_pos_bound. lia. }
    destruct f; cbn [fed]; auto; try apply M.
    + apply Hb. now left.
    + apply Forall_app. split; [|constructor; auto; unfold byte; lia]. apply Forall_map, Forall_forall. intros c _. apply Z.mod_pos_bound. lia.
  - apply IH. intros d Hd. apply Hb. now right.
Qed.
(** non-vacuity, and agreement with the RFC's test vector for "abc" by way of
    the model itself *)
Example C31_case : (p <- run (fun _ => 77) [97; 98; 99];; Ret (m_s p)) = Ret (0x98500190, 0xb04fd23c, 0x7d3f96d6, 0x727fe128).
Proof. vm_compute. reflexivity. Qed.

Print Assumptions C31_md5.
Print Assumptions C31_any_feeding.
