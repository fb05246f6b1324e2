(** * Prime sizes of the complex DFT (proofs): generic, Rader, Bluestein *)
From Coq Require Import Reals ZArith Znumtheory List Lia Lra Bool Permutation FunctionalExtensionality.
From Verif Require Import NumTheory Cplx Spec Base PrimesModel PrimesProofs TensorModel Offs TensorProofs XForm XKern XSeq
  CopyModel CopyProofs CopyBounds TransProofs Rank0Model Rank0Proofs Rank0Plans DftModel DftTw DftTw2 DftComp DftMath.
Import ListNotations.
Open Scope Z_scope.

(** ** Partial correctness of kernel/primes.c: what a returned value means *)
Lemma loop_partial {S R} (body : S -> stepres S R) (I : S -> Prop) (Q : R -> Prop) k : 
  (forall s, I s -> match body s with Cont s' => I s' | Done r => Q r end) ->
  forall s, I s -> match loop k body s with Cont s' => I s' | Done r => Q r end.
Proof.
  intros H. induction k as [|k IH]; intros s Hs; cbn [loop]; [now apply H|].
  pose proof (IH s Hs) as H1. destruct (loop k body s); auto. now apply IH.
Qed.
Lemma oloop_partial {S A} (body : S -> stepres S (out A)) (I : S -> Prop) (Q : A -> Prop) k s a : 
  (forall s, I s -> match body s with Cont s' => I s' | Done r => forall a, r = Ret a -> Q a end) ->
  I s -> oloop k body s = Ret a -> Q a.
Proof.
  intros H Hs E. pose proof (loop_partial body I (fun r => forall a, r = Ret a -> Q a) k H s Hs) as P.
  unfold oloop in E. destruct (loop k body s); [discriminate|]. now apply P.
Qed.
Lemma first_divisor_partial M n d : first_divisor M n = Ret d -> 1 < n -> prime d /\ (d | n).
Proof.
  unfold first_divisor. intros E Hn. replace (n <=? 1) with false in E by lia.
  destruct (Z.rem n 2 =? 0) eqn:E2.
  - injection E as <-. split; [apply prime_2|]. apply divide_rem; auto. lia.
  - apply divide_rem_false in E2; [|lia].
    revert E. apply (oloop_partial (fd_body M n) (fun i => 3 <= i /\ Z.odd i = true /\ forall q, prime q -> q < i -> ~ (q | n))
      (fun d => prime d /\ (d | n))).
    + intros i (Hi & Ho & Hq). unfold fd_body. destruct (ck M (i * i)) as [ii| |] eqn:Eck; cbn [obind]; try (intros; discriminate).
      apply ck_inv in Eck as [-> _]. destruct (i * i <=? n) eqn:Eii.
      * destruct (Z.rem n i =? 0) eqn:Ei.
        -- intros a E. injection E as <-. apply divide_rem in Ei; [|lia]. split; auto. eapply least_divisor_prime; eauto. lia.
        -- apply divide_rem_false in Ei; [|lia]. destruct (ck M (i + 2)) as [i2| |] eqn:E3; cbn [obind]; try (intros; discriminate).
           apply ck_inv in E3 as [-> _]. split; [lia|]. split; [rewrite Z.odd_add, Ho; reflexivity|]. now apply no_prime_step.
      * intros a E. injection E as <-. apply Z.leb_gt in Eii. split; [|apply Z.divide_refl]. eapply (no_small_divisor_prime i); eauto; lia.
    + split; [lia|]. split; auto. intros q Hq Hl. pose proof (prime_ge_2 _ Hq). assert (q = 2) by lia. now subst.
Qed.
Lemma is_prime_partial M n : is_prime M n = Ret true -> prime n.
Proof.
  unfold is_prime. destruct (n >? 1) eqn:E; [|discriminate]. rewrite Z.gtb_ltb in E. apply Z.ltb_lt in E.
  destruct (first_divisor M n) as [d| |] eqn:Ed; cbn; try discriminate. intros H. injection H as H. apply Z.eqb_eq in H. subst d.
  now apply first_divisor_partial in Ed.
Qed.
Lemma choose_radix_partial M r n d : choose_radix M r n = Ret d -> 1 < d -> 1 < n -> (d | n).
Proof.
  unfold choose_radix, divides. intros E Hd Hn. destruct (r >? 0) eqn:Er.
  - destruct (Z.rem n r =? 0) eqn:E1; injection E as <-; [|lia]. apply divide_rem; auto. rewrite Z.gtb_ltb in Er. lia.
  - rewrite Z.gtb_ltb in Er. destruct (r =? 0) eqn:E0.
    + apply first_divisor_partial in E; tauto.
    + destruct (ck M (0 - r)) as [r'| |] eqn:Ec; cbn [bind] in E; try discriminate. apply ck_inv in Ec as [-> _].
      destruct ((n >? 0 - r) && (Z.rem n (0 - r) =? 0)) eqn:E1; [|injection E as <-; lia].
      apply andb_true_iff in E1 as [E1 E2]. apply Z.eqb_neq in E0. apply Z.ltb_ge in Er. apply divide_rem in E2; [|lia].
      unfold isqrt_maybe in E. destruct (isqrt M (Z.quot n (0 - r))) as [g| |]; cbn [bind] in E; try discriminate.
      destruct (ck M (g * g)) as [gg| |] eqn:Eg; cbn [bind] in E; try discriminate. apply ck_inv in Eg as [-> _].
      destruct (g * g =? Z.quot n (0 - r)) eqn:E3; injection E as <-; [|lia]. apply Z.eqb_eq in E3.
      destruct E2 as [q E2]. rewrite E2, Z.quot_mul in E3 by lia. rewrite E2, <- E3. exists (g * (0 - r)). ring.
Qed.
Lemma choose_transform_size_partial k s nb : choose_transform_size k s = Ret nb -> s <= nb.
Proof.
  unfold choose_transform_size. apply (oloop_partial _ (fun x => s <= x) (fun x => s <= x)); [|lia].
  intros x Hx. destruct (factors_into_small_primes x) as [[|]| |]; cbn [obind]; try (intros; discriminate); [|lia].
  intros a E. now injection E as <-.
Qed.

(** ** Loops that write distinct locations *)
Lemma zfor_writes n K body (A : Z -> Z -> loc) v m0 : 
  (forall i m, 0 <= i < n -> (forall l, (forall j c, 0 <= j < i -> 0 <= c < K -> l <> A j c) -> m l = m0 l) ->
     body i m = zfor K (fun c m => upd m (A i c) (v i c)) m) ->
  (forall i c j d, 0 <= i < n -> 0 <= c < K -> 0 <= j < n -> 0 <= d < K -> A i c = A j d -> i = j /\ c = d) ->
  (forall i c, 0 <= i < n -> 0 <= c < K -> zfor n body m0 (A i c) = v i c) /\
  (forall l, (forall j c, 0 <= j < n -> 0 <= c < K -> l <> A j c) -> zfor n body m0 l = m0 l).
Proof.
  intros Hb Hinj.
  assert (ZK : forall i m K', 0 <= i < n -> 0 <= K' <= K ->
     (forall c, 0 <= c < K' -> zfor K' (fun c m => upd m (A i c) (v i c)) m (A i c) = v i c) /\
     (forall l, (forall c, 0 <= c < K' -> l <> A i c) -> zfor K' (fun c m => upd m (A i c) (v i c)) m l = m l)).
  { intros i m K' Hi. pattern K'. revert K'.
    assert (G : forall K', 0 <= K' -> K' <= K -> (forall c, 0 <= c < K' -> zfor K' (fun c m => upd m (A i c) (v i c)) m (A i c) = v i c) /\
     (forall l, (forall c, 0 <= c < K' -> l <> A i c) -> zfor K' (fun c m => upd m (A i c) (v i c)) m l = m l)).
    { intros K' HK'. pattern K'. apply natlike_ind; auto; clear K' HK'.
      - intros _. split; [lia|]. intros. now rewrite zfor_0.
      - intros k Hk IH Hk2. unfold Z.succ in *. destruct (IH ltac:(lia)) as [IH1 IH2]. split.
        + intros c Hc. rewrite zfor_succ by auto. destruct (Z.eq_dec c k) as [->|Hck].
          * apply upd_same.
          * rewrite upd_other; [apply IH1; lia|]. intros E. apply Hinj in E; lia.
        + intros l Hl. rewrite zfor_succ by auto. rewrite upd_other; [apply IH2|]; [intros; apply Hl; lia|]. intros E. apply (Hl k); auto. lia. }
    intros K' [H1 H2]. now apply G. }
  assert (K < 0 \/ 0 <= K) as [HK|HK] by lia.
  { split; [lia|]. intros l _. 
    assert (forall n', 0 <= n' -> n' <= n -> zfor n' body m0 = m0).
    { intros n' Hn'. pattern n'. apply natlike_ind; auto. intros x Hx IH Hle. unfold Z.succ in *. rewrite zfor_succ by auto. rewrite IH by lia.
      rewrite Hb; [apply zfor_neg; lia|lia|auto]. }
    assert (n <= 0 \/ 0 <= n) as [Hn|Hn] by lia; [now rewrite zfor_neg|]. rewrite H; auto. lia. }
  assert (G : forall n', 0 <= n' -> n' <= n -> 
    (forall i c, 0 <= i < n' -> 0 <= c < K -> zfor n' body m0 (A i c) = v i c) /\
    (forall l, (forall j c, 0 <= j < n' -> 0 <= c < K -> l <> A j c) -> zfor n' body m0 l = m0 l)).
  { intros n' Hn'. pattern n'. apply natlike_ind; auto; clear n' Hn'.
    - intros _. split; [lia|]. intros. now rewrite zfor_0.
    - intros k Hk IH Hk2. unfold Z.succ in *. destruct (IH ltac:(lia)) as [IH1 IH2]. rewrite zfor_succ by auto.
      rewrite (Hb k) by (auto; lia). destruct (ZK k (zfor k body m0) K ltac:(lia) ltac:(lia)) as [Z1 Z2]. split.
      + intros i c Hi Hc. destruct (Z.eq_dec i k) as [->|Hik].
        * now apply Z1.
        * rewrite Z2; [apply IH1; lia|]. intros d Hd E. apply Hinj in E; lia.
      + intros l Hl. rewrite Z2 by (intros; apply Hl; lia). apply IH2. intros; apply Hl; lia. }
  assert (n <= 0 \/ 0 <= n) as [Hn|Hn] by lia; [|apply G; lia].
  split; [lia|]. intros. now rewrite zfor_neg.
Qed.
(** loops with an extra state component that evolves on its own *)
Lemma zforS_0 {A} (b : Z -> A -> A) s : zforS 0 b s = s. Proof. reflexivity. Qed.
Lemma zforS_succ {A} n (b : Z -> A -> A) s : 0 <= n -> zforS (n + 1) b s = b n (zforS n b s).
Proof.
  intros H. unfold zforS. replace (Z.to_nat (n + 1)) with (S (Z.to_nat n)) by lia. cbn [nforS]. now rewrite Z2Nat.id.
Qed.
Lemma zforS_neg {A} n (b : Z -> A -> A) s : n <= 0 -> zforS n b s = s.
Proof. intros H. unfold zforS. now replace (Z.to_nat n) with 0%nat by lia. Qed.
Lemma zforS_pair {A} n (body : Z -> mem * A -> mem * A) (g : Z -> A) b m0 : 0 <= n ->
  (forall k m, 0 <= k < n -> body k (m, g k) = (b k m, g (k + 1))) ->
  zforS n body (m0, g 0) = (zfor n b m0, g n).
Proof.
  intros Hn. pattern n. apply natlike_ind; auto; clear n Hn.
  intros n Hn IH H. unfold Z.succ in *. rewrite zforS_succ, zfor_succ by auto. rewrite IH by (intros; apply H; lia). apply H. lia.
Qed.

(** ** One-dimensional transforms in memory *)
Definition ad (P : loc) (d s k c : Z) : loc := sh P (c * d + k * s).
Lemma ad_0 P d s k : sh P (k * s) = ad P d s k 0. Proof. unfold ad. f_equal; ring. Qed.
Lemma ad_1 P d s k : sh (sh P d) (k * s) = ad P d s k 1. Proof. unfold ad. rewrite sh_sh. f_equal; ring. Qed.
Definition rc (m : mem) (P : loc) (d s k : Z) : C := (m (ad P d s k 0), m (ad P d s k 1)).
Lemma rc_rdc m P d s k : rdc m (P, sh P d) (k * s) = rc m P d s k.
Proof. unfold rdc, rc. cbn [fst snd]. now rewrite (ad_0 P d), ad_1. Qed.

Definition inj2 (d n s : Z) : Prop := forall c i c' j, 0 <= c < 2 -> 0 <= i < n -> 0 <= c' < 2 -> 0 <= j < n ->
  c * d + i * s = c' * d + j * s -> c = c' /\ i = j.
Lemma inj2_NoDup d n s : NoDup (locs [(2, d); (n, s)]) <-> inj2 d n s.
Proof.
  split.
  - intros H c i c' j Hc Hi Hc' Hj E.
    destruct (locs_inj_cons 2 d [(n, s)] c c' (i * s) (j * s) H Hc Hc') as [-> E2]; auto.
    + apply in_locs_cons. exists i, 0. split; [auto|]. split; [now left|ring].
    + apply in_locs_cons. exists j, 0. split; [auto|]. split; [now left|ring].
    + split; auto. assert (HN : NoDup (locs [(n, s)])) by (eapply NoDup_locs_tl; [|exact H]; lia).
      destruct (locs_inj_cons n s [] i j 0 0 HN Hi Hj) as [-> _]; auto; try (now left). lia.
  - intros H. apply (inj_NoDup_i [mkdim 2 d d; mkdim n s s]). intros [|c [|i [|? ?]]] [|c' [|j [|? ?]]] B1 B2 E; cbn in B1, B2; try easy; try tauto.
    cbn [ioff dis] in E. destruct (H c i c' j) as [-> ->]; try tauto. lia.
Qed.
Lemma il_1d di do_ n is os : il (cx di do_ [mkdim n is os]) [] = locs [(2, di); (n, is)].
Proof. now rewrite il_cx. Qed.
Lemma ol_1d di do_ n is os : ol (cx di do_ [mkdim n is os]) [] = locs [(2, do_); (n, os)].
Proof. now rewrite ol_cx. Qed.
Lemma InP_1d P d n s l : InP P (locs [(2, d); (n, s)]) l <-> exists k c, 0 <= k < n /\ 0 <= c < 2 /\ l = ad P d s k c.
Proof.
  split.
  - intros (o & H & ->). apply in_locs_cons in H as (c & y & Hc & Hy & ->). apply in_locs_cons in Hy as (k & z & Hk & Hz & ->).
    destruct Hz as [<-|[]]. exists k, c. split; auto. split; auto. unfold ad. f_equal; ring.
  - intros (k & c & Hk & Hc & ->). exists (c * d + k * s). split; auto. apply in_locs_cons. exists c, (k * s). split; auto. split; auto.
    apply in_locs_cons. exists k, 0. split; auto. split; [now left|ring].
Qed.
(** running a one-dimensional child *)
Lemma run_1d nd ip di do_ n is os f nx I O m : Correct nd ip (cx di do_ [mkdim n is os]) [mkdim 1 0 0] f ->
  (fst I < nx)%nat -> (fst O < nx)%nat -> inj2 di n is -> inj2 do_ n os ->
  (if ip then I = O /\ di = do_ /\ is = os else fst I <> fst O) ->
  (forall k, 0 <= k < n -> rc (f nx I O m) O do_ os k = Csum n (fun j => rc m I di is j * W n (j * k)%Z)%C) /\
  (forall l, (fst l < nx)%nat -> (forall k c, 0 <= k < n -> 0 <= c < 2 -> l <> ad O do_ os k c) -> 
     (forall k c, 0 <= k < n -> 0 <= c < 2 -> l <> ad I di is k c) -> f nx I O m l = m l).
Proof.
  intros C HI HO NI NO HX.
  assert (C' : Correct nd ip (cx di do_ [mkdim n is os]) [] f).
  { eapply Correct_sim; [apply xsim_refl| | |exact C].
    - rewrite (offs_1 (mkdim 1 0 0)); reflexivity.
    - intros _. repeat constructor. cbn. lia. }
  assert (HW : Wf nx ip I O (cx di do_ [mkdim n is os]) []).
  { constructor; auto.
    - constructor.
    - rewrite il_1d. now apply inj2_NoDup.
    - rewrite ol_1d. now apply inj2_NoDup.
    - destruct ip.
      + destruct HX as (-> & -> & ->). split; auto. intros o. now rewrite il_1d, ol_1d.
      + intros l (o & _ & ->) (o' & _ & E). apply HX. apply (f_equal fst) in E. exact E. }
  destruct (C' nx I O m HW) as [V F]. split.
  - intros k Hk. rewrite vals_cx1 in V. specialize (V 0 0 (or_introl eq_refl) k Hk). rewrite Z.add_0_l, rc_rdc in V. rewrite V.
    apply Csum_ext. intros j Hj. now rewrite Z.add_0_l, rc_rdc.
  - intros l Hl Ho Hi. apply F; auto.
    + rewrite ol_1d, InP_1d. intros (k & c & Hk & Hc & E). eapply Ho; eauto.
    + right. rewrite il_1d, InP_1d. intros (k & c & Hk & Hc & E). eapply Hi; eauto.
Qed.
(** proving a one-dimensional solver *)
Lemma prove_1d nd ip di do_ n is os f :
  (forall nx I O m, (fst I < nx)%nat -> (fst O < nx)%nat -> inj2 di n is -> inj2 do_ n os ->
    (forall k, 0 <= k < n -> rc (f nx I O m) O do_ os k = Csum n (fun j => rc m I di is j * W n (j * k)%Z)%C) /\
    (forall l, (fst l < nx)%nat -> (forall k c, 0 <= k < n -> 0 <= c < 2 -> l <> ad O do_ os k c) -> f nx I O m l = m l)) ->
  Correct nd ip (cx di do_ [mkdim n is os]) [] f.
Proof.
  intros H nx I O m [W1 W2 W3 W4 W5 W6]. rewrite il_1d in *. rewrite ol_1d in *. apply inj2_NoDup in W4, W5.
  destruct (H nx I O m W1 W2 W4 W5) as [V F]. split.
  - rewrite vals_cx1. intros a b Hab k Hk. destruct Hab as [E|[]]. injection E as <- <-. rewrite Z.add_0_l, rc_rdc, V by auto.
    apply Csum_ext. intros j Hj. now rewrite Z.add_0_l, rc_rdc.
  - intros l Hl Ho _. apply F; auto. intros k c Hk Hc ->. apply Ho. rewrite ol_1d, InP_1d. eauto.
Qed.
Lemma ad_inj P d s n i c j c' : inj2 d n s -> 0 <= i < n -> 0 <= c < 2 -> 0 <= j < n -> 0 <= c' < 2 -> ad P d s i c = ad P d s j c' -> i = j /\ c = c'.
Proof. intros H Hi Hc Hj Hc' E. unfold ad in E. apply sh_inj in E. destruct (H c i c' j) as [-> ->]; auto. Qed.
Lemma ad_blk P d s k c Q e t j c' : fst P <> fst Q -> ad P d s k c <> ad Q e t j c'.
Proof. intros H E. apply (f_equal fst) in E. now apply H. Qed.

Lemma zforS_inv {A} (P : Z -> A -> Prop) n body s : 0 <= n -> P 0 s ->
  (forall k s, 0 <= k < n -> P k s -> P (k + 1) (body k s)) -> P n (zforS n body s).
Proof.
  intros Hn H0. pattern n. apply natlike_ind; auto; clear n Hn.
  intros n Hn IH H. unfold Z.succ in *. rewrite zforS_succ by auto. apply H; [lia|]. apply IH. intros; apply H; auto; lia.
Qed.

(** ** dft/generic.c *)
Lemma Csum_pairs n h f : 0 <= h -> n = 2 * h + 1 -> Csum n f = (f 0 + Csum h (fun i => f (i + 1)%Z + f (n - (i + 1))%Z))%C.
Proof.
  intros Hh ->. replace (2 * h + 1) with (1 + (h + h)) by ring. rewrite Csum_app, Csum_1 by lia. f_equal.
  rewrite Csum_app by lia. rewrite Csum_add. f_equal.
  - apply Csum_ext. intros i Hi. f_equal. ring.
  - rewrite <- (Csum_reindex h (fun i => h - 1 - i)); [|intros; lia|intros; lia]. apply Csum_ext. intros i Hi. f_equal. ring.
Qed.
Lemma W_sub n j k : n <> 0 -> W n ((n - j) * k) = W n (- (j * k)).
Proof. intros H. replace ((n - j) * k) with (- (j * k) + n * k) by ring. now apply W_period. Qed.
Lemma W_sub2 n j k : n <> 0 -> W n (j * (n - k)) = W n (- (j * k)).
Proof. intros H. rewrite Z.mul_comm, W_sub by auto. f_equal; ring. Qed.

Lemma tw_half_val n i k c : 1 < n -> 0 <= k -> 0 <= c < 2 -> 0 <= i -> 2 * i + c < n - 1 ->
  tw_half n (k * (n - 1) + (2 * i + c)) = part c (cexp n (((i + 1) * (k + 1)) mod n)).
Proof.
  intros Hn Hk Hc Hi Hl. unfold tw_half.
  assert (E1 : (k * (n - 1) + (2 * i + c)) / (n - 1) = k).
  { rewrite Z.div_add_l by lia. rewrite Z.div_small by lia. lia. }
  assert (E2 : (k * (n - 1) + (2 * i + c)) mod (n - 1) = 2 * i + c).
  { rewrite Z.add_comm, Z.mod_add by lia. apply Z.mod_small. lia. }
  rewrite E1, E2. cbn zeta.
  replace ((2 * i + c) / 2) with i by (rewrite (Z.mul_comm 2), Z.div_add_l by lia; rewrite Z.div_small by lia; lia).
  replace ((2 * i + c) mod 2) with c; [reflexivity|]. rewrite Z.add_comm, Z.mul_comm, Z.mod_add by lia. symmetry. now apply Z.mod_small.
Qed.

Lemma sh_nx_ne (nx : nat) (o : Z) (P : loc) (q : Z) : fst P <> nx -> sh (nx, 0) o <> sh P q.
Proof. intros H E. apply H. apply (f_equal fst) in E. cbn in E. now rewrite <- E. Qed.
Lemma sh_nx_inj (nx : nat) a b : sh (nx, 0) a = sh (nx, 0) b -> a = b.
Proof. apply sh_inj. Qed.

Section Generic.
  Variables (di do_ n is os h : Z).
  Hypothesis Hh : 0 <= h.
  Hypothesis Hn : n = 2 * h + 1.
  Hypothesis Hn1 : 1 < n.

  Definition hv (x : Z -> C) (i c : Z) : R :=
    if c =? 0 then fst (x (i + 1)%Z + x (n - (i + 1))%Z)%C
    else if c =? 1 then snd (x (i + 1)%Z + x (n - (i + 1))%Z)%C
    else if c =? 2 then fst (x (i + 1)%Z - x (n - (i + 1))%Z)%C
    else snd (x (i + 1)%Z - x (n - (i + 1))%Z)%C.

  Lemma hartley_spec (nx : nat) (I O : loc) (m : mem) : (fst I < nx)%nat -> (fst O < nx)%nat -> inj2 do_ n os ->
    let x := rc m I di is in
    let m' := hartley di do_ n is (nx, 0) I O m in
    m' (sh (nx, 0) 0) = fst (x 0) /\ m' (sh (nx, 0) 1) = snd (x 0) /\
    (forall i c, 0 <= i < h -> 0 <= c < 4 -> m' (sh (nx, 0) (2 + 4 * i + c)) = hv x i c) /\
    (forall l, fst l <> nx -> l <> ad O do_ os 0 0 -> l <> ad O do_ os 0 1 -> m' l = m l) /\
    rc m' O do_ os 0 = Csum n x.
  Proof.
    intros HI HO NO x. cbn zeta. unfold hartley.
    replace (Z.quot (n - 1) 2) with h by (rewrite Hn; replace (2 * h + 1 - 1) with (h * 2) by ring; now rewrite Z.quot_mul by lia).
    set (m1 := upd m (sh (nx, 0) 0) (m (sh I 0))).
    assert (E1 : m1 (sh (sh I di) 0) = snd (x 0)).
    { unfold m1. rewrite upd_other; [|rewrite sh_sh; apply sh_nx_ne; lia]. unfold x, rc. cbn [snd]. now rewrite <- ad_1. }
    rewrite E1.
    assert (E0 : m (sh I 0) = fst (x 0)) by (unfold x, rc; cbn [fst]; now rewrite <- ad_0). 
    unfold m1. rewrite E0. clear m1 E1 E0.
    set (m2 := upd (upd m (sh (nx, 0) 0) (fst (x 0))) (sh (nx, 0) 1) (snd (x 0))).
    match goal with |- context [zforS h ?b ?s] => set (body := b); set (s0 := s) end.
    pose (P := fun (k : Z) (s : mem * R * R) => let '(mk, sr, si) := s in
      (forall l, fst l <> nx -> mk l = m l) /\ mk (sh (nx, 0) 0) = fst (x 0) /\ mk (sh (nx, 0) 1) = snd (x 0) /\
      (forall i c, 0 <= i < k -> 0 <= c < 4 -> mk (sh (nx, 0) (2 + 4 * i + c)) = hv x i c) /\
      (sr, si) = (x 0 + Csum k (fun i => x (i + 1)%Z + x (n - (i + 1))%Z))%C).
    assert (HP : P h (zforS h body s0)).
    { apply zforS_inv; auto.
      - unfold P, s0, m2. split; [|split; [|split; [|split]]].
        + intros l Hl. rewrite !upd_other; auto; intros <-; now apply Hl.
        + rewrite upd_other; [apply upd_same|]. intros E. apply sh_nx_inj in E. lia.
        + apply upd_same.
        + lia.
        + rewrite Csum_0. apply C_eq; cbn; ring.
      - intros k [[mk sr] si] Hk (A1 & A2 & A3 & A4 & A5). unfold body. cbn zeta. 
        assert (RI : forall mm, (forall l, fst l <> nx -> mm l = m l) -> forall q, mm (sh I q) = m (sh I q)) by (intros mm H q; apply H; cbn; lia).
        assert (RD : forall mm, (forall l, fst l <> nx -> mm l = m l) -> forall q, mm (sh (sh I di) q) = m (sh (sh I di) q)) by (intros mm H q; apply H; cbn; lia).
        assert (UP : forall mm, (forall l, fst l <> nx -> mm l = m l) -> forall q v l, fst l <> nx -> upd mm (sh (nx, 0) q) v l = m l).
        { intros mm H q v l Hl. rewrite upd_other; auto. intros <-. now apply Hl. }
        set (B0 := upd mk (sh (nx, 0) (2 + 4 * k)) (mk (sh I ((k + 1) * is)) + mk (sh I ((n - (k + 1)) * is)))%R).
        assert (G0 : forall l, fst l <> nx -> B0 l = m l) by (intros; now apply UP).
        set (v1 := (B0 (sh (sh I di) ((k + 1) * is)) + B0 (sh (sh I di) ((n - (k + 1)) * is)))%R).
        set (B1 := upd B0 (sh (nx, 0) (2 + 4 * k + 1)) v1).
        assert (G1 : forall l, fst l <> nx -> B1 l = m l) by (intros; now apply UP).
        set (v2 := (B1 (sh I ((k + 1) * is)) - B1 (sh I ((n - (k + 1)) * is)))%R).
        set (B2 := upd B1 (sh (nx, 0) (2 + 4 * k + 2)) v2).
        assert (G2 : forall l, fst l <> nx -> B2 l = m l) by (intros; now apply UP).
        set (v3 := (B2 (sh (sh I di) ((k + 1) * is)) - B2 (sh (sh I di) ((n - (k + 1)) * is)))%R).
        set (B3 := upd B2 (sh (nx, 0) (2 + 4 * k + 3)) v3).
        assert (G3 : forall l, fst l <> nx -> B3 l = m l) by (intros; now apply UP).
        set (v0 := (mk (sh I ((k + 1) * is)) + mk (sh I ((n - (k + 1)) * is)))%R).
        assert (V0 : v0 = hv x k 0). { unfold v0. rewrite !(RI mk A1). unfold hv, x, rc. cbn [Z.eqb fst cadd]. now rewrite !(ad_0 I di). }
        assert (V1 : v1 = hv x k 1). { unfold v1. rewrite !(RD B0 G0). unfold hv, x, rc. cbn [Z.eqb Pos.eqb snd cadd]. now rewrite !ad_1. }
        assert (V2 : v2 = hv x k 2). { unfold v2. rewrite !(RI B1 G1). unfold hv, x, rc. cbn [Z.eqb Pos.eqb fst csub]. now rewrite !(ad_0 I di). }
        assert (V3 : v3 = hv x k 3). { unfold v3. rewrite !(RD B2 G2). unfold hv, x, rc. cbn [Z.eqb Pos.eqb snd csub]. now rewrite !ad_1. }
        fold v0. unfold P.
        assert (NE : forall a b, a <> b -> sh (nx, 0) a <> sh (nx, 0) b) by (intros a b H E; apply sh_nx_inj in E; auto).
        split; [exact G3|]. split; [|split; [|split]].
        + unfold B3, B2, B1, B0. rewrite !upd_other by (apply NE; lia). exact A2.
        + unfold B3, B2, B1, B0. rewrite !upd_other by (apply NE; lia). exact A3.
        + intros i c Hi Hc. destruct (Z.eq_dec i k) as [->|Hik].
          * assert (c = 0 \/ c = 1 \/ c = 2 \/ c = 3) as [E|[E|[E|E]]] by lia; subst c.
            -- rewrite <- V0. unfold B3, B2, B1, B0. rewrite !Z.add_0_r. rewrite 3 upd_other by (apply NE; lia). apply upd_same.
            -- rewrite <- V1. unfold B3, B2, B1. rewrite 2 upd_other by (apply NE; lia). apply upd_same.
            -- rewrite <- V2. unfold B3, B2. rewrite upd_other by (apply NE; lia). apply upd_same.
            -- rewrite <- V3. unfold B3. apply upd_same.
          * unfold B3, B2, B1, B0. rewrite !upd_other by (apply NE; lia). apply A4; lia.
        + rewrite V0, V1. rewrite Csum_succ by lia.
          assert (E : (x 0 + (Csum k (fun i => x (i + 1)%Z + x (n - (i + 1))%Z) + (x (k + 1)%Z + x (n - (k + 1))%Z)))%C
             = ((x 0 + Csum k (fun i => x (i + 1)%Z + x (n - (i + 1))%Z)) + (x (k + 1)%Z + x (n - (k + 1))%Z))%C) by ring.
          rewrite E, <- A5. reflexivity. }
    destruct (zforS h body s0) as [[m3 sr] si]. destruct HP as (A1 & A2 & A3 & A4 & A5).
    assert (NB : forall o q, sh O q <> sh (nx, 0) o) by (intros o q E; symmetry in E; revert E; apply sh_nx_ne; lia).
    assert (NB2 : forall o q, sh (sh O do_) q <> sh (nx, 0) o) by (intros o q; rewrite sh_sh; apply NB).
    split; [|split; [|split; [|split]]].
    - rewrite !upd_other by auto. exact A2.
    - rewrite !upd_other by auto. exact A3.
    - intros i c Hi Hc. rewrite !upd_other by auto. now apply A4.
    - intros l Hl L0 L1. rewrite !upd_other; [now apply A1| |].
      + intros <-. apply L0. unfold ad. f_equal; ring.
      + intros <-. apply L1. unfold ad. rewrite sh_sh. f_equal; ring.
    - rewrite (Csum_pairs n h) by auto. rewrite <- A5. unfold rc. f_equal.
      + rewrite upd_other.
        * replace (sh O 0) with (ad O do_ os 0 0) by (unfold ad; f_equal; ring). apply upd_same.
        * replace (sh (sh O do_) 0) with (ad O do_ os 0 1) by (unfold ad; rewrite sh_sh; f_equal; ring). intros E. apply (ad_inj O do_ os n) in E; auto; lia.
      + replace (sh (sh O do_) 0) with (ad O do_ os 0 1) by (unfold ad; rewrite sh_sh; f_equal; ring). apply upd_same.
  Qed.

  Lemma cdot_spec (nx : nat) (m : mem) (x : Z -> C) k or0 oi0 or1 oi1 : 0 <= k < h ->
    m (sh (nx, 0) 0) = fst (x 0) -> m (sh (nx, 0) 1) = snd (x 0) ->
    (forall i c, 0 <= i < h -> 0 <= c < 4 -> m (sh (nx, 0) (2 + 4 * i + c)) = hv x i c) ->
    cdot n (nx, 0) (fun o => tw_half n (k * (n - 1) + o)) or0 oi0 or1 oi1 m =
    upd (upd (upd (upd m or0 (fst (dft n x (k + 1)))) oi0 (snd (dft n x (k + 1)))) or1 (fst (dft n x (n - (k + 1))))) oi1 (snd (dft n x (n - (k + 1)))).
  Proof.
    intros Hk H0 H1 Hv. unfold cdot.
    replace (Z.quot (n - 1) 2) with h by (rewrite Hn; replace (2 * h + 1 - 1) with (h * 2) by ring; now rewrite Z.quot_mul by lia).
    match goal with |- context [zforS h ?b ?s] => set (body := b); set (s0 := s) end.
    pose (F := fun kk i => (x (i + 1)%Z * W n ((i + 1) * kk)%Z + x (n - (i + 1))%Z * W n ((n - (i + 1)) * kk)%Z)%C).
    pose (P := fun (j : Z) (s : R * R * R * R) => let '(rr, ri, ir, ii) := s in
       ((rr + ii)%R, (ir - ri)%R) = (x 0 + Csum j (F (k + 1)%Z))%C /\ ((rr - ii)%R, (ir + ri)%R) = (x 0 + Csum j (F (n - (k + 1))%Z))%C).
    assert (HP : P h (zforS h body s0)).
    { apply zforS_inv; auto.
      - unfold P, s0. rewrite H0, H1, !Csum_0. split; apply C_eq; cbn; ring.
      - intros j [[[rr ri] ir] ii] Hj [A1 A2]. unfold body. cbn zeta.
        pose proof (tw_half_val n j k 0 Hn1 ltac:(lia) ltac:(lia) ltac:(lia) ltac:(lia)) as T0. rewrite Z.add_0_r in T0.
        pose proof (tw_half_val n j k 1 Hn1 ltac:(lia) ltac:(lia) ltac:(lia) ltac:(lia)) as T1.
        assert (EW : cexp n (((j + 1) * (k + 1)) mod n) = Cplx.conj (W n ((j + 1) * (k + 1)))).
        { rewrite cexp_W. now rewrite W_mod by lia. }
        rewrite EW in T0, T1. unfold part in T0, T1. cbn [Z.eqb] in T0, T1.
        rewrite T0, T1. 
        pose proof (Hv j 0 Hj ltac:(lia)) as V0. pose proof (Hv j 1 Hj ltac:(lia)) as V1. pose proof (Hv j 2 Hj ltac:(lia)) as V2. pose proof (Hv j 3 Hj ltac:(lia)) as V3.
        rewrite Z.add_0_r in V0. replace (2 + 4 * j + 1 + 2) with (2 + 4 * j + 3) by ring.
        rewrite V0, V1, V2, V3. unfold hv. cbn [Z.eqb Pos.eqb].
        unfold P. rewrite !Csum_succ by lia.
        assert (EF1 : F (k + 1) j = (x (j + 1)%Z * W n ((j + 1) * (k + 1))%Z + x (n - (j + 1))%Z * Cplx.conj (W n ((j + 1) * (k + 1))%Z))%C).
        { unfold F. rewrite W_sub by lia. now rewrite W_neg. }
        assert (EF2 : F (n - (k + 1)) j = (x (j + 1)%Z * Cplx.conj (W n ((j + 1) * (k + 1))%Z) + x (n - (j + 1))%Z * W n ((j + 1) * (k + 1))%Z)%C).
        { unfold F. rewrite W_sub by lia. rewrite W_sub2 by lia. rewrite <- W_neg. f_equal. f_equal.
          replace (- ((j + 1) * (n - (k + 1)))) with ((j + 1) * (k + 1) + n * (- (j + 1))) by ring. apply W_period; lia. }
        set (w := W n ((j + 1) * (k + 1))) in *. clearbody w. set (F1 := F (k + 1)) in *. set (F2 := F (n - (k + 1))) in *. clearbody F1 F2.
        rewrite EF1, EF2. set (a := x (j + 1)). set (b := x (n - (j + 1))). clearbody a b.
        set (S1 := Csum j F1) in *. set (S2 := Csum j F2) in *. clearbody S1 S2. set (x0 := x 0) in *. clearbody x0.
        assert (A1r := f_equal fst A1). assert (A1i := f_equal snd A1). assert (A2r := f_equal fst A2). assert (A2i := f_equal snd A2). cbn in A1r, A1i, A2r, A2i.
        split; apply C_eq; cbn; lra. }
    destruct (zforS h body s0) as [[[rr ri] ir] ii]. destruct HP as [A1 A2].
    assert (E : forall kk, dft n x kk = (x 0 + Csum h (F kk))%C).
    { intros kk. unfold dft. rewrite (Csum_pairs n h) by auto. rewrite Z.mul_0_l, W_0. unfold F. f_equal. apply C_eq; cbn; ring. }
    rewrite !E, <- A1, <- A2. reflexivity.
  Qed.

  Lemma generic_correct nd ip : Correct nd ip (cx di do_ [mkdim n is os]) [] (generic_apply di do_ n is os).
  Proof.
    apply prove_1d. intros nx I O m HI HO NI NO. unfold generic_apply.
    pose proof (hartley_spec nx I O m HI HO NO) as HS. cbn zeta in HS. cbn zeta.
    set (m1 := hartley di do_ n is (nx, 0) I O m) in *. destruct HS as (B0 & B1 & Bv & Fr & R0). set (x := rc m I di is) in *.
    replace (Z.quot (n - 1) 2) with h by (rewrite Hn; replace (2 * h + 1 - 1) with (h * 2) by ring; now rewrite Z.quot_mul by lia).
    pose (A := fun i c => ad O do_ os (if c <? 2 then i + 1 else n - (i + 1)) (if c <? 2 then c else c - 2)).
    pose (v := fun i c => let z := dft n x (if c <? 2 then i + 1 else n - (i + 1)) in if (if c <? 2 then c else c - 2) =? 0 then fst z else snd z).
    match goal with |- context [zfor h ?b m1] => set (body := b) end.
    destruct (zfor_writes h 4 body A v m1) as [Z1 Z2].
    - intros i mm Hi Hmm. unfold body.
      assert (KB : forall o, mm (sh (nx, 0) o) = m1 (sh (nx, 0) o)).
      { intros o. apply Hmm. intros j c _ _. unfold A, ad. apply sh_nx_ne. lia. }
      rewrite (cdot_spec nx mm x i) by (try rewrite KB; auto; intros; rewrite KB; auto).
      rewrite !(ad_0 O do_), !ad_1. reflexivity.
    - intros i c j d Hi Hc Hj Hd E. unfold A in E. apply (ad_inj O do_ os n) in E; auto;
        destruct (c <? 2) eqn:E1, (d <? 2) eqn:E2; lia.
    - split.
      + intros k Hk. destruct (Z.eq_dec k 0) as [->|Hk0].
        * assert (N0 : forall e j c, 0 <= e < 2 -> 0 <= j < h -> 0 <= c < 4 -> ad O do_ os 0 e <> A j c).
          { intros e j c He Hj Hc E. unfold A in E. apply (ad_inj O do_ os n) in E; auto; destruct (c <? 2) eqn:E1; lia. }
          unfold rc. rewrite !Z2 by (intros; apply N0; lia). rewrite <- (Csum_ext n x); [exact R0|].
          intros j Hj. rewrite Z.mul_0_r, W_0. apply C_eq; cbn; ring.
        * change (Csum n (fun j => x j * W n (j * k)%Z)%C) with (dft n x k). destruct (Z_le_gt_dec k h) as [Hl|Hl].
          -- pose proof (Z1 (k - 1) 0 ltac:(lia) ltac:(lia)) as P0. pose proof (Z1 (k - 1) 1 ltac:(lia) ltac:(lia)) as P1.
             unfold A, v in P0, P1. cbn [Z.ltb Z.compare Pos.compare Pos.compare_cont Z.eqb] in P0, P1. rewrite Z.sub_add in P0, P1. unfold rc. rewrite P0, P1. now rewrite <- surjective_pairing.
          -- pose proof (Z1 (n - k - 1) 2 ltac:(lia) ltac:(lia)) as P0. pose proof (Z1 (n - k - 1) 3 ltac:(lia) ltac:(lia)) as P1.
             unfold A, v in P0, P1. change (2 <? 2) with false in P0. change (3 <? 2) with false in P1. change (2 - 2) with 0 in P0. change (3 - 2) with 1 in P1.
             cbn [Z.eqb] in P0, P1. replace (n - (n - k - 1 + 1)) with k in P0, P1 by ring. unfold rc. rewrite P0, P1. now rewrite <- surjective_pairing.
      + intros l Hl Ho. rewrite Z2.
        * apply Fr; try (apply Ho; lia). lia.
        * intros j c Hj Hc. unfold A. apply Ho; destruct (c <? 2) eqn:E1; lia.
  Qed.
End Generic.

(** ** dft/rader.c *)
Lemma buf_0 (P : loc) k : sh P (2 * k) = ad P 1 2 k 0. Proof. unfold ad. f_equal; ring. Qed.
Lemma buf_1 (P : loc) k : sh P (2 * k + 1) = ad P 1 2 k 1. Proof. unfold ad. f_equal; ring. Qed.
Lemma inj2_12 n : inj2 1 n 2. Proof. intros c i c' j Hc Hi Hc' Hj E. lia. Qed.
Lemma ad_os P d s k c : ad (sh P s) d s k c = ad P d s (k + 1) c.
Proof. unfold ad. rewrite sh_sh. f_equal; ring. Qed.
Lemma rc_os m P d s k : rc m (sh P s) d s k = rc m P d s (k + 1).
Proof. unfold rc. now rewrite !ad_os. Qed.
Lemma inj2_le d n n' s : n' <= n -> inj2 d n s -> inj2 d n' s.
Proof. intros H J c i c' j Hc Hi Hc' Hj E. apply J; auto; lia. Qed.
Lemma ad_nx (nx : nat) P d s k c e t j c' : (fst P < nx)%nat -> ad P d s k c <> ad (nx, 0) e t j c'.
Proof. intros H. apply ad_blk. cbn. lia. Qed.
Lemma zfor_2 (b : Z -> mem -> mem) m : zfor 2 b m = b 1 (b 0 m). Proof. reflexivity. Qed.
Lemma rc_val m P d s k z : m (ad P d s k 0) = fst z -> m (ad P d s k 1) = snd z -> rc m P d s k = z.
Proof. intros H1 H2. unfold rc. rewrite H1, H2. now rewrite <- surjective_pairing. Qed.
Lemma rc_frame m m' P d s k : (forall c, 0 <= c < 2 -> m' (ad P d s k c) = m (ad P d s k c)) -> rc m' P d s k = rc m P d s k.
Proof. intros H. unfold rc. now rewrite !H by lia. Qed.
Lemma gp_step n g k : 0 <= g < n -> n <= INTMAX -> 0 <= k -> unr (MULMOD INTMAX (gp n g k) g n) = gp n g (k + 1).
Proof.
  intros Hg Hn Hk. unfold gp. rewrite MULMOD_spec; auto.
  - cbn [unr]. rewrite Z.mul_mod_idemp_l by lia. rewrite Z.pow_add_r, Z.pow_1_r by lia. reflexivity.
  - apply Z.mod_pos_bound. lia.
  - unfold INTMAX. lia.
Qed.
Lemma gp_0 n g : 1 < n -> gp n g 0 = 1. Proof. intros H. unfold gp. rewrite Z.pow_0_r. apply Z.mod_small. lia. Qed.

Section Rader.
  Variables (di do_ n is os g ginv : Z) (f1 f2 fo : rapply) (nd1 nd2 nd3 : bool) (m0 : mem).
  Hypothesis Hp : prime n.
  Hypothesis HM : n <= INTMAX.
  Hypothesis Hg : primitive_root n g.
  Hypothesis Hi : ginv = g ^ (n - 2) mod n.
  Hypothesis C1' : Correct nd1 false (cx 1 do_ [mkdim (n - 1) 2 os]) [mkdim 1 0 0] f1.
  Hypothesis C2' : Correct nd2 false (cx do_ 1 [mkdim (n - 1) os 2]) [mkdim 1 0 0] f2.
  Hypothesis C3' : Correct nd3 true (cx 1 1 [mkdim (n - 1) 2 2]) [mkdim 1 0 0] fo.

  Lemma rader_omega_spec k : 0 <= k < n - 1 ->
    (rader_omega n ginv fo m0 (2 * k), rader_omega n ginv fo m0 (2 * k + 1)) =
    dft (n - 1) (fun i => cscal (/ IZR (n - 1)) (W n (hp n ginv i))) k.
  Proof.
    intros Hk. pose proof (prime_ge_2 _ Hp) as H2. unfold rader_omega.
    match goal with |- context [zforS (n - 1) ?b ?s] => set (body := b) end.
    pose (b := fun i m => zfor 2 (fun c m => upd m (ad (0%nat, 0) 1 2 i c) (part c (cscal (/ IZR (n - 1)) (W n (hp n ginv i))))) m).
    assert (E : zforS (n - 1) body (m0, 1) = (zfor (n - 1) b m0, gp n ginv (n - 1))).
    { replace (m0, 1) with (m0, gp n ginv 0) by (rewrite gp_0 by lia; reflexivity). apply zforS_pair; [lia|]. intros i m Hi'. unfold body, b. f_equal.
      - rewrite zfor_2, buf_0, buf_1. unfold part. cbn [Z.eqb fst snd cscal].
        rewrite cexp_W. rewrite minus_IZR. cbn [fst snd Cplx.conj].
        assert (IZR n - 1 <> 0)%R. { rewrite <- minus_IZR. apply not_0_IZR. lia. }
        unfold hp, gp. f_equal; [f_equal|]; field; auto.
      - apply gp_step; auto; [|lia]. pose proof (ginv_range n g ginv Hp Hg Hi). lia. }
    rewrite E. cbn zeta.
    destruct (zfor_writes (n - 1) 2 b (fun i c => ad (0%nat, 0) 1 2 i c) (fun i c => part c (cscal (/ IZR (n - 1)) (W n (hp n ginv i)))) m0) as [Z1 _].
    - intros i m Hi' _. reflexivity.
    - intros i c j d Hi' Hc Hj Hd E'. apply (ad_inj _ 1 2 (n - 1)) in E'; auto. apply inj2_12.
    - set (mm := zfor (n - 1) b m0) in *.
      destruct (run_1d nd3 true 1 1 (n - 1) 2 2 fo 1%nat (0%nat, 0) (0%nat, 0) mm) as [V _]; auto; try apply inj2_12; try (cbn; lia).
      rewrite buf_0, buf_1. change (rc (fo 1%nat (0%nat, 0) (0%nat, 0) mm) (0%nat, 0) 1 2 k = dft (n - 1) (fun i => cscal (/ IZR (n - 1)) (W n (hp n ginv i))) k).
      rewrite V by auto. apply Csum_ext. intros j Hj. f_equal. apply rc_val; rewrite Z1 by lia; reflexivity.
  Qed.

  Lemma rader_load_spec (nx : nat) I m : (fst I < nx)%nat -> 1 < n ->
    let m1 := rader_load di n is g (nx, 0) I m in
    (forall k, 0 <= k < n - 1 -> rc m1 (nx, 0) 1 2 k = rc m I di is (gp n g k)) /\ (forall l, fst l <> nx -> m1 l = m l).
  Proof.
    intros HI H2. unfold rader_load. set (B := (nx, 0) : loc). set (x := rc m I di is). cbn zeta. set (N := n - 1).
    match goal with |- context [zforS N ?b (m, 1)] => set (body := b) end.
    pose (b' := fun (k : Z) (mm : mem) => upd (upd mm (sh B (2 * k)) (mm (sh I (gp n g k * is)))) (sh B (2 * k + 1)) (mm (sh (sh I di) (gp n g k * is)))).
    assert (E : zforS N body (m, 1) = (zfor N b' m, gp n g N)).
    { replace (m, 1) with (m, gp n g 0) by (rewrite gp_0 by lia; reflexivity). apply zforS_pair; [unfold N; lia|]. intros k mm Hk. unfold body, b'. f_equal.
      apply gp_step; auto; [destruct Hg; lia|lia]. }
    rewrite E. cbn [fst].
    destruct (zfor_writes N 2 b' (fun i c => ad B 1 2 i c) (fun i c => part c (x (gp n g i))) m) as [Z1 Z2].
    + intros i mm Hi' Hmm. unfold b'. rewrite zfor_2, buf_0, buf_1. unfold part. cbn [Z.eqb].
      rewrite (ad_0 I di), ad_1. rewrite !Hmm by (intros; now apply ad_nx). reflexivity.
    + intros i c j d Hi' Hc Hj Hd E'. apply (ad_inj _ 1 2 N) in E'; auto. apply inj2_12.
    + split.
      * intros k Hk. apply rc_val; rewrite Z1 by lia; reflexivity.
      * intros l Hl. apply Z2. intros j c _ _ E'. apply (f_equal fst) in E'. cbn in E'. lia.
  Qed.
  Lemma sh_ad0 O : sh O 0 = ad O do_ os 0 0. Proof. unfold ad. f_equal; ring. Qed.
  Lemma sh_ad1 O : sh (sh O do_) 0 = ad O do_ os 0 1. Proof. unfold ad. rewrite sh_sh. f_equal; ring. Qed.
  Lemma sh_ad2 O : sh O os = ad O do_ os 1 0. Proof. unfold ad. f_equal; ring. Qed.
  Lemma sh_ad3 O : sh (sh O do_) os = ad O do_ os 1 1. Proof. unfold ad. rewrite sh_sh. f_equal; ring. Qed.

  Lemma rader_dc_spec O r0 i0 m : 1 < n -> inj2 do_ n os ->
    let m' := rader_dc do_ os r0 i0 O m in
    rc m' O do_ os 0 = ((r0, i0) + rc m O do_ os 1)%C /\
    (forall l, l <> ad O do_ os 0 0 -> l <> ad O do_ os 0 1 -> m' l = m l).
  Proof.
    intros H2 NO. unfold rader_dc. rewrite sh_ad0, sh_ad1, sh_ad2, sh_ad3. cbn zeta.
    assert (NE : forall i c j c', 0 <= i < n -> 0 <= c < 2 -> 0 <= j < n -> 0 <= c' < 2 -> i <> j \/ c <> c' -> ad O do_ os i c <> ad O do_ os j c').
    { intros i c j c' A1 A2 A3 A4 A5 E. apply (ad_inj _ _ _ n) in E; auto. lia. }
    split.
    - apply rc_val.
      + rewrite upd_other by (apply NE; lia). rewrite upd_same. reflexivity.
      + rewrite upd_same. rewrite upd_other by (apply NE; lia). reflexivity.
    - intros l L0 L1. now rewrite !upd_other by auto.
  Qed.
  Lemma rader_add0_spec O r0 i0 m : 1 < n -> inj2 do_ n os ->
    let m' := rader_add0 do_ os r0 i0 O m in
    rc m' O do_ os 1 = (rc m O do_ os 1 + Cplx.conj (r0, i0))%C /\
    (forall l, l <> ad O do_ os 1 0 -> l <> ad O do_ os 1 1 -> m' l = m l).
  Proof.
    intros H2 NO. unfold rader_add0. rewrite sh_ad2, sh_ad3. cbn zeta.
    assert (NE : ad O do_ os 1 0 <> ad O do_ os 1 1).
    { intros E. apply (ad_inj _ _ _ n) in E; auto; lia. }
    split.
    - apply rc_val.
      + rewrite upd_other by auto. rewrite upd_same. reflexivity.
      + rewrite upd_same. rewrite upd_other by auto. reflexivity.
    - intros l L0 L1. now rewrite !upd_other by auto.
  Qed.
  Lemma rader_mult_spec O om m : inj2 do_ n os ->
    let m' := rader_mult do_ n os om O m in
    (forall k, 0 <= k < n - 1 -> rc m' O do_ os (k + 1) = Cplx.conj (rc m O do_ os (k + 1) * (om (2 * k)%Z, om (2 * k + 1)%Z))%C) /\
    (forall l, (forall k c, 0 <= k < n - 1 -> 0 <= c < 2 -> l <> ad O do_ os (k + 1) c) -> m' l = m l).
  Proof.
    intros NO. unfold rader_mult. cbn zeta.
    match goal with |- context [zfor (n - 1) ?b m] => set (body := b) end.
    destruct (zfor_writes (n - 1) 2 body (fun i c => ad O do_ os (i + 1) c)
       (fun i c => part c (Cplx.conj (rc m O do_ os (i + 1) * (om (2 * i)%Z, om (2 * i + 1)%Z))%C)) m) as [Z1 Z2].
    - intros i mm Hi' Hmm. unfold body. rewrite zfor_2. unfold part. cbn [Z.eqb]. rewrite (ad_0 O do_), ad_1. 
      rewrite !Hmm by (intros j c Hj Hc E; apply (ad_inj _ _ _ n) in E; auto; lia).
      unfold rc. cbn [fst snd cmul Cplx.conj]. f_equal; [f_equal|]; ring.
    - intros i c j d Hi' Hc Hj Hd E'. apply (ad_inj _ _ _ n) in E'; auto; lia.
    - split; [|exact Z2]. intros k Hk. apply rc_val; rewrite Z1 by lia; reflexivity.
  Qed.
  Lemma rader_store_spec (nx : nat) O m : (fst O < nx)%nat -> 1 < n -> inj2 do_ n os ->
    let m' := rader_store do_ n os ginv (nx, 0) O m in
    (forall k, 0 <= k < n - 1 -> rc m' O do_ os (hp n ginv k) = Cplx.conj (rc m (nx, 0) 1 2 k)) /\
    (forall l, (forall k c, 1 <= k < n -> 0 <= c < 2 -> l <> ad O do_ os k c) -> m' l = m l).
  Proof.
    intros HO H2 NO. unfold rader_store. cbn zeta. set (B := (nx, 0) : loc). set (N := n - 1).
    match goal with |- context [zforS N ?b (m, 1)] => set (body := b) end.
    pose (b' := fun (k : Z) (mm : mem) => let m' := upd mm (sh O (gp n ginv k * os)) (mm (sh B (2 * k))) in
       upd m' (sh (sh O do_) (gp n ginv k * os)) (- m' (sh B (2 * k + 1)))%R).
    pose proof (ginv_range n g ginv Hp Hg Hi) as Hgi.
    assert (E : zforS N body (m, 1) = (zfor N b' m, gp n ginv N)).
    { replace (m, 1) with (m, gp n ginv 0) by (rewrite gp_0 by lia; reflexivity). apply zforS_pair; [unfold N; lia|]. intros k mm Hk. unfold body, b'. f_equal.
      apply gp_step; auto; lia. }
    rewrite E. cbn [fst].
    assert (GH : forall k, gp n ginv k = hp n ginv k) by reflexivity.
    destruct (zfor_writes N 2 b' (fun i c => ad O do_ os (hp n ginv i) c) (fun i c => part c (Cplx.conj (rc m B 1 2 i))) m) as [Z1 Z2].
    - intros i mm Hi' Hmm. unfold b'. rewrite zfor_2, buf_0, buf_1, GH. unfold part. cbn [Z.eqb]; cbn zeta.
      rewrite (ad_0 O do_), ad_1. rewrite (upd_other mm) by (apply ad_nx; auto).
      rewrite !Hmm by (intros j c Hj Hc E'; symmetry in E'; revert E'; apply ad_nx; auto). reflexivity.
    - intros i c j d Hi' Hc Hj Hd E'. pose proof (hp_range n g ginv Hp Hg Hi i ltac:(lia)). pose proof (hp_range n g ginv Hp Hg Hi j ltac:(lia)).
      apply (ad_inj _ _ _ n) in E'; auto; try lia. destruct E' as [E1 E2]. split; auto. eapply (hp_inj n g ginv); eauto.
    - split.
      + intros k Hk. apply rc_val; rewrite Z1 by lia; reflexivity.
      + intros l Hl. apply Z2. intros j c Hj Hc. apply Hl; auto. pose proof (hp_range n g ginv Hp Hg Hi j ltac:(lia)). lia.
  Qed.

  Lemma rader_correct nd ip : Correct nd ip (cx di do_ [mkdim n is os]) [] (rader_apply di do_ n is os g ginv (rader_omega n ginv fo m0) f1 f2).
  Proof.
    apply prove_1d. intros nx I O m HI HO NI NO. pose proof (prime_ge_2 _ Hp) as H2.
    assert (NO1 : inj2 do_ (n - 1) os) by (eapply inj2_le; [|exact NO]; lia).
    assert (NE : forall i c j c', 0 <= i < n -> 0 <= c < 2 -> 0 <= j < n -> 0 <= c' < 2 -> i <> j \/ c <> c' -> ad O do_ os i c <> ad O do_ os j c').
    { intros i c j c' A1 A2 A3 A4 A5 E. apply (ad_inj _ _ _ n) in E; auto. lia. }
    unfold rader_apply. cbn zeta. set (x := rc m I di is).
    replace (m (sh I 0)) with (fst (x 0)) by (unfold x, rc; cbn [fst]; now rewrite <- ad_0).
    replace (m (sh (sh I di) 0)) with (snd (x 0)) by (unfold x, rc; cbn [snd]; now rewrite <- ad_1).
    destruct (rader_load_spec nx I m HI ltac:(lia)) as [V1 F1]. set (m1 := rader_load di n is g (nx, 0) I m) in *. clearbody m1. cbn zeta in V1, F1.
    destruct (run_1d nd1 false 1 do_ (n - 1) 2 os f1 (S nx) (nx, 0) (sh O os) m1) as [V2 F2]; auto; try apply inj2_12; try (cbn; lia).
    set (m2 := f1 (S nx) (nx, 0) (sh O os) m1) in *. clearbody m2.
    set (A := dft (n - 1) (fun j => x (gp n g j))).
    assert (V2' : forall k, 0 <= k < n - 1 -> rc m2 O do_ os (k + 1) = A k).
    { intros k Hk. rewrite <- rc_os, V2 by auto. apply Csum_ext. intros j Hj. now rewrite V1. }
    assert (F2' : forall l, (fst l < nx)%nat -> (forall k c, 1 <= k < n -> 0 <= c < 2 -> l <> ad O do_ os k c) -> m2 l = m l).
    { intros l Hl Ho. rewrite F2.
      - apply F1. lia.
      - lia.
      - intros k c Hk Hc. rewrite ad_os. apply Ho; lia.
      - intros k c Hk Hc E. apply (f_equal fst) in E. cbn in E. lia. }
    clear V2 F2 V1 F1 m1.
    destruct (rader_dc_spec O (fst (x 0)) (snd (x 0)) m2 ltac:(lia) NO) as [V3 F3]. cbn zeta in V3, F3.
    set (m3 := rader_dc do_ os (fst (x 0)) (snd (x 0)) O m2) in *. clearbody m3.
    set (om := rader_omega n ginv fo m0).
    destruct (rader_mult_spec O om m3 NO) as [V4 F4]. cbn zeta in V4, F4.
    set (m4 := rader_mult do_ n os om O m3) in *. clearbody m4.
    destruct (rader_add0_spec O (fst (x 0)) (snd (x 0)) m4 ltac:(lia) NO) as [V5 F5]. cbn zeta in V5, F5.
    set (m5 := rader_add0 do_ os (fst (x 0)) (snd (x 0)) O m4) in *. clearbody m5.
    destruct (run_1d nd2 false do_ 1 (n - 1) os 2 f2 (S nx) (sh O os) (nx, 0) m5) as [V6 F6]; auto; try apply inj2_12; try (cbn; lia).
    set (m6 := f2 (S nx) (sh O os) (nx, 0) m5) in *. clearbody m6.
    destruct (rader_store_spec nx O m6 HO ltac:(lia) NO) as [V7 F7]. cbn zeta in V7, F7.
    set (m7 := rader_store do_ n os ginv (nx, 0) O m6) in *. clearbody m7.
    set (Om := dft (n - 1) (fun i => cscal (/ IZR (n - 1)) (W n (hp n ginv i)))).
    assert (V4' : forall k, 0 <= k < n - 1 -> rc m4 O do_ os (k + 1) = Cplx.conj (A k * Om k)%C).
    { intros k Hk. rewrite V4 by auto. unfold om. rewrite rader_omega_spec by auto. fold Om. f_equal. f_equal. rewrite <- V2' by auto.
      apply rc_frame. intros c Hc. apply F3; apply NE; lia. }
    assert (V5' : forall k, 0 <= k < n - 1 -> rc m5 O do_ os (k + 1) = (Cplx.conj (A k * Om k) + (if k =? 0 then Cplx.conj (x 0) else C0))%C).
    { intros k Hk. destruct (k =? 0) eqn:E.
      - apply Z.eqb_eq in E. subst k. cbn [Z.add]. rewrite V5. rewrite <- (V4' 0) by lia. cbn [Z.add]. now rewrite <- surjective_pairing.
      - rewrite <- V4' by auto. transitivity (rc m4 O do_ os (k + 1)); [|apply C_eq; cbn; ring]. apply rc_frame. intros c Hc. apply F5; apply NE; lia. }
    assert (DC : rc m7 O do_ os 0 = (x 0 + A 0)%C).
    { rewrite (rc_frame m6) by (intros c Hc; apply F7; intros; apply NE; lia).
      rewrite (rc_frame m5).
      2:{ intros c Hc. apply F6; [cbn; lia| |]; intros k c' Hk Hc'; [apply ad_nx; auto|rewrite ad_os; apply NE; lia]. }
      rewrite (rc_frame m4) by (intros c Hc; apply F5; apply NE; lia).
      rewrite (rc_frame m3) by (intros c Hc; apply F4; intros; apply NE; lia).
      rewrite V3, <- (V2' 0) by lia. now rewrite <- surjective_pairing. }
    split.
    - intros k Hk. change (Csum n (fun j => x j * W n (j * k)%Z)%C) with (dft n x k). destruct (Z.eq_dec k 0) as [->|Hk0].
      + rewrite DC. rewrite (dft_rader_sum n g ginv Hp Hg Hi). f_equal. unfold A, dft. apply Csum_ext. intros j Hj. rewrite !Z.mul_0_r, !W_0. reflexivity.
      + destruct (hp_surj n g ginv Hp Hg Hi k ltac:(lia)) as (i & Hi' & <-). rewrite V7 by auto. 
        rewrite (rader_math n g ginv Hp Hg Hi) by lia. cbn zeta. f_equal. rewrite V6 by auto. apply Csum_ext. intros j Hj.
        rewrite rc_os, V5' by auto. reflexivity.
    - intros l Hl Ho. rewrite F7 by (intros; apply Ho; lia).
      rewrite F6; [|lia|intros k c Hk Hc E; apply (f_equal fst) in E; cbn in E; lia|intros k c Hk Hc; rewrite ad_os; apply Ho; lia].
      rewrite F5 by (apply Ho; lia). rewrite F4 by (intros; apply Ho; lia). rewrite F3 by (apply Ho; lia). apply F2'; auto. intros; apply Ho; lia.
  Qed.
End Rader.

(** ** dft/bluestein.c *)
Lemma ksq_red_spec n2 s : 0 < n2 -> 0 <= s -> 0 <= ksq_red n2 s /\ (n2 | ksq_red n2 s - s).
Proof.
  intros Hn Hs. unfold ksq_red.
  destruct (oloop_rule (fun s => if n2 <? s then Cont (s - n2) else Done (Ret s)) (fun t => 0 <= t /\ (n2 | t - s)) (fun t => t)
    (fun t => 0 <= t /\ (n2 | t - s)) (bits s) s) as (a & E & H1 & H2).
  - intros t [Ht D]. destruct (n2 <? t) eqn:E.
    + apply Z.ltb_lt in E. split; [|lia]. split; [lia|]. replace (t - n2 - s) with ((t - s) - n2) by ring. apply Z.divide_sub_r; auto. apply Z.divide_refl.
    + eauto.
  - split; auto. rewrite Z.sub_diag. apply Z.divide_0_r.
  - split; auto. apply bits_ok. lia.
  - rewrite E. cbn [unr]. auto.
Qed.
Lemma blue_ksq_spec n k : 0 < n -> 0 <= k -> 0 <= blue_ksq n k /\ (2 * n | blue_ksq n k - k * k).
Proof.
  intros Hn Hk. unfold blue_ksq. apply (zforS_inv (fun k q => 0 <= q /\ (2 * n | q - k * k))); auto.
  - split; [lia|]. exists 0. reflexivity.
  - intros j q Hj [Hq D]. destruct (ksq_red_spec (2 * n) (q + (2 * j + 1)) ltac:(lia) ltac:(lia)) as [H1 H2]. split; auto.
    replace (ksq_red (2 * n) (q + (2 * j + 1)) - (j + 1) * (j + 1)) with
      ((ksq_red (2 * n) (q + (2 * j + 1)) - (q + (2 * j + 1))) + (q - j * j)) by ring. now apply Z.divide_add_r.
Qed.
Lemma blue_w_spec n k : 0 < n -> 0 <= k -> blue_w n k = Cplx.conj (W (2 * n) (k * k)).
Proof.
  intros Hn Hk. unfold blue_w. rewrite cexp_W. f_equal. apply W_congr; [lia|]. now apply blue_ksq_spec.
Qed.

Section Bluestein.
  Variables (di do_ n nb is os : Z) (f : rapply) (nd1 : bool) (m0 : mem).
  Hypothesis Hn : 0 < n.
  Hypothesis Hnb : 2 * n - 1 <= nb.
  Hypothesis Cf : Correct nd1 true (cx 1 1 [mkdim nb 2 2]) [mkdim 1 0 0] f.

  Definition blue_h (d : Z) : C := cscal (/ IZR nb) (Cplx.conj (W (2 * n) (d * d))).
  Lemma blue_init_spec (P : loc) m : forall d, - n < d < n ->
    rc (blue_init n nb P m) P 1 2 (d mod nb) = blue_h d.
  Proof.
    unfold blue_init. cbn zeta.
    set (m1 := zfor nb (fun i m => upd (upd m (sh P (2 * i + 1)) 0%R) (sh P (2 * i)) 0%R) m). clearbody m1.
    set (m2 := upd (upd m1 (sh P 0) (part 0 (blue_w n 0) / IZR nb)%R) (sh P 1) (part 1 (blue_w n 0) / IZR nb)%R).
    assert (HN0 : IZR nb <> 0%R) by (apply not_0_IZR; lia).
    assert (PW : forall i c, 0 <= i -> (part c (blue_w n i) / IZR nb)%R = part c (blue_h i)).
    { intros i c Hi. rewrite blue_w_spec by auto. unfold blue_h, part. destruct (c =? 0); cbn [fst snd cscal]; field; auto. }
    assert (E2 : rc m2 P 1 2 0 = blue_h 0).
    { unfold m2. rewrite !PW by lia. apply rc_val.
      - rewrite upd_other by (intros E; unfold ad in E; apply sh_inj in E; lia).
        replace (ad P 1 2 0 0) with (sh P 0) by reflexivity. now rewrite upd_same.
      - replace (ad P 1 2 0 1) with (sh P 1) by reflexivity. now rewrite upd_same. }
    match goal with |- context [zfor (n - 1) ?b m2] => set (body := b) end.
    destruct (zfor_writes (n - 1) 4 body
       (fun i c => ad P 1 2 (if (c =? 0) || (c =? 2) then nb - (i + 1) else i + 1) (if c <? 2 then 0 else 1))
       (fun i c => part (if c <? 2 then 0 else 1) (blue_h (i + 1))) m2) as [Z1 Z2].
    - intros i mm Hi _. unfold body. rewrite !PW by lia. rewrite !buf_0, !buf_1. reflexivity.
    - intros i c j d Hi Hc Hj Hd E. apply (ad_inj _ _ _ nb) in E; [|apply inj2_12| | | |];
        destruct ((c =? 0) || (c =? 2)) eqn:E1, ((d =? 0) || (d =? 2)) eqn:E2', (c <? 2) eqn:E3, (d <? 2) eqn:E4; lia.
    - intros d Hd. assert (d = 0 \/ 0 < d \/ d < 0) as [->|[Hd0|Hd0]] by lia.
      + rewrite Z.mod_0_l by lia. rewrite <- E2. apply rc_frame. intros c Hc. apply Z2. intros j e Hj He E.
        apply (ad_inj _ _ _ nb) in E; [|apply inj2_12| | | |]; destruct ((e =? 0) || (e =? 2)) eqn:E1; destruct (e <? 2) eqn:E3; lia.
      + rewrite Z.mod_small by lia. apply rc_val.
        * pose proof (Z1 (d - 1) 1 ltac:(lia) ltac:(lia)) as E. cbn [Z.eqb Pos.eqb orb Z.ltb Z.compare Pos.compare Pos.compare_cont] in E. rewrite Z.sub_add in E. exact E.
        * pose proof (Z1 (d - 1) 3 ltac:(lia) ltac:(lia)) as E. cbn [Z.eqb Pos.eqb orb Z.ltb Z.compare Pos.compare Pos.compare_cont] in E. rewrite Z.sub_add in E. exact E.
      + replace (d mod nb) with (nb - (- d)) by (apply (Z.mod_unique_pos _ _ (-1)); lia).
        replace (blue_h d) with (blue_h (- d)) by (unfold blue_h; do 3 f_equal; ring). apply rc_val.
        * pose proof (Z1 (- d - 1) 0 ltac:(lia) ltac:(lia)) as E. cbn [Z.eqb Pos.eqb orb Z.ltb Z.compare Pos.compare Pos.compare_cont] in E. rewrite Z.sub_add in E. exact E.
        * pose proof (Z1 (- d - 1) 2 ltac:(lia) ltac:(lia)) as E. cbn [Z.eqb Pos.eqb orb Z.ltb Z.compare Pos.compare Pos.compare_cont] in E. rewrite Z.sub_add in E. exact E.
  Qed.

  (** the array W is the transform of some h with h(d mod nb) = w_|d| / nb *)
  Lemma blue_W_spec : exists h, (forall d, - n < d < n -> h (d mod nb) = blue_h d) /\
    forall k, 0 <= k < nb -> (blue_W n nb f m0 (2 * k), blue_W n nb f m0 (2 * k + 1)) = dft nb h k.
  Proof.
    exists (rc (blue_init n nb (0%nat, 0) m0) (0%nat, 0) 1 2). split; [apply blue_init_spec|].
    intros k Hk. unfold blue_W. rewrite buf_0, buf_1.
    destruct (run_1d nd1 true 1 1 nb 2 2 f 1%nat (0%nat, 0) (0%nat, 0) (blue_init n nb (0%nat, 0) m0)) as [V _]; auto; try apply inj2_12; try (cbn; lia).
    exact (V k Hk).
  Qed.

  Lemma blue_load_spec (nx : nat) I m : (fst I < nx)%nat ->
    let m' := blue_load di n is (nx, 0) I m in
    (forall j, 0 <= j < n -> rc m' (nx, 0) 1 2 j = (rc m I di is j * W (2 * n) (j * j)%Z)%C) /\ (forall l, fst l <> nx -> m' l = m l).
  Proof.
    intros HI. unfold blue_load. cbn zeta. match goal with |- context [zfor n ?b m] => set (body := b) end.
    destruct (zfor_writes n 2 body (fun i c => ad (nx, 0) 1 2 i c) (fun i c => part c (rc m I di is i * W (2 * n) (i * i)%Z)%C) m) as [Z1 Z2].
    - intros i mm Hi Hmm. unfold body. rewrite zfor_2, buf_0, buf_1, (ad_0 I di), ad_1. rewrite blue_w_spec by lia.
      rewrite !Hmm by (intros; now apply ad_nx). unfold part, rc. cbn [Z.eqb fst snd cmul Cplx.conj]. f_equal; [f_equal|]; ring.
    - intros i c j d Hi Hc Hj Hd E. apply (ad_inj _ _ _ n) in E; auto. apply inj2_12.
    - split.
      + intros j Hj. apply rc_val; rewrite Z1 by lia; reflexivity.
      + intros l Hl. apply Z2. intros j c _ _ E. apply (f_equal fst) in E. cbn in E. lia.
  Qed.
  Lemma blue_pad_spec (P : loc) m :
    let m' := blue_pad n nb P m in
    (forall j, n <= j < nb -> rc m' P 1 2 j = C0) /\ (forall j, 0 <= j < n -> rc m' P 1 2 j = rc m P 1 2 j) /\
    (forall l, fst l <> fst P -> m' l = m l).
  Proof.
    unfold blue_pad. cbn zeta. match goal with |- context [zfor (nb - n) ?b m] => set (body := b) end.
    destruct (zfor_writes (nb - n) 2 body (fun i c => ad P 1 2 (n + i) (1 - c)) (fun i c => 0%R) m) as [Z1 Z2].
    - intros i mm Hi Hmm. unfold body. rewrite zfor_2, buf_0, buf_1. reflexivity.
    - intros i c j d Hi Hc Hj Hd E. apply (ad_inj _ _ _ nb) in E; auto; try lia. apply inj2_12.
    - split; [|split].
      + intros j Hj. replace j with (n + (j - n)) by ring. pose proof (Z1 (j - n) 0 ltac:(lia) ltac:(lia)). pose proof (Z1 (j - n) 1 ltac:(lia) ltac:(lia)).
        apply rc_val; auto.
      + intros j Hj. apply rc_frame. intros c Hc. apply Z2. intros i d Hi Hd E. apply (ad_inj _ _ _ nb) in E; try lia. apply inj2_12.
      + intros l Hl. apply Z2. intros j c _ _ E. apply (f_equal fst) in E. cbn in E. lia.
  Qed.
  Lemma blue_mult_spec (P : loc) Wt m :
    let m' := blue_mult nb Wt P m in
    (forall j, 0 <= j < nb -> rc m' P 1 2 j = swapc (rc m P 1 2 j * (Wt (2 * j)%Z, Wt (2 * j + 1)%Z))%C) /\
    (forall l, fst l <> fst P -> m' l = m l).
  Proof.
    unfold blue_mult. cbn zeta. match goal with |- context [zfor nb ?b m] => set (body := b) end.
    destruct (zfor_writes nb 2 body (fun i c => ad P 1 2 i c) (fun i c => part c (swapc (rc m P 1 2 i * (Wt (2 * i)%Z, Wt (2 * i + 1)%Z))%C)) m) as [Z1 Z2].
    - intros i mm Hi Hmm. unfold body. rewrite zfor_2. rewrite buf_0, buf_1.
      rewrite !Hmm by (intros j c Hj Hc E; apply (ad_inj _ _ _ nb) in E; auto; try lia; apply inj2_12).
      unfold part, rc. cbn [Z.eqb fst snd cmul swapc]. f_equal; f_equal; ring.
    - intros i c j d Hi Hc Hj Hd E. apply (ad_inj _ _ _ nb) in E; auto; try lia. apply inj2_12.
    - split.
      + intros j Hj. apply rc_val; rewrite Z1 by lia; reflexivity.
      + intros l Hl. apply Z2. intros j c _ _ E. apply (f_equal fst) in E. cbn in E. lia.
  Qed.
  Lemma blue_store_spec (nx : nat) O m : (fst O < nx)%nat -> inj2 do_ n os ->
    let m' := blue_store do_ n os (nx, 0) O m in
    (forall j, 0 <= j < n -> rc m' O do_ os j = (swapc (rc m (nx, 0) 1 2 j) * W (2 * n) (j * j)%Z)%C) /\
    (forall l, (forall k c, 0 <= k < n -> 0 <= c < 2 -> l <> ad O do_ os k c) -> m' l = m l).
  Proof.
    intros HO NO. unfold blue_store. cbn zeta. match goal with |- context [zfor n ?b m] => set (body := b) end.
    destruct (zfor_writes n 2 body (fun i c => ad O do_ os i c) (fun i c => part c (swapc (rc m (nx, 0) 1 2 i) * W (2 * n) (i * i)%Z)%C) m) as [Z1 Z2].
    - intros i mm Hi Hmm. unfold body. rewrite zfor_2, buf_0, buf_1, (ad_0 O do_), ad_1. rewrite blue_w_spec by lia.
      rewrite !Hmm by (intros j c Hj Hc E; symmetry in E; revert E; now apply ad_nx).
      unfold part, rc. cbn [Z.eqb fst snd cmul Cplx.conj swapc]. f_equal; [f_equal|]; ring.
    - intros i c j d Hi Hc Hj Hd E. apply (ad_inj _ _ _ n) in E; auto.
    - split; [|exact Z2]. intros j Hj. apply rc_val; rewrite Z1 by lia; reflexivity.
  Qed.

  Lemma bluestein_correct nd ip : Correct nd ip (cx di do_ [mkdim n is os]) [] (blue_apply di do_ n nb is os (blue_W n nb f m0) f).
  Proof.
    apply prove_1d. intros nx I O m HI HO NI NO. unfold blue_apply. cbn zeta. set (x := rc m I di is).
    destruct (blue_load_spec nx I m HI) as [V1 F1]. cbn zeta in V1, F1. set (m1 := blue_load di n is (nx, 0) I m) in *. clearbody m1. fold x in V1.
    destruct (blue_pad_spec (nx, 0) m1) as (V2 & K2 & F2). cbn zeta in V2, K2, F2. set (m2 := blue_pad n nb (nx, 0) m1) in *. clearbody m2.
    assert (RUN : forall mm, let m' := f (S nx) (nx, 0) (nx, 0) mm in
      (forall k, 0 <= k < nb -> rc m' (nx, 0) 1 2 k = dft nb (rc mm (nx, 0) 1 2) k) /\ (forall l, (fst l < nx)%nat -> m' l = mm l)).
    { intros mm. destruct (run_1d nd1 true 1 1 nb 2 2 f (S nx) (nx, 0) (nx, 0) mm) as [V F]; auto; try apply inj2_12; try (cbn; lia).
      split; [exact V|]. intros l Hl. apply F; [lia| |]; intros k c _ _ E; apply (f_equal fst) in E; cbn in E; lia. }
    destruct (RUN m2) as [V3 F3]. set (m3 := f (S nx) (nx, 0) (nx, 0) m2) in *. clearbody m3. cbn zeta in V3, F3.
    destruct (blue_mult_spec (nx, 0) (blue_W n nb f m0) m3) as [V4 F4]. cbn zeta in V4, F4. set (m4 := blue_mult nb (blue_W n nb f m0) (nx, 0) m3) in *. clearbody m4.
    destruct (RUN m4) as [V5 F5]. set (m5 := f (S nx) (nx, 0) (nx, 0) m4) in *. clearbody m5. cbn zeta in V5, F5.
    destruct (blue_store_spec nx O m5 HO NO) as [V6 F6]. cbn zeta in V6, F6. set (m6 := blue_store do_ n os (nx, 0) O m5) in *. clearbody m6.
    destruct blue_W_spec as (h & Hh & VW). split.
    - intros k Hk. change (Csum n (fun j => x j * W n (j * k)%Z)%C) with (dft n x k). rewrite V6 by auto.
      rewrite (blue_math n nb x (rc m2 (nx, 0) 1 2) h k); auto.
      + f_equal. f_equal. rewrite V5 by lia. apply dft_ext. intros j Hj. rewrite V4, VW, V3 by auto. reflexivity.
      + intros j Hj. rewrite K2 by auto. now apply V1.
    - intros l Hl Ho. rewrite F6 by auto. rewrite F5 by auto. rewrite F4 by (cbn; lia). rewrite F3 by auto. rewrite F2 by (cbn; lia). apply F1. lia.
  Qed.
End Bluestein.
