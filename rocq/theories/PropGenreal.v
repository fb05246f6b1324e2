(** * C46: the codelets of genfft compute the documented transforms *)
From Coq Require Import Reals ZArith List Lia Lra Bool.
From Verif Require Import NumTheory Cplx SpecR2R RSum RMath HcMath Offs GenExpr GenCplx GenFft GenNum GenMain GenTrig GenTrigProofs GenTrigRk PropGenfft.
Import ListNotations.
Open Scope Z_scope.

(** ** Specification *)
(** the variables of a real codelet (array elements, twiddle factors) hold real numbers *)
Definition real_env (x : variable -> R) : variable -> C := fun v => RtoC (x v).
(** what a store expression stores, and where *)
Definition stored (x : variable -> R) (e : expr) : option (variable * C) :=
  match e with EStore v a => Some (v, eval (real_env x) a) | _ => None end.
(** [dag] succeeds and is a list of stores of the given values to the given variables *)
Definition computes (dag : option (list expr)) (x : variable -> R) (l : list (variable * R)) : Prop :=
  exists d, dag = Some d /\ map (stored x) d = map (fun p => Some (fst p, RtoC (snd p))) l.

(** ** Library *)
Lemma omapM_rel {A B D} (f : A -> option B) (h : B -> D) (g : A -> D) l :
  (forall i, In i l -> exists b, f i = Some b /\ h b = g i) -> exists bs, omapM f l = Some bs /\ map h bs = map g l.
Proof.
  induction l as [|a l IH]; intros H; [exists []; auto|].
  destruct (H a (or_introl eq_refl)) as (b & E1 & E2). destruct IH as (bs & E3 & E4); [intros; apply H; now right|].
  exists (b :: bs). cbn. rewrite E1, E3, E2, E4. auto.
Qed.
Lemma store2_eq (v w : variable) (a a' b b' : R) : a = a' -> b = b' ->
  [Some (v, RtoC a); Some (w, RtoC b)] = [Some (v, RtoC a'); Some (w, RtoC b')].
Proof. now intros <- <-. Qed.
Lemma store1_eq (v : variable) (a a' : R) : a = a' -> [Some (v, RtoC a)] = [Some (v, RtoC a')].
Proof. now intros <-. Qed.
Lemma interval_zr n : interval 0 n = zr n.
Proof. unfold interval, zr. now rewrite Z.sub_0_r. Qed.

Section Gen.
  Variable x : variable -> R.
  Notation env := (real_env x).

  Lemma store_r_ok n dst src v : (forall k, 0 <= k < n -> exists b, denr env (src k) (v k) b) ->
    computes (store_array_r n dst src) x (map (fun k => (fst (dst k), v k)) (zr n)).
  Proof.
    intros H. unfold store_array_r, computes. rewrite interval_zr.
    destruct (omapM_rel (fun i => option_map (store_r (dst i)) (src i)) (stored x)
      (fun k => Some (fst (dst k), RtoC (v k))) (zr n)) as (bs & E1 & E2).
    - intros i Hi. apply in_zr in Hi. destruct (H i Hi) as (b & c & -> & E1 & _). eexists. split; [reflexivity|]. cbn. now rewrite E1.
    - exists bs. split; auto. rewrite E2, map_map. reflexivity.
  Qed.
  Lemma store_cat n (f : Z -> option (list expr)) (g : Z -> list (variable * R)) :
    (forall k, 0 <= k < n -> exists l, f k = Some l /\ map (stored x) l = map (fun p => Some (fst p, RtoC (snd p))) (g k)) ->
    computes (option_map (@concat expr) (omapM f (interval 0 n))) x (flat_map g (zr n)).
  Proof.
    intros H. unfold computes. rewrite interval_zr.
    destruct (omapM_rel f (map (stored x)) (fun k => map (fun p => Some (fst p, RtoC (snd p))) (g k)) (zr n)) as (bs & E1 & E2).
    - intros i Hi. apply in_zr in Hi. auto.
    - exists (concat bs). rewrite E1. split; [reflexivity|]. rewrite concat_map, E2, flat_map_concat_map, concat_map, map_map. reflexivity.
  Qed.
  Lemma load_c_ok n inp j : 0 <= j < n -> denr env (load_array_c n inp j) (x (fst (inp j))) (x (snd (inp j))).
  Proof. intros H. unfold load_array_c. rewrite array_in by auto. eexists. split; [reflexivity|]. split; reflexivity. Qed.
  Lemma load_r_ok n inp j : 0 <= j < n -> denr env (load_array_r n inp j) (x (fst (inp j))) 0.
  Proof. intros H. unfold load_array_r. rewrite array_in by auto. eexists. split; [reflexivity|]. split; reflexivity. Qed.
End Gen.

(** ** gen_notw: the real and imaginary parts of the DFT are stored *)
Theorem C46_notw pheq M x sign n inp oloc : sound_eq pheq -> magic_ok M -> sign = 1 \/ sign = -1 ->
  let X := fun j => (x (fst (inp j)), x (snd (inp j))) in
  computes (gen_notw pheq M sign n inp oloc) x
    (flat_map (fun k => [(fst (oloc k), fst (dft_sum sign n X k)); (snd (oloc k), snd (dft_sum sign n X k))]) (zr n)).
Proof.
  intros Hp HM Hs X. unfold gen_notw, store_array_c. apply store_cat. intros k Hk.
  destruct (denr_fft pheq M (real_env x) Hp HM sign n (load_array_c n inp) (fun j => x (fst (inp j))) (fun j => x (snd (inp j))) k Hs) as (c & -> & E1 & E2); auto.
  { intros j Hj. apply load_c_ok. auto. }
  eexists. split; [reflexivity|]. cbn [map stored store_c fst snd]. rewrite E1, E2.
  unfold dft_sum. rewrite Csum_fst, Csum_snd.
  apply store2_eq; apply Rsum_ext; intros j Hj; unfold X, cis, cmul; cbn [fst snd];
    replace (2 * PI * IZR (sign * j * k) / IZR n)%R with (IZR sign * ang n (j * k))%R by
      (unfold ang; rewrite !mult_IZR; field; apply not_0_IZR; lia);
    unfold cs, sn; destruct Hs as [->| ->];
    rewrite ?Rmult_1_l; try (replace (-1 * ang n (j * k))%R with (- ang n (j * k))%R by ring; rewrite cos_neg, sin_neg); ring.
Qed.

(** ** gen_r2cf: inputs 2i in [even i], 2i+1 in [odd i]; the real parts of outputs 0..n/2 and the
    imaginary parts of outputs 0..(n-1)/2.  The imaginary part of output 0 is the constant 0. *)
Definition eo_at (even odd : Z -> variable * variable) (j : Z) : variable :=
  if Z.even j then fst (even (j / 2)) else fst (odd (j / 2)).
Lemma eo_eq e o j : 0 <= j -> fst (eo e o j) = eo_at e o j.
Proof.
  intros Hj. unfold eo, eo_at. rewrite omod_pos by lia. rewrite Zmod_even. destruct (Z.even j) eqn:E; cbn [Z.eqb].
  - rewrite odiv_pos by lia. reflexivity.
  - assert (O : Z.odd j = true) by (rewrite <- Z.negb_even, E; reflexivity). apply Z.odd_spec in O as (h & ->).
    replace (2 * h + 1 - 1) with (h * 2) by ring. rewrite odiv_pos by lia. rewrite Z.div_mul by lia.
    replace ((2 * h + 1) / 2) with h by (apply Z.div_unique with 1; lia). reflexivity.
Qed.
Theorem C46_r2cf pheq M x n even odd oloc : sound_eq pheq -> magic_ok M -> 0 < n ->
  let X := fun j => x (eo_at even odd j) in
  computes (gen_r2cf pheq M false (-1) n even odd oloc) x
    (flat_map (fun k =>
      if 2 * k <? n then [(fst (oloc k), Rsum n (fun j => X j * rk R2HC n j k)%R);
                          (snd (oloc k), if k =? 0 then 0%R else Rsum n (fun j => X j * rk R2HC n j (n - k))%R)]
      else if 2 * k =? n then [(fst (oloc k), Rsum n (fun j => X j * rk R2HC n j k)%R)]
      else []) (zr n)).
Proof.
  intros Hp HM Hn X. unfold gen_r2cf, store_array_hc. apply store_cat. intros k Hk.
  assert (H := rdft_ok pheq M (real_env x) Hp HM n (load_array_r n (eo even odd)) X (fun _ => 0%R)
     (fun j Hj => denr_eq _ _ _ _ _ _ (load_r_ok x n (eo even odd) j Hj) (f_equal x (eo_eq even odd j (proj1 Hj))) eq_refl)
     (-1) k (or_intror eq_refl) Hk).
  destruct H as (c & E & E1 & E2). cbn [negb].
  destruct (Z.ltb_spec k (n - k)) as [L|L].
  - rewrite E. destruct (Z.ltb_spec (2 * k) n); [|lia]. eexists. split; [reflexivity|]. cbn [map stored store_c fst snd]. rewrite E1, E2.
    apply store2_eq.
    + apply Rsum_ext. intros j Hj. rewrite rk_r2hc_re by lia. reflexivity.
    + destruct (Z.eqb_spec k 0) as [->|N].
      * rewrite Rsum_zero; [ring|]. intros j Hj. rewrite Z.mul_0_r, sn_0. ring.
      * rewrite <- Rsum_mul_l. apply Rsum_ext. intros j Hj. rewrite rk_r2hc_im by lia. replace (n - (n - k)) with k by ring. ring.
  - destruct (Z.ltb_spec (2 * k) n); [lia|]. destruct (Z.gtb_spec k (n - k)) as [G|G].
    + destruct (Z.eqb_spec (2 * k) n); [lia|]. exists []. auto.
    + destruct (Z.eqb_spec (2 * k) n); [|lia]. rewrite E. eexists. split; [reflexivity|]. cbn -[rk Rsum]. rewrite E1.
      apply store1_eq. apply Rsum_ext. intros j Hj. rewrite rk_r2hc_re by lia. reflexivity.
Qed.
(** gen_r2cf -dft-II: outputs at k + 1/2; the remaining slots of the halfcomplex array get the
    constant 0 *)
Theorem C46_r2cfII pheq M x n even odd oloc : sound_eq pheq -> magic_ok M -> 0 < n ->
  let X := fun j => x (eo_at even odd j) in
  computes (gen_r2cf pheq M true (-1) n even odd oloc) x
    (flat_map (fun k =>
      if 2 * k <? n then [(fst (oloc k), Rsum n (fun j => X j * rk R2HCII n j k)%R);
                          (snd (oloc k), if 2 * k =? n - 1 then
0%R
                           else Rsum n (fun j => X j * rk R2HCII n j (n - 1 - k))%R)]
      else if 2 * k =? n then [(fst (oloc k), 0%R)]
      else []) (zr n)).
Proof.
  intros Hp HM Hn X. unfold gen_r2cf, store_array_hc. apply store_cat. intros k Hk.
  destruct (Z.ltb_spec k (n - k)) as [L|L].
  - assert (H := rdftII_ok pheq M (real_env x) Hp HM (-1) n (load_array_r n (eo even odd)) X k (or_intror eq_refl) Hn
     (fun j Hj => denr_eq _ _ _ _ _ _ (load_r_ok x n (eo even odd) j Hj) (f_equal x (eo_eq even odd j (proj1 Hj))) eq_refl)
     ltac:(lia) ltac:(lia)).
    destruct H as (c & -> & E1 & E2).
    destruct (Z.ltb_spec (2 * k) n); [|lia]. eexists. split; [reflexivity|]. cbn [map stored store_c fst snd]. rewrite E1, E2. apply store2_eq.
    + apply Rsum_ext. intros j Hj. rewrite rk_r2hcii_re by lia. reflexivity.
    + destruct (Z.eqb_spec (2 * k) (n - 1)) as [E|N].
      * rewrite Rsum_zero; [ring|]. intros j Hj. replace (2 * k + 1) with n by lia.
        rewrite <- (Z.mul_1_l n) at 1. rewrite Z.mul_assoc, (Z.mul_comm (2 * 1) n), sn_scale by lia.
        change (2 * 1) with 2. rewrite sn_2. ring.
      * rewrite <- Rsum_mul_l. apply Rsum_ext. intros j Hj. rewrite rk_r2hcii_im by lia.
        replace (n - 1 - (n - 1 - k)) with k by ring. ring.
  - destruct (Z.ltb_spec (2 * k) n); [lia|]. destruct (Z.gtb_spec k (n - k)) as [G|G].
    + destruct (Z.eqb_spec (2 * k) n); [lia|]. exists []. auto.
    + destruct (Z.eqb_spec (2 * k) n); [|lia]. unfold rdftII. destruct (Z.ltb_spec k (n - k)); [lia|].
      destruct (Z.eqb_spec (2 * k + 1) n); [lia|]. eexists. split; [reflexivity|]. reflexivity.
Qed.

(** ** gen_r2cb: from the real parts of inputs 0..n/2 and the imaginary parts of inputs 1..(n-1)/2 *)
Definition hc_of (x : variable -> R) (n : Z) (inp : Z -> variable * variable) (j : Z) : R :=
  if 2 * j <=? n then x (fst (inp j)) else x (snd (inp (n - j))).
Definition hc3_of (x : variable -> R) (n : Z) (inp : Z -> variable * variable) (j : Z) : R :=
  if 2 * j <=? n - 1 then x (fst (inp j)) else x (snd (inp (n - 1 - j))).
Lemma load_hc_ok pheq M x n inp j : 0 <= j < n -> 2 * j <= n ->
  denr (real_env x) (load_array_hc pheq M n inp j) (x (fst (inp j))) (if 2 * j =? n then 0 else x (snd (inp j))).
Proof.
  intros H1 H2. unfold load_array_hc. rewrite array_in by auto.
  destruct (Z.ltb_spec j (n - j)).
  - destruct (Z.eqb_spec (2 * j) n); [lia|]. eexists. split; [reflexivity|]. split; reflexivity.
  - destruct (Z.gtb_spec j (n - j)); [lia|]. destruct (Z.eqb_spec (2 * j) n); [|lia]. eexists. split; [reflexivity|]. split; reflexivity.
Qed.
Lemma eo_map n e o (v : Z -> R) : map (fun k => (fst (eo e o k), v k)) (zr n) = map (fun k => (eo_at e o k, v k)) (zr n).
Proof. apply map_ext_in. intros k Hk. apply in_zr in Hk. rewrite eo_eq by lia. reflexivity. Qed.
Theorem C46_r2cb pheq M x n inp even odd : sound_eq pheq -> magic_ok M -> 0 < n ->
  computes (gen_r2cb pheq M false 1 n inp even odd) x
    (map (fun k => (eo_at even odd k, Rsum n (fun j => hc_of x n inp j * rk HC2R n j k)%R)) (zr n)).
Proof.
  intros Hp HM Hn. unfold gen_r2cb. rewrite <- eo_map. apply store_r_ok. intros k Hk.
  destruct (hdft_ok pheq M (real_env x) Hp HM n (load_array_hc pheq M n inp) (fun j => x (fst (inp j)))
    (fun j => if 2 * j =? n then 0%R else x (snd (inp j))) k Hn) as (z & H); auto.
  { intros j H1 H2. apply load_hc_ok; lia. }
  exists z. eapply denr_eq; [exact H| |reflexivity]. apply Rsum_ext. intros j Hj. f_equal. unfold hc_arr, hc_of.
  destruct (Z.leb_spec (2 * j) n); [reflexivity|]. destruct (Z.eqb_spec (2 * (n - j)) n); [lia|reflexivity].
Qed.
Theorem C46_r2cbIII pheq M x n inp even odd : sound_eq pheq -> magic_ok M -> 0 < n ->
  computes (gen_r2cb pheq M true 1 n inp even odd) x
    (map (fun k => (eo_at even odd k, Rsum n (fun j => hc3_of x n inp j * rk HC2RIII n j k)%R)) (zr n)).
Proof.
  intros Hp HM Hn. unfold gen_r2cb. rewrite <- eo_map. apply store_r_ok. intros k Hk.
  destruct (hcdftIII_ok pheq M (real_env x) Hp HM n (load_array_hc pheq M n inp) (fun j => x (fst (inp j)))
    (fun j => if 2 * j =? n then 0%R else x (snd (inp j))) k Hn) as (z & H); auto.
  { intros j H1 H2. apply load_hc_ok; lia. }
  exists z. eapply denr_eq; [exact H| |reflexivity]. apply Rsum_ext. intros j Hj. f_equal. unfold hc3_arr, hc3_of.
  destruct (Z.leb_spec (2 * j) (n - 1)); [reflexivity|]. destruct (Z.eqb_spec (2 * (n - 1 - j)) n); [lia|reflexivity].
Qed.

(** ** gen_r2r: the discrete Hartley, cosine and sine transforms *)
Definition r2r_kind (kd : rkind) : bool :=
  match kd with R2HC | HC2R | R2HCII | HC2RIII => false | _ => true end.
Theorem C46_r2r pheq M x kd normsqr n inp oloc : sound_eq pheq -> magic_ok M -> r2r_kind kd = true ->
  match kd with REDFT00 => 1 < n | _ => 0 < n end -> 0 < normsqr ->
  computes (gen_r2r pheq M kd false normsqr n inp oloc) x
    (map (fun k => (fst (oloc k), (1 / sqrt (IZR normsqr) * Rsum n (fun j => x (fst (inp j)) * rk kd n j k))%R)) (zr n)).
Proof.
  intros Hp HM Hkd Hn _. assert (Hn0 : 0 < n) by (destruct kd; lia).
  assert (HR : forall sc a b s i, rescale pheq M false sc a b s i = s i).
  { intros sc a b s i. unfold rescale. now rewrite andb_false_r. }
  assert (HI : forall sc a b j, 0 <= j < n -> denr (real_env x) (rescale pheq M false sc a b (load_array_c n inp) j) (x (fst (inp j))) (x (snd (inp j)))).
  { intros. rewrite HR. apply load_c_ok. auto. }
  assert (HO : forall tr si so si1 si2 so1 so2 , 
    (forall k, 0 <= k < n -> exists z, denr (real_env x) (tr n (rescale pheq M false si si1 si2 (load_array_c n inp)) k) (Rsum n (fun j => x (fst (inp j)) * rk kd n j k)%R) z) ->
    computes (store_array_r n oloc (rescale pheq M false so so1 so2 (fun i => o1 (ztimes pheq M (inverse_int_sqrt normsqr))
             (tr n (rescale pheq M false si si1 si2 (load_array_c n inp)) i)))) x
     (map (fun k => (fst (oloc k), (1 / sqrt (IZR normsqr) * Rsum n (fun j => x (fst (inp j)) * rk kd n j k))%R)) (zr n))).
  { intros tr si so si1 si2 so1 so2 H. apply store_r_ok. intros k Hk. rewrite HR. destruct (H k Hk) as (z & Hz).
    eexists. eapply denr_times1; [exact Hp| | |exact Hz]; reflexivity. }
  unfold gen_r2r, r2r_mode. destruct kd; try discriminate; apply HO; intros k Hk.
  - exists 0%R. apply (dht_ok pheq M (real_env x) Hp HM n _ (fun j => x (fst (inp j))) (fun j => x (snd (inp j)))); auto.
  - apply (dctI_ok pheq M (real_env x) Hp HM n _ (fun j => x (fst (inp j))) (fun j => x (snd (inp j)))); auto.
  - apply (dctIII_ok pheq M (real_env x) Hp HM n _ (fun j => x (fst (inp j))) (fun j => x (snd (inp j)))); auto.
  - apply (dctII_ok pheq M (real_env x) Hp HM n _ (fun j => x (fst (inp j))) (fun j => x (snd (inp j)))); auto.
  - apply (dctIV_ok pheq M (real_env x) Hp HM n _ (fun j => x (fst (inp j))) (fun j => x (snd (inp j)))); auto.
  - exists 0%R. apply (dstI_ok pheq M (real_env x) Hp HM n _ (fun j => x (fst (inp j))) (fun j => x (snd (inp j)))); auto.
  - exists 0%R. apply (dstIII_ok pheq M (real_env x) Hp HM n _ (fun j => x (fst (inp j))) (fun j => x (snd (inp j)))); auto.
  - exists 0%R. apply (dstII_ok pheq M (real_env x) Hp HM n _ (fun j => x (fst (inp j))) (fun j => x (snd (inp j)))); auto.
  - exists 0%R. apply (dstIV_ok pheq M (real_env x) Hp HM n _ (fun j => x (fst (inp j))) (fun j => x (snd (inp j)))); auto.
Qed.

(** ** The hypotheses are met *)
Definition ex_in (j : Z) : variable * variable := (Locative (2 * j) 0 j, Locative (2 * j + 1) 1 j).
Definition ex_out (j : Z) : variable * variable := (Locative (2 * j) 2 j, Locative (2 * j + 1) 3 j).
(** every input holds 1 *)
Definition ones : variable -> R := fun _ => 1%R.
(** a size-2 real DFT of (1, 1) stores 2 and 0 *)
Example C46_r2cf_2 : computes (gen_r2cf pheq0 magic_default false (-1) 2 ex_in ex_in ex_out) ones
  [(fst (ex_out 0), 2%R); (snd (ex_out 0), 0%R); (fst (ex_out 1), 0%R)].
Proof.
  destruct (C46_r2cf pheq0 magic_default ones 2 ex_in ex_in ex_out pheq0_sound magic_default_ok ltac:(lia)) as (d & E & V).
  exists d. split; [exact E|]. rewrite V. change (zr 2) with [0; 1]. cbn [flat_map].
  change (2 * 0 <? 2) with true. change (0 =? 0) with true. change (2 * 1 <? 2) with false. change (2 * 1 =? 2) with true.
  cbn [app map fst snd].
  rewrite (Rsum_ext 2 (fun j => ones (eo_at ex_in ex_in j) * rk R2HC 2 j 0)%R (fun _ => 1%R)).
  2: { intros j Hj. unfold ones. rewrite Rmult_1_l. rewrite rk_r2hc_re by lia. rewrite Z.mul_0_r. apply cs_0. }
  rewrite (Rsum_ext 2 (fun j => ones (eo_at ex_in ex_in j) * rk R2HC 2 j 1)%R (fun j => if j =? 0 then 1%R else (-1)%R)).
  2: { intros j Hj. unfold ones. rewrite Rmult_1_l. rewrite rk_r2hc_re by lia. rewrite Z.mul_1_r. assert (j = 0 \/ j = 1) as [->| ->] by lia; [apply cs_0|].
       unfold cs, ang. replace (2 * PI * 1 / 2)%R with PI by field. apply cos_PI. }
  unfold Rsum. change (Z.to_nat 2) with 2%nat. repeat f_equal; cbn; ring.
Qed.
(** the type-II cosine transform of size 1 doubles its input *)
Example C46_redft10_1 x : computes (gen_r2r pheq0 magic_other REDFT10 false 1 1 ex_in ex_out) x [(fst (ex_out 0), 2 * x (fst (ex_in 0)))%R].
Proof.
  destruct (C46_r2r pheq0 magic_other x REDFT10 1 1 ex_in ex_out pheq0_sound magic_other_ok eq_refl ltac:(reflexivity) ltac:(reflexivity)) as (d & E & V).
  exists d. split; [exact E|]. rewrite V. change (zr 1) with [0]. cbn [map fst snd]. apply store1_eq.
  rewrite sqrt_1. unfold Rsum. change (Z.to_nat 1) with 1%nat. cbn [nrsum]. change (Z.of_nat 0) with 0.
  unfold rk. replace (PI * (0 + / 2) * 0 / 1)%R with 0%R by field. rewrite cos_0. field.
Qed.

Print Assumptions C46_notw.
Print Assumptions C46_r2cf.
Print Assumptions C46_r2cfII.
Print Assumptions C46_r2cb.
Print Assumptions C46_r2cbIII.
Print Assumptions C46_r2r.
