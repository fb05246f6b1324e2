(** * C47: the twiddle codelets of genfft compute the twiddled butterflies, with the twiddle
    tables that the library computes from the codelet's own instructions *)
From Coq Require Import Reals ZArith List Lia Lra Bool.
From Verif Require Import NumTheory Cplx SpecR2R RSum RMath Offs Base TrigModel PropTrig TwModel PropTwiddle DftModel HcModel GenExpr GenCplx GenFft GenNum GenMain GenTrig GenTrigProofs PropGenfft PropGenreal GenTwid GenTwidProofs.
Import ListNotations.
Open Scope Z_scope.

(** ** Specification *)
(** exp(2 pi i a/b) *)
Definition E2 (a b : Z) : C := cis (2 * PI * (IZR a / IZR b)).
(** the radix-r butterfly j of a DFT of size r*m and the given sign: a DFT of size r of inputs
    multiplied by twiddle factors (decimation in time), or whose outputs are (in frequency) *)
Definition butterfly (dit : bool) (sign r m j : Z) (X : Z -> C) (k : Z) : C :=
  if dit then Csum r (fun i => X i * E2 (sign * (i * j)) (r * m) * E2 (sign * (i * k)) r)%C
  else (Csum r (fun i => X i * E2 (sign * (i * k)) r) * E2 (sign * (k * j)) (r * m))%C.
(** the constants W[0], W[1], ... of the codelet hold the row for index j of the twiddle table
    that kernel/twiddle.c makes (C32) from the instructions [desc], for a transform of size N *)
Definition table_row (x : variable -> R) (N r j : Z) (desc : list tw_instr) : Prop :=
  let row := tw_block (root N) r j desc in
  forall c o, (o < length row)%nat -> x (Constant c (Z.of_nat o)) = nth o row 0%R.
(** complex results at consecutive places *)
Definition at_places (n : Z) (oloc : Z -> variable * variable) (Y : Z -> C) : list (variable * R) :=
  flat_map (fun k => [(fst (oloc k), fst (Y k)); (snd (oloc k), snd (Y k))]) (zr n).
(** complex inputs *)
Definition in_places (x : variable -> R) (iloc : Z -> variable * variable) (j : Z) : C := (x (fst (iloc j)), x (snd (iloc j))).
(** the sizes for which a policy works *)
Definition pol_size (p : policy) (n : Z) : Prop := match p with LOG3 => 2 <= n | _ => 1 <= n end.

(** ** Tables *)
Lemma block_exps E r j v desc : Forall (fun a => op a <> TW_NEXT /\ op a <> TW_COS /\ op a <> TW_SIN /\ op a <> TW_HALF /\ iv a = v /\ (op a = TW_FULL -> ii a = r) /\
     (op a = TW_CEXP -> 0 < ii a < r \/ r = 1)) desc ->
  tw_block E r j (desc ++ [mkin TW_NEXT 1 0]) = pairs (map (fun e => E ((j + v) * e)) (row_exps r desc)).
Proof.
  induction 1 as [|a d H F IH]; [reflexivity|]. destruct H as (N1 & N2 & N3 & N4 & Ev & _). cbn [tw_block app row_exps flat_map].
  rewrite map_app. unfold pairs. rewrite flat_map_app. fold (pairs (map (fun e => E ((j + v) * e)) (row_exps r d))).
  destruct (op a); try congruence; rewrite IH.
  - unfold row_exps. cbn [map]. rewrite Ev. reflexivity.
  - f_equal. rewrite map_map, Ev. unfold pairs. apply f_equal. apply map_ext. intros i. f_equal. ring.
Qed.
Lemma pairs_nth (l : list C) i z : nth_error l i = Some z ->
  (2 * i + 1 < length (pairs l))%nat /\ nth (2 * i) (pairs l) 0%R = fst z /\ nth (2 * i + 1) (pairs l) 0%R = snd z.
Proof.
  revert i. induction l as [|a l IH]; intros [|i] H; try discriminate.
  - cbn in H. injection H as ->. cbn. split; [lia|auto].
  - cbn in H. destruct (IH i H) as (H1 & H2 & H3). unfold pairs. cbn [flat_map app length].
    replace (2 * S i)%nat with (S (S (2 * i))) by lia. cbn [Nat.add nth]. fold (pairs l). split; [cbn; lia|auto].
Qed.
Lemma pairs_len (l : list C) : length (pairs l) = (2 * length l)%nat.
Proof. induction l; cbn; auto. fold (pairs l). lia. Qed.

(** the row of the table gives the values of the twiddle factors *)
Lemma row_values x p v n N j desc : 1 <= n -> twdesc p v n = Some desc -> table_row x N n j desc ->
  exists body, twidlen p n = Some (2 * Z.of_nat (length (row_exps n body))) /\ pol_exps p n (row_exps n body) /\
  forall c l e, 0 <= l -> nth_error (row_exps n body) (Z.to_nat l) = Some e ->
    x (Constant c (2 * l)) = cos (2 * PI * (IZR (j + v) / IZR N) * IZR e) /\
    x (Constant c (2 * l + 1)) = sin (2 * PI * (IZR (j + v) / IZR N) * IZR e).
Proof.
  intros Hn Hd Hr. destruct (policy_desc p v n Hn) as (body & E1 & E2' & E3 & F). rewrite E1 in Hd. injection Hd as <-.
  exists body. split; auto. split; auto. intros c l e Hl He. unfold table_row in Hr. rewrite (block_exps _ _ _ v) in Hr by auto.
  set (row := map (fun e => root N ((j + v) * e)) (row_exps n body)) in *.
  assert (He' : nth_error row (Z.to_nat l) = Some (root N ((j + v) * e))) by (unfold row; now apply (map_nth_error (fun e => root N ((j + v) * e)))).
  destruct (pairs_nth _ _ _ He') as (H1 & H2 & H3).
  replace (2 * l) with (Z.of_nat (2 * Z.to_nat l)) by lia. replace (Z.of_nat (2 * Z.to_nat l) + 1) with (Z.of_nat (2 * Z.to_nat l + 1)) by lia.
  rewrite !Hr by lia. rewrite H2, H3. unfold root, cis. cbn [fst snd]. rewrite mult_IZR.
  replace (2 * PI * (IZR (j + v) * IZR e / IZR N))%R with (2 * PI * (IZR (j + v) / IZR N) * IZR e)%R by (unfold Rdiv; ring). auto.
Qed.

(** C47 (the instructions): for every policy and size the instructions exist, and kernel/twiddle.c
    computes for them rows of exactly the length by which the codelet advances its pointer W. *)
Theorem C47_row_length p v n : 1 <= n -> exists desc nt,
  twdesc p v n = Some desc /\ twidlen p n = Some nt /\ twlen0 n desc = Ret (nt, 1) /\
  forall E j, Z.of_nat (length (tw_block E n j desc)) = nt.
Proof.
  intros Hn. destruct (policy_desc p v n Hn) as (body & E1 & E2' & E3 & F).
  exists (body ++ [mkin TW_NEXT 1 0]), (2 * Z.of_nat (length (row_exps n body))). split; auto. split; auto. split.
  - unfold twlen0. destruct (Z.ltb_spec 0 n); [|lia]. cbn [assert_ bind].
    assert (G : forall a, twlen0_loop n (body ++ [mkin TW_NEXT 1 0]) a = Ret (a + 2 * Z.of_nat (length (row_exps n body)), 1)).
    { clear E1 E2' E3. induction F as [|b d Hb F IH]; intros a.
      - cbn. do 2 f_equal. lia.
      - destruct Hb as (N1 & N2 & N3 & N4 & _). cbn [app twlen0_loop row_exps flat_map]. destruct (op b); try congruence; rewrite IH; rewrite app_length.
        + cbn [length]. fold (row_exps n d). do 2 f_equal. lia.
        + rewrite map_length, zr_len by lia. fold (row_exps n d). do 2 f_equal. lia. }
    rewrite G. f_equal.
  - intros E j. rewrite (block_exps _ _ _ v) by auto. rewrite pairs_len, map_length. lia.
Qed.
(** ... and row j of the table of C32 is at W + j*nt. *)
Theorem C47_table_rows p v n N m G desc nt j x : 1 <= n -> twdesc p v n = Some desc -> twidlen p n = Some nt -> 0 <= j < m ->
  (forall c o, 0 <= o < nt -> x (Constant c o) = nth (Z.to_nat (j * nt + o)) (tw_table (root N) n m 1 desc ++ G) 0%R) ->
  table_row x N n j desc.
Proof.
  intros Hn Hd Ht Hj H c o Ho. destruct (C47_row_length p v n Hn) as (d & t & D1 & D2 & _ & D3).
  rewrite Hd in D1. injection D1 as <-. rewrite Ht in D2. injection D2 as <-.
  rewrite H by (rewrite <- (D3 (root N) j); lia).
  assert (L : forall f : Z -> list R, (forall i, length (f i) = Z.to_nat nt) -> (o < Z.to_nat nt)%nat ->
     nth (Z.to_nat (j * nt + Z.of_nat o)) (concat (map f (zr m)) ++ G) 0%R = nth o (f j) 0%R).
  { intros f Hf Hl. assert (0 <= nt) by lia.
    replace m with (j + (1 + (m - 1 - j))) by lia. rewrite zr_add, map_app, concat_app by lia.
    assert (LC : length (concat (map f (zr j))) = Z.to_nat (j * nt)).
    { clear - Hf H0 Hj. assert (G : forall l, length (concat (map f l)) = (length l * Z.to_nat nt)%nat).
      { induction l; cbn; auto. rewrite app_length, IHl, Hf. reflexivity. }
      rewrite G, zr_len by lia. nia. }
    rewrite <- app_assoc, app_nth2 by lia. replace (Z.to_nat (j * nt + Z.of_nat o) - length (concat (map f (zr j))))%nat with o by lia.
    rewrite zr_add by lia. rewrite zr_1. cbn [map app concat]. rewrite Z.add_0_r, <- app_assoc, app_nth1 by (rewrite Hf; lia). reflexivity. }
  unfold tw_table. rewrite Z.div_1_r. rewrite L.
  - rewrite Z.mul_1_r. reflexivity.
  - intros i. rewrite Z.mul_1_r. pose proof (D3 (root N) i). lia.
  - pose proof (D3 (root N) j). lia.
Qed.

(** ** Values of complex computations *)
Section Codelet.
  Variable pheq : expr -> expr -> bool.
  Variable M : magic.
  Hypothesis Hp : sound_eq pheq.
  Hypothesis HM : magic_ok M.
  Variable x : variable -> R.
  Definition denC (c : option ce) (z : C) : Prop := denr (real_env x) c (fst z) (snd z).
  Lemma denC_eq c a b : denC c a -> a = b -> denC c b.
  Proof. now intros H <-. Qed.
  Lemma denC_one : denC (Some zone) C1.
  Proof. exists zone. repeat split. Qed.
  Lemma denC_times a b y z : denC a y -> denC b z -> denC (o2 (ztimes pheq M) a b) (y * z)%C.
  Proof. intros H1 H2. eapply denr_eq; [apply (denr_times pheq M (real_env x) Hp); [exact H1|exact H2]| |]; reflexivity. Qed.
  Lemma denC_conj a y : denC a y -> denC (o1 zconj a) (Cplx.conj y).
  Proof. intros H. eapply denr_eq; [apply (denr_conj (real_env x)); exact H| |]; reflexivity. Qed.
  Lemma denC_fft sign n input z k : sign = 1 \/ sign = -1 -> 0 <= k < n -> (forall j, 0 <= j < n -> denC (input j) (z j)) ->
    denC (fft_dft pheq M sign n input k) (dft_sum sign n z k).
  Proof.
    intros Hs Hk Hin. eapply denr_eq.
    - apply (denr_fft pheq M (real_env x) Hp HM sign n input (fun j => fst (z j)) (fun j => snd (z j)) k Hs Hin Hk).
    - unfold dft_sum. rewrite Csum_fst. apply Rsum_ext. intros j Hj. unfold cis, cmul; cbn [fst snd].
      replace (2 * PI * IZR (sign * j * k) / IZR n)%R with (IZR sign * ang n (j * k))%R by
      (unfold ang; rewrite !mult_IZR; field; apply not_0_IZR; lia).
      unfold cs, sn; destruct Hs as [->| ->]; rewrite ?Rmult_1_l; try (replace (-1 * ang n (j * k))%R with (- ang n (j * k))%R by ring; rewrite cos_neg, sin_neg); ring.
    - unfold dft_sum. rewrite Csum_snd. apply Rsum_ext. intros j Hj. unfold cis, cmul; cbn [fst snd].
      replace (2 * PI * IZR (sign * j * k) / IZR n)%R with (IZR sign * ang n (j * k))%R by
      (unfold ang; rewrite !mult_IZR; field; apply not_0_IZR; lia).
      unfold cs, sn; destruct Hs as [->| ->]; rewrite ?Rmult_1_l; try (replace (-1 * ang n (j * k))%R with (- ang n (j * k))%R by ring; rewrite cos_neg, sin_neg); ring.
  Qed.
  Lemma denC_byw p v cls sign n N j desc f i a : pol_size p n -> twdesc p v n = Some desc -> table_row x N n j desc ->
    sign = 1 \/ sign = -1 -> 0 <= i < n -> denC (f i) a ->
    denC (byw pheq M p false cls sign n f i) (a * E2 (sign * (i * (j + v))) N)%C.
  Proof.
    intros Hn Hd Hr Hs Hi Hf. assert (Hn1 : 1 <= n) by (destruct p; cbn in Hn; lia).
    destruct (row_values x p v n N j desc Hn1 Hd Hr) as (body & E1 & E3 & V). unfold byw. rewrite E1.
    eapply denC_eq.
    - apply (bytwiddle_ok pheq M false denC denC_one) with (theta := (2 * PI * (IZR (j + v) / IZR N))%R) (es := row_exps n body) (a := a); auto.
      + intros; now apply denC_times.
      + intros c d y z H1 H2. apply denC_times; auto. now apply denC_conj.
      + intros l e Hl He. unfold twiddle_array. rewrite array_in.
        * destruct (V (cls l) l e Hl He) as [V1 V2]. eexists. split; [reflexivity|]. unfold load_c. cbn [re im eval fst snd]. unfold real_env.
          rewrite V1, V2. split; reflexivity.
        * rewrite Z.mul_comm, odiv_pos, Z.div_mul by lia. split; auto.
          assert (nth_error (row_exps n body) (Z.to_nat l) <> None) by congruence. apply nth_error_Some in H. lia.
      + intros ->. exact Hn.
    - replace (E2 (sign * (i * (j + v))) N) with (cis (IZR sign * (2 * PI * (IZR (j + v) / IZR N)) * IZR i)); [ring|].
      unfold E2. f_equal. rewrite !mult_IZR. unfold Rdiv. ring.
  Qed.
  Lemma denC_load n iloc i : 0 <= i < n -> denC (load_array_c n iloc i) (in_places x iloc i).
  Proof. intros H. apply load_c_ok. auto. Qed.
  Lemma store_places n oloc out Y : (forall k, 0 <= k < n -> denC (out k) (Y k)) -> computes (store_array_c n oloc out) x (at_places n oloc Y).
  Proof.
    intros H. unfold store_array_c, at_places. apply store_cat. intros k Hk. destruct (H k Hk) as (c & -> & E1 & E2').
    eexists. split; [reflexivity|]. cbn [map stored store_c fst snd]. rewrite E1, E2'. reflexivity.
  Qed.
  Lemma dft_sum_E2 sign n X k : dft_sum sign n X k = Csum n (fun i => X i * E2 (sign * (i * k)) n)%C.
  Proof. apply Csum_ext. intros i Hi. unfold E2. do 2 f_equal. rewrite !mult_IZR. unfold Rdiv. ring. Qed.
  Lemma denC_butterfly p v cls (dit : bool) sign n m j desc f X k : pol_size p n -> twdesc p v n = Some desc -> table_row x (n * m) n j desc ->
    sign = 1 \/ sign = -1 -> 0 <= k < n -> (forall i, 0 <= i < n -> denC (f i) (X i)) ->
    denC (if dit then fft_dft pheq M sign n (byw pheq M p false cls sign n f) k else byw pheq M p false cls sign n (fft_dft pheq M sign n f) k)
      (butterfly dit sign n m (j + v) X k).
  Proof.
    intros Hn Hd Hr Hs Hk Hf. destruct dit.
    - eapply denC_eq.
      + apply (denC_fft sign n _ (fun i => X i * E2 (sign * (i * (j + v))) (n * m))%C k Hs Hk).
        intros i Hi. eapply denC_byw; eauto.
      + rewrite dft_sum_E2. reflexivity.
    - eapply denC_eq.
      + eapply denC_byw; eauto. apply (denC_fft sign n _ X k Hs Hk). exact Hf.
      + rewrite dft_sum_E2. reflexivity.
  Qed.

  (** ** gen_twiddle *)
  Theorem C47_twiddle p cls dit sign n m j desc iloc oloc : pol_size p n -> sign = 1 \/ sign = -1 ->
    twdesc p 0 n = Some desc -> table_row x (n * m) n j desc ->
    computes (gen_twiddle pheq M p cls dit sign n iloc oloc) x
      (at_places n oloc (butterfly dit sign n m j (in_places x iloc))).
  Proof.
    intros Hn Hs Hd Hr. unfold gen_twiddle. apply store_places. intros k Hk.
    assert (H := denC_butterfly p 0 cls dit sign n m j desc (load_array_c n iloc) (in_places x iloc) k Hn Hd Hr Hs Hk (fun i Hi => denC_load n iloc i Hi)).
    rewrite Z.add_0_r in H. destruct dit; rewrite array_in by auto; exact H.
  Qed.
  (** ** gen_twidsq: n butterflies, the result is transposed *)
  Theorem C47_twidsq p cls dit sign n m j desc ioi ioo : pol_size p n -> sign = 1 \/ sign = -1 ->
    twdesc p 0 n = Some desc -> table_row x (n * m) n j desc ->
    computes (gen_twidsq pheq M p cls dit sign n ioi ioo) x
      (flat_map (fun k => at_places n (ioo k) (fun v => butterfly dit sign n m j (in_places x (ioi v)) k)) (zr n)).
  Proof.
    intros Hn Hs Hd Hr. unfold gen_twidsq, store_v_array_c. apply store_cat. intros k Hk.
    apply (store_places n (ioo k) _ (fun v => butterfly dit sign n m j (in_places x (ioi v)) k)). intros v Hv.
    destruct (Z.leb_spec 0 v); [|lia]. destruct (Z.ltb_spec v n); [|lia]. cbn [andb].
    assert (H1 := denC_butterfly p 0 (cls v) dit sign n m j desc (load_v_array_c n n ioi v) (in_places x (ioi v)) k Hn Hd Hr Hs Hk).
    rewrite Z.add_0_r in H1. destruct dit; apply H1.
    all: intros i Hi; unfold load_v_array_c; destruct (Z.leb_spec 0 v); [|lia]; destruct (Z.ltb_spec v n); [|lia]; apply denC_load; auto.
  Qed.

  (** ** gen_hc2hc: the halfcomplex butterflies that C39 and C40 use (HcModel.v).  The twiddle
      instructions have v = 1, and the codelet starts at W + (mb - 1)*nt: butterfly j reads row
      j - 1 of the table. *)
  Lemma denC_plus a b y z : denC a y -> denC b z -> denC (oplus2 pheq a b) (y + z)%C.
  Proof. intros H1 H2. eapply denr_eq; [apply (denr_plus pheq (real_env x) Hp); [exact H1|exact H2]| |]; reflexivity. Qed.
  Lemma denC_i a y : denC a y -> denC (byi pheq M a) ((0, 1)%R * y)%C.
  Proof. intros H. eapply denr_eq; [apply (denr_times_i pheq M (real_env x) Hp); exact H| |]; unfold cmul; cbn [fst snd]; ring. Qed.
  Lemma denC_uminus a y : denC a y -> denC (o1 zuminus a) (- y)%C.
  Proof. intros H. eapply denr_eq; [apply (denr_uminus (real_env x)); exact H| |]; reflexivity. Qed.
  Lemma denC_ui a y : denC a y -> denC (o1 (ztimes pheq M (zuminus zi)) a) ((0, -1)%R * y)%C.
  Proof.
    intros H. assert (K : denC (o2 (ztimes pheq M) (o1 zuminus (Some zi)) a) (- (0, 1)%R * y)%C).
    { apply denC_times; auto. apply denC_uminus. exists zi. repeat split. }
    destruct H as (c & -> & H). eapply denC_eq; [exact K|]. f_equal. unfold copp. cbn. f_equal; ring.
  Qed.
  Lemma denC_half a y : denC a y -> denC (o1 (ztimes pheq M zhalf) a) (RtoC (1 / 2) * y)%C.
  Proof.
    intros H. assert (K : denC (o2 (ztimes pheq M) (Some zhalf) a) (RtoC (1 / 2) * y)%C).
    { apply denC_times; auto. exists zhalf. repeat split. }
    destruct H as (c & -> & H). exact K.
  Qed.
  Lemma denC_real a y : denC a y -> denC (o1 zreal a) (fst y, 0%R).
  Proof. intros H. apply (denr_real (real_env x)) with (b := snd y). exact H. Qed.
  Lemma denC_imag a y : denC a y -> denC (o1 zimag a) (snd y, 0%R).
  Proof. intros H. apply (denr_imag (real_env x)) with (a := fst y). exact H. Qed.
  Lemma denC_sym1 n f z i : 0 <= i < n -> (forall i, 0 <= i < n -> denC (f i) (z i)) -> denC (hsym1 pheq M n f i) (sym1 n z i).
  Proof.
    intros Hi H. unfold hsym1. eapply denC_eq.
    - apply denC_plus.
      + apply denC_real. apply H. auto.
      + apply denC_i, denC_imag. apply H. lia.
    - unfold sym1, cadd, cmul. cbn [fst snd]. f_equal; ring.
  Qed.
  Theorem C47_hc2hc_dit p cls n m j desc inp ioloc : pol_size p n ->
    twdesc p 1 n = Some desc -> table_row x (n * m) n (j - 1) desc ->
    computes (gen_hc2hc pheq M p cls true (-1) n inp ioloc) x
      (at_places n ioloc (hc_dit n m j (in_places x inp))).
  Proof.
    intros Hn Hd Hr. unfold gen_hc2hc. apply store_places. intros k Hk.
    unfold hc_dit. apply denC_sym1; auto. intros i Hi. unfold hsym2, sym2.
    assert (H := denC_butterfly p 1 cls true (-1) n m (j - 1) desc (load_array_c n inp) (in_places x inp) i Hn Hd Hr (or_intror eq_refl) Hi (fun i Hi => denC_load n inp i Hi)).
    cbn iota in H.
    assert (H' : denC (fft_dft pheq M (-1) n (byw pheq M p false cls (-1) n (load_array_c n inp)) i)
      (Csum n (fun i0 => in_places x inp i0 * W (n * m) (j * i0) * W n (i0 * i))%C)).
    { eapply denC_eq; [exact H|]. unfold butterfly. apply Csum_ext. intros l Hl. unfold W, E2. do 2 f_equal; [f_equal|]; f_equal;
        rewrite ?mult_IZR; unfold Rdiv; [|ring]. replace (j - 1 + 1) with j by ring. ring. }
    destruct (i <? n - i); [exact H'|now apply denC_i].
  Qed.
  Theorem C47_hc2hc_dif p cls n m j desc inp ioloc : pol_size p n ->
    twdesc p 1 n = Some desc -> table_row x (n * m) n (j - 1) desc ->
    computes (gen_hc2hc pheq M p cls false 1 n inp ioloc) x
      (at_places n ioloc (hc_dif n m j (in_places x inp))).
  Proof.
    intros Hn Hd Hr. unfold gen_hc2hc. apply store_places. intros k Hk.
    assert (H := denC_butterfly p 1 cls false 1 n m (j - 1) desc (hsym2i pheq M n (hsym1 pheq M n (load_array_c n inp))) (sym2i n (sym1 n (in_places x inp))) k Hn Hd Hr (or_introl eq_refl) Hk).
    cbn iota in H. eapply denC_eq; [apply H|].
    - intros i Hi. unfold hsym2i, sym2i. assert (K := denC_sym1 n (load_array_c n inp) (in_places x inp) i Hi (fun i Hi => denC_load n inp i Hi)).
      destruct (i <? n - i); [exact K|now apply denC_ui].
    - unfold hc_dif, butterfly. f_equal.
      + apply Csum_ext. intros l Hl. unfold W, E2. do 2 f_equal. rewrite opp_IZR, !mult_IZR. unfold Rdiv. ring.
      + unfold W, E2. f_equal. replace (j - 1 + 1) with j by ring. rewrite opp_IZR, !mult_IZR. unfold Rdiv. ring.
  Qed.

  (** ** gen_hc2c: the butterflies between a complex array of which half is kept, in Rp + i Ip
      (indices up to n/2) and Rm + i Im (the others, conjugated), and complex numbers in
      Rp, Rm (even indices) and Ip, Im (odd indices) *)
  Definition eo_places (e o : Z -> variable * variable) (i : Z) : variable * variable :=
    if Z.even i then e (i / 2) else o (i / 2).
  Definition pm_places (n : Z) (p m : Z -> variable * variable) (i : Z) : variable * variable :=
    if 2 * i <? n then p i else m (n - 1 - i).
  Definition conj_upper (n : Z) (f : Z -> C) (i : Z) : C := if 2 * i <? n then f i else Cplx.conj (f i).
  Lemma loc_eo_eq e o i : 0 <= i -> loc_eo e o i = eo_places e o i.
  Proof.
    intros Hj. unfold loc_eo, eo_places. rewrite omod_pos by lia. rewrite Zmod_even. destruct (Z.even i) eqn:E; cbn [Z.eqb].
    - rewrite odiv_pos by lia. reflexivity.
    - assert (O : Z.odd i = true) by (rewrite <- Z.negb_even, E; reflexivity). apply Z.odd_spec in O as (h & ->).
      replace (2 * h + 1 - 1) with (h * 2) by ring. rewrite odiv_pos by lia. rewrite Z.div_mul by lia.
      replace ((2 * h + 1) / 2) with h by (apply Z.div_unique with 1; lia). reflexivity.
  Qed.
  Lemma loc_pm_eq n p m i : loc_pm n p m i = pm_places n p m i.
  Proof. unfold loc_pm, pm_places. destruct (Z.ltb_spec i (n - i)), (Z.ltb_spec (2 * i) n); auto; lia. Qed.
  Lemma denC_csym n f z i : denC (f i) (z i) -> denC (csym n f i) (conj_upper n z i).
  Proof.
    intros H. unfold csym, conj_upper. destruct (Z.ltb_spec i (n - i)), (Z.ltb_spec (2 * i) n); try lia; auto. now apply denC_conj.
  Qed.
  Lemma at_places_ext n l l' Y : (forall i, 0 <= i < n -> l i = l' i) -> at_places n l Y = at_places n l' Y.
  Proof.
    intros H. unfold at_places. assert (G : forall k, In k (zr n) -> l k = l' k) by (intros k Hk; apply in_zr in Hk; auto).
    induction (zr n) as [|a r IH]; [reflexivity|]. cbn [flat_map]. rewrite IH, (G a); auto. - now left. - intros; apply G; now right.
  Qed.
  Theorem C47_hc2c_dit p cls sign n m j desc rp ip rm im : pol_size p n -> sign = 1 \/ sign = -1 ->
    twdesc p 1 n = Some desc -> table_row x (n * m) n (j - 1) desc ->
    let X := in_places x (eo_places (fun i => (rp i, rm i)) (fun i => (ip i, im i))) in
    computes (gen_hc2c pheq M p cls true sign n rp ip rm im) x
      (at_places n (pm_places n (fun i => (rp i, ip i)) (fun i => (rm i, im i))) (conj_upper n (butterfly true sign n m j X))).
  Proof.
    intros Hn Hs Hd Hr X. unfold gen_hc2c. rewrite <- (at_places_ext n (loc_pm n (fun i => (rp i, ip i)) (fun i => (rm i, im i)))) by (intros; apply loc_pm_eq).
    apply store_places. intros k Hk. apply denC_csym.
    set (L := load_array_c n _).
    assert (H := denC_butterfly p 1 cls true sign n m (j - 1) desc L X k Hn Hd Hr Hs Hk). cbn iota in H.
    replace (j - 1 + 1) with j in H by ring. apply H. intros i Hi. unfold L, X. eapply denC_eq; [apply denC_load; auto|]. unfold in_places. now rewrite loc_eo_eq by lia.
  Qed.
  Theorem C47_hc2c_dif p cls sign n m j desc rp ip rm im : pol_size p n -> sign = 1 \/ sign = -1 ->
    twdesc p 1 n = Some desc -> table_row x (n * m) n (j - 1) desc ->
    let X := conj_upper n (in_places x (pm_places n (fun i => (rp i, ip i)) (fun i => (rm i, im i)))) in
    computes (gen_hc2c pheq M p cls false sign n rp ip rm im) x
      (at_places n (eo_places (fun i => (rp i, rm i)) (fun i => (ip i, im i))) (butterfly false sign n m j X)).
  Proof.
    intros Hn Hs Hd Hr X. unfold gen_hc2c. rewrite <- (at_places_ext n (loc_eo (fun i => (rp i, rm i)) (fun i => (ip i, im i)))) by (intros; apply loc_eo_eq; lia).
    apply store_places. intros k Hk.
    set (L := csym n _).
    assert (H := denC_butterfly p 1 cls false sign n m (j - 1) desc L X k Hn Hd Hr Hs Hk). cbn iota in H.
    replace (j - 1 + 1) with j in H by ring. apply H. intros i Hi. unfold L, X. apply denC_csym. eapply denC_eq; [apply denC_load; auto|]. unfold in_places. now rewrite loc_pm_eq.
  Qed.

  (** ** gen_hc2cdft (even sizes): the same when the real array is seen as a complex array of half
      the size, z_i in p (even i) and m (odd i) *)
  Definition split_even (Z : Z -> C) (i : BinNums.Z) : C :=
    if Z.even i then (RtoC (1 / 2) * (Z i + Cplx.conj (Z (i + 1)%Z)))%C
    else (RtoC (1 / 2) * ((0, -1)%R * (Z (i - 1)%Z - Cplx.conj (Z i))))%C.
  Definition merge_even (Y : Z -> C) (i : Z) : C :=
    if Z.even i then (Y i + (0, 1)%R * Y (i + 1)%Z)%C else Cplx.conj (Y (i - 1)%Z - (0, 1)%R * Y i)%C.
  Theorem C47_hc2cdft_dit p cls sign n m j desc rp ip rm im : pol_size p n -> Z.even n = true -> sign = 1 \/ sign = -1 ->
    twdesc p 1 n = Some desc -> table_row x (n * m) n (j - 1) desc ->
    let lp := fun i => (rp i, ip i) in let lm := fun i => (rm i, im i) in
    let X := split_even (in_places x (eo_places lp lm)) in
    computes (gen_hc2cdft pheq M p cls true sign n rp ip rm im) x
      (at_places n (pm_places n lp lm) (conj_upper n (butterfly true sign n m j X))).
  Proof.
    intros Hn He Hs Hd Hr lp lm X. unfold gen_hc2cdft. cbn zeta. fold lp lm.
    rewrite <- (at_places_ext n (loc_pm n lp lm)) by (intros; apply loc_pm_eq).
    apply store_places. intros k Hk. apply denC_csym.
    set (L := csym1 pheq M _). set (X' := fun i => (RtoC 2 * X i)%C).
    assert (H := denC_butterfly p 1 cls true sign n m (j - 1) desc L X' k Hn Hd Hr Hs Hk). cbn iota in H.
    replace (j - 1 + 1) with j in H by ring. eapply denC_eq; [apply denC_half; apply H|].
    - intros i Hi. unfold L, X', X, csym1, split_even. rewrite omod_pos by lia. rewrite Zmod_even.
      assert (LD : forall i, 0 <= i < n -> denC (load_array_c n (loc_eo lp lm) i) (in_places x (eo_places lp lm) i)).
      { intros l Hl. eapply denC_eq; [apply denC_load; auto|]. unfold in_places. now rewrite loc_eo_eq by lia. }
      destruct (Z.even i) eqn:E; cbn [Z.eqb].
      + assert (i + 1 < n). { assert (i <> n - 1); [|lia]. intros ->. rewrite Z.even_sub, He in E. discriminate. }
        eapply denC_eq; [apply denC_plus; [apply LD|apply denC_conj; apply LD]; lia|].
        apply C_eq; unfold RtoC, cadd, cmul; cbn [fst snd]; field.
      + assert (0 < i). { assert (i <> 0); [|lia]. intros ->. discriminate. }
        eapply denC_eq; [apply denC_ui; apply denC_plus; [apply LD; lia|apply denC_uminus, denC_conj, LD; lia]|].
        apply C_eq; unfold RtoC, csub, cadd, cmul, copp; cbn [fst snd]; field.
    - unfold butterfly. rewrite <- Csum_mul_l. apply Csum_ext. intros i Hi. unfold X'.
      apply C_eq; unfold RtoC, cmul; cbn [fst snd]; field.
  Qed.
  Theorem C47_hc2cdft_dif p cls sign n m j desc rp ip rm im : pol_size p n -> Z.even n = true -> sign = 1 \/ sign = -1 ->
    twdesc p 1 n = Some desc -> table_row x (n * m) n (j - 1) desc ->
    let lp := fun i => (rp i, ip i) in let lm := fun i => (rm i, im i) in
    let X := conj_upper n (in_places x (pm_places n lp lm)) in
    computes (gen_hc2cdft pheq M p cls false sign n rp ip rm im) x
      (at_places n (eo_places lp lm) (merge_even (butterfly false sign n m j X))).
  Proof.
    intros Hn He Hs Hd Hr lp lm X. unfold gen_hc2cdft. cbn zeta. fold lp lm.
    rewrite <- (at_places_ext n (loc_eo lp lm)) by (intros; apply loc_eo_eq; lia).
    apply store_places. intros k Hk.
    set (L := csym n _).
    assert (H : forall k, 0 <= k < n -> denC (byw pheq M p false cls sign n (fft_dft pheq M sign n L) k) (butterfly false sign n m j X k)).
    { intros l Hl. assert (H := denC_butterfly p 1 cls false sign n m (j - 1) desc L X l Hn Hd Hr Hs Hl). cbn iota in H.
      replace (j - 1 + 1) with j in H by ring. apply H. intros i Hi. unfold L, X. apply denC_csym. eapply denC_eq; [apply denC_load; auto|]. unfold in_places. now rewrite loc_pm_eq. }
    unfold csym1i, merge_even. rewrite omod_pos by lia. rewrite Zmod_even. destruct (Z.even k) eqn:E; cbn [Z.eqb].
    - assert (k + 1 < n). { assert (k <> n - 1); [|lia]. intros ->. rewrite Z.even_sub, He in E. discriminate. }
      apply denC_plus; [apply H; lia|]. apply denC_i. apply H. lia.
    - assert (0 < k). { assert (k <> 0); [|lia]. intros ->. discriminate. }
      eapply denC_eq; [apply denC_conj; apply denC_plus; [apply H; lia|apply denC_ui, H; lia]|].
      apply C_eq; unfold Cplx.conj, csub, cadd, copp, cmul; cbn [fst snd]; ring.
  Qed.
End Codelet.

(** the butterflies are those of the kernels assumed in C01 *)
Theorem C47_is_kernel dit r m j X k : butterfly dit (-1) r m j X k = bfly dit r m j X k.
Proof.
  unfold butterfly, bfly. destruct dit.
  - apply Csum_ext. intros i Hi. unfold W, E2. f_equal; [f_equal|]; f_equal; rewrite !mult_IZR; unfold Rdiv; ring.
  - f_equal; [|unfold W, E2; f_equal; rewrite !mult_IZR; unfold Rdiv; ring].
    apply Csum_ext. intros i Hi. unfold W, E2. f_equal. f_equal. rewrite !mult_IZR; unfold Rdiv; ring.
Qed.

(** ** SIMD codelets: every variable holds a complex number *)
Definition storedV (env : variable -> C) (e : expr) : option (variable * C) :=
  match e with EStore v a => Some (v, eval env a) | _ => None end.
Definition computesV (dag : option (list expr)) (env : variable -> C) (l : list (variable * C)) : Prop :=
  exists d, dag = Some d /\ map (storedV env) d = map Some l.
(** twiddle factor l is loaded as one complex number *)
Definition table_rowV (env : variable -> C) (N r j : Z) (desc : list tw_instr) : Prop :=
  let row := tw_block (root N) r j desc in
  forall c l, (2 * l + 1 < length row)%nat -> env (Constant c (2 * Z.of_nat l)) = (nth (2 * l) row 0%R, nth (2 * l + 1) row 0%R).
Section Simd.
  Variable pheq : expr -> expr -> bool.
  Variable M : magic.
  Hypothesis Hp : sound_eq pheq.
  Hypothesis HM : magic_ok M.
  Variable env : variable -> C.
  Definition denV (c : option ce) (z : C) : Prop := exists c', c = Some c' /\ eval env (re c') = z.
  Lemma denV_eq c a b : denV c a -> a = b -> denV c b.
  Proof. now intros H <-. Qed.
  Lemma denV_via_rdft sign n input z k : sign = 1 \/ sign = -1 -> 0 <= k < n -> (forall j, 0 <= j < n -> denV (input j) (z j)) ->
    denV (dft_via_rdft pheq M sign n input k) (dft_sum sign n z k).
  Proof.
    intros Hs Hk Hin. unfold dft_via_rdft, rdft. cbn zeta.
    destruct (fft_dft_ok pheq M env Hp HM true sign n z (fun i => o1 zreal (input i)) k Hs) as (c & -> & V); auto.
    { intros j Hj. destruct (Hin j Hj) as (d & -> & <-). eexists. split; [reflexivity|]. unfold evc, csg. cbn [re im zreal eval].
      apply C_eq; unfold Ci, RtoC, cadd, cmul; cbn [fst snd]; ring. }
    rewrite <- dft_sum_eq in V. cbn [o1 option_map o2]. eexists. split; [reflexivity|].
    cbn [zplus map re zreal]. rewrite (eval_makePlus pheq env Hp), lsumE_two. rewrite <- V. unfold evc at 1, csg. f_equal.
    assert (K : forall s, evc env s (ztimes pheq M znanI (zimag c)) = (Ci * eval env (im c))%C).
    { intros s. rewrite (evc_times pheq M env Hp). unfold evc, znanI, zimag. cbn [re im eval]. destruct s; unfold csg; apply C_eq; unfold Ci, RtoC, cadd, cmul, copp; cbn [fst snd]; ring. }
    pose proof (K true) as K1. pose proof (K false) as K2. unfold evc, csg in K1, K2.
    destruct (eval env (re (ztimes pheq M znanI (zimag c)))) as [a b], (eval env (im (ztimes pheq M znanI (zimag c)))) as [u v], (eval env (im c)) as [p q].
    unfold Ci, cadd, cmul, copp in *. cbn [fst snd] in *.
    apply pair_equal_spec in K1 as [A1 A2]. apply pair_equal_spec in K2 as [B1 B2]. f_equal; lra.
  Qed.
  Lemma denV_byw p v cls sign n N j desc f i a : pol_size p n -> twdesc p v n = Some desc -> table_rowV env N n j desc ->
    sign = 1 \/ sign = -1 -> 0 <= i < n -> denV (f i) a ->
    denV (byw pheq M p true cls sign n f i) (a * E2 (sign * (i * (j + v))) N)%C.
  Proof.
    intros Hn Hd Hr Hs Hi Hf. assert (Hn1 : 1 <= n) by (destruct p; cbn in Hn; lia).
    destruct (policy_desc p v n Hn1) as (body & E1 & E2' & E3 & F). rewrite E1 in Hd. injection Hd as <-.
    unfold table_rowV in Hr. rewrite (block_exps _ _ _ v) in Hr by auto.
    set (row := map (fun e => root N ((j + v) * e)) (row_exps n body)) in *.
    unfold byw. rewrite E2'. eapply denV_eq.
    - apply (bytwiddle_ok pheq M true denV) with (theta := (2 * PI * (IZR (j + v) / IZR N))%R) (es := row_exps n body) (a := a); auto.
      + exists zone. split; reflexivity.
      + intros y z c d (y' & -> & <-) (z' & -> & <-). eexists. split; reflexivity.
      + intros y z c d (y' & -> & <-) (z' & -> & <-). eexists. split; reflexivity.
      + intros l e Hl He. unfold twiddle_array. rewrite array_in.
        * assert (He' : nth_error row (Z.to_nat l) = Some (root N ((j + v) * e))) by (unfold row; now apply (map_nth_error (fun e => root N ((j + v) * e)))).
          destruct (pairs_nth _ _ _ He') as (H1 & H2 & H3). eexists. split; [reflexivity|]. unfold load_c. cbn [re eval fst].
          replace (2 * l) with (2 * Z.of_nat (Z.to_nat l)) by lia. rewrite Hr by lia. rewrite H2, H3. rewrite <- surjective_pairing.
          unfold root. f_equal. rewrite mult_IZR. unfold Rdiv. ring.
        * rewrite Z.mul_comm, odiv_pos, Z.div_mul by lia. split; auto.
          assert (nth_error (row_exps n body) (Z.to_nat l) <> None) by congruence. apply nth_error_Some in H. lia.
      + intros ->. exact Hn.
    - replace (E2 (sign * (i * (j + v))) N) with (cis (IZR sign * (2 * PI * (IZR (j + v) / IZR N)) * IZR i)); [ring|].
      unfold E2. f_equal. rewrite !mult_IZR. unfold Rdiv. ring.
  Qed.
  Lemma store_V n oloc out Y : (forall k, 0 <= k < n -> denV (out k) (Y k)) ->
    computesV (store_array_r n oloc out) env (map (fun k => (fst (oloc k), Y k)) (zr n)).
  Proof.
    intros H. unfold store_array_r, computesV. rewrite interval_zr.
    destruct (omapM_rel (fun i => option_map (store_r (oloc i)) (out i)) (storedV env)
      (fun k => Some (fst (oloc k), Y k)) (zr n)) as (bs & E1 & E2').
    - intros i Hi. apply in_zr in Hi. destruct (H i Hi) as (c & -> & E1). eexists. split; [reflexivity|]. cbn. now rewrite E1.
    - exists bs. split; auto. rewrite E2', map_map. reflexivity.
  Qed.
  Lemma denV_load n iloc i : 0 <= i < n -> denV (load_array_r n iloc i) (env (fst (iloc i))).
  Proof. intros H. unfold load_array_r. rewrite array_in by auto. eexists. split; reflexivity. Qed.
  Theorem C47_simd_notw sign n inp oloc : sign = 1 \/ sign = -1 ->
    computesV (gen_notw_c pheq M sign n inp oloc) env
      (map (fun k => (fst (oloc k), dft_sum sign n (fun j => env (fst (inp j))) k)) (zr n)).
  Proof.
    intros Hs. unfold gen_notw_c. apply store_V. intros k Hk. apply denV_via_rdft; auto. intros j Hj. now apply denV_load.
  Qed.
  Theorem C47_simd_twiddle p cls dit sign n m j desc iloc oloc : pol_size p n -> sign = 1 \/ sign = -1 ->
    twdesc p 0 n = Some desc -> table_rowV env (n * m) n j desc ->
    computesV (gen_twiddle_c pheq M p cls dit sign n iloc oloc) env
      (map (fun k => (fst (oloc k), butterfly dit sign n m j (fun i => env (fst (iloc i))) k)) (zr n)).
  Proof.
    intros Hn Hs Hd Hr. unfold gen_twiddle_c. apply store_V. intros k Hk. destruct dit; rewrite array_in by auto.
    - eapply denV_eq; [apply (denV_via_rdft sign n _ (fun i => env (fst (iloc i)) * E2 (sign * (i * (j + 0))) (n * m))%C); auto|].
      + intros i Hi. eapply denV_byw; eauto. now apply denV_load.
      + rewrite dft_sum_E2, Z.add_0_r. reflexivity.
    - eapply denV_eq; [eapply denV_byw; eauto; apply denV_via_rdft; auto; intros i Hi; apply denV_load; auto|].
      rewrite dft_sum_E2, Z.add_0_r. reflexivity.
  Qed.
End Simd.

(** ** Limits *)
(** with the log3 policy the generator does not terminate for size 1 (3^(-1) is computed) *)
Theorem C47_log3_size1_refuted pheq M cls sign iloc oloc :
  (forall fuel, upow fuel 3 (-1) = None) /\ gen_twiddle pheq M LOG3 cls false sign 1 iloc oloc = None /\
  forall f i, byw pheq M LOG3 false cls sign 1 f i = None.
Proof.
  split; [|split; reflexivity].
  assert (G : forall fuel k, k < 0 -> upow fuel 3 k = None).
  { induction fuel as [|f IH]; intros k Hk; [reflexivity|]. cbn [upow]. destruct (Z.eqb_spec k 0); [lia|]. rewrite IH by lia. reflexivity. }
  intros fuel. apply G. lia.
Qed.
(** ** The hypotheses are met *)
(** constants of a codelet that hold row j of the table *)
Definition row_vars (y : variable -> R) (N r j : Z) (desc : list tw_instr) : variable -> R := fun v =>
  match v with Constant _ o => nth (Z.to_nat o) (tw_block (root N) r j desc) 0%R | _ => y v end.
Lemma row_vars_ok y N r j desc : table_row (row_vars y N r j desc) N r j desc.
Proof. intros c o Ho. cbn. rewrite Nat2Z.id. reflexivity. Qed.
(** radix 6 with the log3 policy: only exp(2 pi i j/N), its cube and its fifth power are in the
    table *)
Example C47_log3_desc : twdesc LOG3 0 6 = Some [mkin TW_CEXP 0 1; mkin TW_CEXP 0 3; mkin TW_CEXP 0 5; mkin TW_NEXT 1 0].
Proof. reflexivity. Qed.
Example C47_log2_desc : twdesc LOG2 0 6 = Some [mkin TW_CEXP 0 1; mkin TW_CEXP 0 2; mkin TW_CEXP 0 4; mkin TW_NEXT 1 0].
Proof. reflexivity. Qed.
Example C47_twiddle_instance (y : variable -> R) : exists dag,
  gen_twiddle pheq0 magic_default LOG3 (fun l => l) true (-1) 6 ex_in ex_out = Some dag /\ length dag = 12%nat.
Proof.
  destruct (C47_twiddle pheq0 magic_default pheq0_sound magic_default_ok (row_vars y (6 * 7) 6 3 [mkin TW_CEXP 0 1; mkin TW_CEXP 0 3; mkin TW_CEXP 0 5; mkin TW_NEXT 1 0])
    LOG3 (fun l => l) true (-1) 6 7 3 _ ex_in ex_out ltac:(cbn; lia) (or_intror eq_refl) C47_log3_desc (row_vars_ok _ _ _ _ _)) as (d & E & V).
  exists d. split; auto. apply (f_equal (@length _)) in V. rewrite !map_length in V. rewrite V. reflexivity.
Qed.
(** a radix-2 butterfly of a DFT of size 4, j = 1: inputs 1 and 1, the second is multiplied by -i *)
Example C47_radix2 : butterfly true (-1) 2 2 1 (fun _ => C1) 0 = (1, -1)%R.
Proof.
  unfold butterfly, Csum. change (Z.to_nat 2) with 2%nat. cbn [nsum Z.of_nat]. change (Z.pos (Pos.of_succ_nat 0)) with 1.
  unfold E2. change (-1 * (0 * 1)) with 0. change (-1 * (0 * 0)) with 0. change (-1 * (1 * 1)) with (-1). change (-1 * (1 * 0)) with 0. change (2 * 2) with 4.
  replace (2 * PI * (0 / 4))%R with 0%R by field. replace (2 * PI * (0 / 2))%R with 0%R by field.
  replace (2 * PI * (-1 / 4))%R with (- (PI / 2))%R by field.
  unfold cis. rewrite cos_0, sin_0, cos_neg, sin_neg, cos_PI2, sin_PI2. apply C_eq; unfold C0, C1, cadd, cmul; cbn [fst snd]; ring.
Qed.

Print Assumptions C47_row_length.
Print Assumptions C47_table_rows.
Print Assumptions C47_twiddle.
Print Assumptions C47_twidsq.
Print Assumptions C47_hc2hc_dit.
Print Assumptions C47_hc2hc_dif.
Print Assumptions C47_hc2c_dit.
Print Assumptions C47_hc2c_dif.
Print Assumptions C47_hc2cdft_dit.
Print Assumptions C47_hc2cdft_dif.
Print Assumptions C47_is_kernel.
Print Assumptions C47_simd_notw.
Print Assumptions C47_simd_twiddle.
Print Assumptions C47_log3_size1_refuted.
