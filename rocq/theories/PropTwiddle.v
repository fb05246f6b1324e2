(** * C32: shared twiddle tables *)
From Coq Require Import Reals ZArith List Bool Lia Permutation PeanoNat.
From Verif Require Import Cplx Base NumTheory Offs PrimesModel PrimesProofs TrigModel PropTrig TwModel.
Import ListNotations.
Open Scope Z_scope.

(** ** Specification of a table

    [tw_block E r j p]: what one iteration (for j) of the program [p] yields, when
    [E k] is the complex exponential with numerator k: TW_FULL v gives E((j+v)*i) for
    0 < i < r, TW_HALF v gives E((j+v)*i) for 0 < i < r/2, TW_CEXP v i gives E((j+v)*i),
    TW_COS and TW_SIN its real and imaginary part; TW_NEXT ends the program. *)
Definition pairs (l : list C) : list R := flat_map (fun c => [fst c; snd c]) l.
Fixpoint tw_block (E : Z -> C) (r j : Z) (p : list tw_instr) : list R :=
  match p with
  | [] => []
  | a :: p' =>
      match op a with
      | TW_NEXT => []
      | TW_FULL => pairs (map (fun i => E ((j + iv a) * (i + 1))) (zr (r - 1))) ++ tw_block E r j p'
      | TW_HALF => pairs (map (fun i => E ((j + iv a) * (i + 1))) (zr ((r - 1) / 2))) ++ tw_block E r j p'
      | TW_CEXP => pairs [E ((j + iv a) * ii a)] ++ tw_block E r j p'
      | TW_COS => fst (E ((j + iv a) * ii a)) :: tw_block E r j p'
      | TW_SIN => snd (E ((j + iv a) * ii a)) :: tw_block E r j p'
      end
  end.
(** The whole table: the blocks for j = 0, vl, 2 vl, ... < m. *)
Definition tw_table (E : Z -> C) (r m vl : Z) (p : list tw_instr) : list R :=
  concat (map (fun k => tw_block E r (k * vl) p) (zr (m / vl))).
(** [program p body vl]: the instructions before the first TW_NEXT, and its argument *)
Definition program (p body : list tw_instr) (vl : Z) : Prop :=
  (exists e rest, p = body ++ e :: rest /\ op e = TW_NEXT /\ iv e = vl) /\ Forall (fun a => op a <> TW_NEXT) body.

(** ** compute *)
(** Requests that callers may make: the numerators are less than n in absolute value. *)
Definition instr_ok (n r j : Z) (a : tw_instr) : Prop :=
  -128 <= iv a < 128 /\
  match op a with
  | TW_NEXT => False
  | TW_FULL => forall i, 0 < i < r -> - n < (j + iv a) * i < n
  | TW_HALF => Z.odd r = true /\ 0 <= j + iv a < n
  | _ => - n < (j + iv a) * ii a < n
  end.
Record legal (M : Z) (a : twreq) (body : list tw_instr) (vl : Z) : Prop := {
  lg_wake : rq_wake a <> SLEEPY;
  lg_n : 0 < rq_n a /\ 18 * rq_n a <= M;
  lg_r : 0 < rq_r a <= rq_n a;
  lg_m : 0 <= rq_m a <= M - 128;
  lg_prog : program (rq_in a) body vl;
  lg_vl : 0 < vl /\ (vl | rq_m a);
  lg_size : forall ntw, twlen0 (rq_r a) (rq_in a) = Ret (ntw, vl) -> ntw * (rq_m a / vl) <= M;
  lg_in : forall j, 0 <= j < rq_m a -> (vl | j) -> Forall (instr_ok (rq_n a) (rq_r a) j) body
}.
(** what a generator of trigonometric functions yields *)
Definition gen (w : wakefulness) (n : Z) : Z -> C := match w with AWAKE_ZERO => fun _ => (0, 0)%R | _ => root n end.

Lemma gen_ok M w n : w <> SLEEPY -> 0 < n -> 4 * n <= M -> exists t, mktriggen M w n = Ret t /\ forall m, - n <= m < n -> tg_cexp M t m = Ret (gen w n m).
Proof.
  intros Hw Hn HM. destruct w; try congruence.
  - eexists. split; [reflexivity|]. reflexivity.
  - apply C33_cexp; auto.
  - apply C33_cexp; auto.
Qed.
Lemma root_mod n k : 0 < n -> root n (k mod n) = root n k.
Proof. intros H. rewrite (Z.div_mod k n) at 2 by lia. rewrite Z.add_comm. symmetry. apply root_period. lia. Qed.
Lemma gen_mod w n k : 0 < n -> gen w n (k mod n) = gen w n k.
Proof. intros H. destruct w; cbn; auto; now apply root_mod. Qed.

Lemma tw_arg_ok M n j v i : 0 < n <= M -> -128 <= v < 128 -> 0 <= j <= M - 128 -> - n < (j + v) * i < n -> tw_arg M n j v i = Ret ((j + v) * i).
Proof.
  intros Hn Hv Hj Hb. unfold tw_arg. rewrite ck_ok by lia. cbn [bind]. rewrite ck_ok by lia. cbn [bind].
  destruct (Z.ltb_spec ((j + v) * i) n); [|lia]. destruct (Z.ltb_spec (- n) ((j + v) * i)); [|lia]. reflexivity.
Qed.

Section Row.
Variables (M : Z) (w : wakefulness) (n r : Z) (t : triggen).
Hypothesis Hn : 0 < n. Hypothesis HM : 18 * n <= M. Hypothesis HM2 : 2 ^ 31 - 1 <= M.
Hypothesis Hr : 0 < r <= n.
Hypothesis Ht : forall m, - n <= m < n -> tg_cexp M t m = Ret (gen w n m).
Lemma tw_one_ok j a : 0 <= j <= M - 128 -> instr_ok n r j a -> forall p, exists x, tw_one M t n r j a = Ret x /\ tw_block (gen w n) r j (a :: p) = x ++ tw_block (gen w n) r j p.
Proof.
  intros Hj [Hv H] p. unfold tw_one. cbn [tw_block]. destruct (op a) eqn:Eo; try contradiction.
  - rewrite tw_arg_ok by lia. cbn [bind]. rewrite Ht by lia. cbn [bind]. eexists. split; reflexivity.
  - rewrite tw_arg_ok by lia. cbn [bind]. rewrite Ht by lia. cbn [bind]. eexists. split; reflexivity.
  - rewrite tw_arg_ok by lia. cbn [bind]. rewrite Ht by lia. cbn [bind]. eexists. split; reflexivity.
  - rewrite (omapl_ret _ (fun i => gen w n ((j + iv a) * (i + 1)))).
    + cbn [bind]. eexists. split; reflexivity.
    + intros i Hi. apply in_zr in Hi. specialize (H (i + 1) ltac:(lia)). rewrite tw_arg_ok by lia. cbn [bind]. apply Ht. lia.
  - destruct H as [Ho Hb]. assert (Er : Z.rem r 2 = 1). { rewrite Z.rem_mod_nonneg by lia. rewrite Zmod_odd, Ho. reflexivity. }
    rewrite Er. cbn [Z.eqb assert_ bind]. change (1 =? 1) with true. cbn [assert_ bind]. rewrite Z.quot_div_nonneg by lia.
    rewrite (omapl_ret _ (fun i => gen w n ((j + iv a) * (i + 1)))).
    + cbn [bind]. eexists. split; reflexivity.
    + intros i Hi. apply in_zr in Hi. assert (i + 1 <= (r - 1) / 2) by lia. assert (2 * ((r - 1) / 2) <= r - 1) by (apply Z.mul_div_le; lia).
      rewrite ck_ok by lia. cbn [bind]. rewrite MULMOD_spec by lia. cbn [bind]. pose proof (Z.mod_pos_bound ((i + 1) * (j + iv a)) n Hn).
      rewrite Ht by lia. f_equal. rewrite gen_mod by lia. f_equal. lia.
Qed.
Lemma tw_row_ok j body e rest : 0 <= j <= M - 128 -> Forall (instr_ok n r j) body -> op e = TW_NEXT ->
  tw_row M t n r j (body ++ e :: rest) = Ret (tw_block (gen w n) r j (body ++ e :: rest)).
Proof.
  intros Hj HF He. induction HF as [|a body Ha HF IH]; cbn [app].
  - cbn. now rewrite He.
  - destruct (tw_one_ok j a Hj Ha (body ++ e :: rest)) as (x & Ex & Eb). rewrite Eb. cbn [tw_row].
    destruct (op a) eqn:Eo; [| | |destruct Ha as [_ Ha]; rewrite Eo in Ha; contradiction| |]; rewrite Ex; cbn [bind]; rewrite IH; reflexivity.
Qed.
(** length of a block *)
Lemma twlen0_loop_ok body e rest : op e = TW_NEXT -> forall j c, Forall (instr_ok n r j) body ->
  exists k, twlen0_loop r (body ++ e :: rest) c = Ret (c + k, iv e) /\ 0 <= k.
Proof.
  intros He j c H. revert c. induction H as [|a body Ha HF IH]; intros c; cbn [app].
  - exists 0. cbn. rewrite He. split; [f_equal; f_equal; lia|lia].
  - cbn [twlen0_loop]. destruct Ha as [_ Ha]. destruct (op a); try contradiction.
    all: edestruct IH as (k & -> & Hk). all: eexists; split; [do 2 f_equal; rewrite <- Z.add_assoc; reflexivity|lia].
Qed.
Lemma pairs_length l : length (pairs l) = (2 * length l)%nat.
Proof. unfold pairs. induction l as [|x l IH]; cbn [flat_map app length]; auto. rewrite IH. lia. Qed.
Lemma block_length j body e rest c k : op e = TW_NEXT -> Forall (instr_ok n r j) body ->
  twlen0_loop r (body ++ e :: rest) c = Ret (c + k, iv e) -> Z.of_nat (length (tw_block (gen w n) r j (body ++ e :: rest))) = k.
Proof.
  intros He H. revert c k. induction H as [|a body Ha HF IH]; intros c k; cbn [app].
  - cbn. rewrite He. intros E. assert (c + k = c) by congruence. cbn. lia.
  - cbn [twlen0_loop tw_block]. destruct Ha as [_ Ha]. destruct (op a); try contradiction; intros E.
    + replace (c + k) with (c + 1 + (k - 1)) in E by lia. apply IH in E. cbn [length]. lia.
    + replace (c + k) with (c + 1 + (k - 1)) in E by lia. apply IH in E. cbn [length]. lia.
    + replace (c + k) with (c + 2 + (k - 2)) in E by lia. apply IH in E. rewrite app_length, pairs_length. cbn [length]. lia.
    + replace (c + k) with (c + (r - 1) * 2 + (k - (r - 1) * 2)) in E by lia. apply IH in E. rewrite app_length, pairs_length, map_length. unfold zr. rewrite length_zrange. lia.
    + replace (c + k) with (c + (r - 1) + (k - (r - 1))) in E by lia. apply IH in E. rewrite app_length, pairs_length, map_length. unfold zr. rewrite length_zrange.
      destruct Ha as [Ho _]. assert (r = 2 * (r / 2) + 1). { rewrite (Z.div_mod r 2) at 1 by lia. now rewrite Zmod_odd, Ho. }
      assert ((r - 1) / 2 = r / 2) by (symmetry; apply Z.div_unique with 0; lia). pose proof (Z.div_pos r 2). lia.
Qed.
End Row.

(** C32 (contents): for every legal request, the table computed is the one specified
    (zeros if the plan is awake only to be timed), whatever the method by which the
    exponentials are computed. *)
Theorem C32_contents M a body vl : 2 ^ 31 - 1 <= M -> legal M a body vl ->
  compute M (rq_wake a) (rq_in a) (rq_n a) (rq_r a) (rq_m a) = Ret (tw_table (gen (rq_wake a) (rq_n a)) (rq_r a) (rq_m a) vl (rq_in a)).
Proof.
  intros HM2 [L1 [L2 L2'] L3 L4 L5 [L6 L6'] L7 L8]. destruct a as [w p n r m]. cbn [rq_wake rq_in rq_n rq_r rq_m] in *.
  unfold compute. destruct (gen_ok M w n L1 L2 ltac:(lia)) as (t & Et & Ht). rewrite Et. cbn [bind].
  destruct L5 as [(e & rest & -> & He & Hv) HB].
  assert (HF0 : 0 < m -> Forall (instr_ok n r 0) body) by (intros; apply L8; [lia|apply Z.divide_0_r]).
  assert (EL : exists k, twlen0 r (body ++ e :: rest) = Ret (k, vl)).
  { unfold twlen0. destruct (Z.ltb_spec 0 r); [|lia]. cbn [assert_ bind]. clear - HB He Hv. generalize 0. induction HB as [|x body Hx HB IH]; intros c; cbn [app twlen0_loop].
    - rewrite He, Hv. eauto.
    - destruct (op x); try congruence; apply IH. }
  destruct EL as (k & EL). specialize (L7 k EL). rewrite EL. cbn [bind]. destruct (Z.leb_spec vl 0); [lia|].
  destruct L6' as [q Eq]. assert (Eq' : Z.quot m vl = q). { rewrite Eq. apply Z.quot_mul. lia. } assert (Eq2 : m / vl = q). { rewrite Eq. apply Z.div_mul. lia. }
  replace (Z.rem m vl) with 0 by (rewrite Eq; symmetry; apply Z.rem_mul; lia). change (0 =? 0) with true. cbn [assert_ bind].
  rewrite Eq'. rewrite Eq2 in L7. assert (Hq : 0 <= q) by nia.
  unfold tw_table. rewrite Eq2.
  assert (Hk : m = 0 \/ (0 < m /\ 0 <= k /\ forall j, 0 <= j < m -> (vl | j) -> Z.of_nat (length (tw_block (gen w n) r j (body ++ e :: rest))) = k)).
  { destruct (Z.eq_dec m 0); [auto|right]. split; [lia|]. unfold twlen0 in EL. destruct (Z.ltb_spec 0 r); [|lia]. cbn [assert_ bind] in EL.
    destruct (twlen0_loop_ok n r L3 body e rest He 0 0 (HF0 ltac:(lia))) as (k' & Ek' & Hk'). rewrite Ek' in EL. assert (k = k') by (rewrite Z.add_0_l in EL; congruence). subst k'. split; auto.
    intros j Hj Dj. eapply (block_length w n r L3 j body e rest 0 k); eauto. }
  assert (Hsz : k * q <= M /\ - M - 1 <= k * q). { split; [exact L7|]. destruct Hk as [->|(H1 & H2 & _)]; [|nia]. assert (q = 0) by nia. subst q. lia. }
  rewrite ck_ok by lia. cbn [bind].
  rewrite (omapl_ret _ (fun k => tw_block (gen w n) r (k * vl) (body ++ e :: rest))).
  2:{ intros i Hi. apply in_zr in Hi. assert (Hi1 : 0 <= i * vl) by nia. assert (Hi2 : i * vl < m) by (rewrite Eq; apply Z.mul_lt_mono_pos_r; lia). apply tw_row_ok; auto; try lia. apply L8; [lia|]. exists i. lia. }
  cbn [bind]. match goal with |- (if ?b then _ else _) = _ => assert (Eb : b = true); [|now rewrite Eb] end.
  apply Z.leb_le. destruct Hk as [Z0|(H1 & H2 & H3)].
  { assert (Q0 : q = 0) by nia. rewrite Q0, Z.mul_0_r. cbn. lia. }
  assert (G : forall l, (forall i, In i l -> 0 <= i < q) -> Z.of_nat (length (concat (map (fun k => tw_block (gen w n) r (k * vl) (body ++ e :: rest)) l))) = k * Z.of_nat (length l)).
  { induction l as [|i l IH]; intros Hl; [cbn; lia|]. cbn [map concat length]. rewrite app_length, Nat2Z.inj_add, IH by (intros; apply Hl; now right).
    rewrite H3; [lia| |exists i; lia]. specialize (Hl i (or_introl eq_refl)). nia. }
  rewrite G by (intros i Hi; now apply in_zr). unfold zr. rewrite length_zrange, Z2Nat.id by lia. lia.
Qed.

(** ** The cache *)
Lemma op_eqb a b : tw_op_eqb a b = true <-> a = b.
Proof. destruct a, b; cbn; split; intros; congruence. Qed.
(** programs that are considered equal yield the same *)
Lemma equal_instr_len r : forall p q c, equal_instr p q = Ret true -> twlen0_loop r p c = twlen0_loop r q c.
Proof.
  induction p as [|a p IH]; intros [|b q] c H; cbn in H; try discriminate. destruct (tw_op_eqb (op a) (op b)) eqn:E; cbn [negb] in H; [|discriminate]. apply op_eqb in E.
  cbn [twlen0_loop]. rewrite <- E. destruct (op a).
  all: try (destruct (Z.eqb_spec (iv a) (iv b)) as [Ev|]; [|discriminate]; cbn [negb orb] in H).
  all: try (destruct (Z.eqb_spec (ii a) (ii b)) as [Ei|]; [|discriminate]; cbn [negb orb] in H).
  all: try (now apply IH). now rewrite Ev.
Qed.
Lemma equal_instr_row M t n r j : forall p q, equal_instr p q = Ret true -> tw_row M t n r j p = tw_row M t n r j q.
Proof.
  induction p as [|a p IH]; intros [|b q] H; cbn in H; try discriminate. destruct (tw_op_eqb (op a) (op b)) eqn:E; cbn [negb] in H; [|discriminate]. apply op_eqb in E.
  cbn [tw_row]. unfold tw_one. rewrite <- E. destruct (op a).
  all: try (destruct (Z.eqb_spec (iv a) (iv b)) as [Ev|]; [|discriminate]; cbn [negb orb] in H).
  all: try (destruct (Z.eqb_spec (ii a) (ii b)) as [Ei|]; [|discriminate]; cbn [negb orb] in H).
  all: try (rewrite Ev); try (rewrite Ei); try (rewrite (IH q H)); reflexivity.
Qed.
Lemma bind_ret {A B} (x : out A) (f : A -> out B) b : bind x f = Ret b -> exists a, x = Ret a /\ f a = Ret b.
Proof. destruct x; cbn; try discriminate. eauto. Qed.
Lemma omapl_app {A B} (f : A -> out B) l1 l2 r : omapl f (l1 ++ l2) = Ret r -> exists r1 r2, omapl f l1 = Ret r1 /\ r = r1 ++ r2.
Proof.
  revert r. induction l1 as [|x l1 IH]; intros r H.
  - exists [], r. auto.
  - cbn [app omapl] in H. apply bind_ret in H as (a & E & H). apply bind_ret in H as (y & E2 & H). injection H as <-.
    destruct (IH y E2) as (r1 & r2 & E3 & ->). exists (a :: r1), r2. cbn [omapl]. rewrite E. cbn [bind]. rewrite E3. auto.
Qed.
Lemma compute_equal M w p q n r m : equal_instr p q = Ret true -> compute M w p n r m = compute M w q n r m.
Proof.
  intros H. unfold compute, twlen0. rewrite (equal_instr_len r p q 0 H). destruct (mktriggen M w n) as [t| |]; cbn [bind]; auto.
  destruct (assert_ (0 <? r)); cbn [bind]; auto. destruct (twlen0_loop r q 0) as [[k vl]| |]; cbn [bind]; auto.
  destruct (vl <=? 0); auto. destruct (assert_ (Z.rem m vl =? 0)); cbn [bind]; auto. destruct (ck M (k * Z.quot m vl)); cbn [bind]; auto.
  assert (E : forall l, omapl (fun k => tw_row M t n r (k * vl) p) l = omapl (fun k => tw_row M t n r (k * vl) q) l); [|now rewrite E].
  induction l as [|x l IH]; cbn [omapl]; auto. rewrite IH, (equal_instr_row M t n r (x * vl) p q H). reflexivity.
Qed.
(** a longer table starts with the shorter one *)
Lemma compute_prefix M w p n r m m' F F' : m <= m' -> compute M w p n r m = Ret F -> compute M w p n r m' = Ret F' -> exists G, F' = F ++ G.
Proof.
  unfold compute. intros Hm H H'. apply bind_ret in H as (t & Et & H). rewrite Et in H'. cbn [bind] in H'.
  apply bind_ret in H as ([k vl] & El & H). rewrite El in H'. cbn [bind] in H'. destruct (Z.leb_spec vl 0); [discriminate|].
  apply bind_ret in H as (? & _ & H). apply bind_ret in H' as (? & _ & H'). apply bind_ret in H as (sz & _ & H). apply bind_ret in H' as (sz' & _ & H').
  apply bind_ret in H as (rows & Er & H). apply bind_ret in H' as (rows' & Er' & H').
  destruct (Z.of_nat (length (concat rows)) <=? sz); [|discriminate]. destruct (Z.of_nat (length (concat rows')) <=? sz'); [|discriminate].
  injection H as <-. injection H' as <-.
  assert (Hq : Z.quot m vl <= Z.quot m' vl) by (apply Z.quot_le_mono; lia).
  destruct (Z_le_gt_dec (Z.quot m vl) 0) as [Z0|Z0].
  - rewrite zr_neg in Er by lia. cbn in Er. injection Er as <-. exists (concat rows'). reflexivity.
  - replace (Z.quot m' vl) with (Z.quot m vl + (Z.quot m' vl - Z.quot m vl)) in Er' by lia. rewrite zr_add in Er' by lia.
    apply omapl_app in Er' as (r1 & r2 & E1' & ->). rewrite Er in E1'. injection E1' as <-. exists (concat r2). apply concat_app.
Qed.
(** programs of tables that were computed are well-formed *)
Fixpoint wfp (p : list tw_instr) : bool := match p with [] => false | a :: p => match op a with TW_NEXT => true | _ => wfp p end end.
Lemma twlen0_wfp r : forall p c k, twlen0_loop r p c = Ret k -> wfp p = true.
Proof. induction p as [|a p IH]; intros c k H; [discriminate|]. cbn in *. destruct (op a); eauto. Qed.
Lemma compute_wfp M w p n r m F : compute M w p n r m = Ret F -> wfp p = true.
Proof.
  unfold compute, twlen0. intros H. apply bind_ret in H as (t & _ & H). apply bind_ret in H as (k & E & _). apply bind_ret in E as (? & _ & E). eapply twlen0_wfp; eauto.
Qed.
Lemma equal_instr_refl p : wfp p = true -> equal_instr p p = Ret true.
Proof.
  induction p as [|a p IH]; [discriminate|]. cbn. intros H. replace (tw_op_eqb (op a) (op a)) with true by (symmetry; now apply op_eqb). cbn [negb].
  destruct (op a); rewrite ?Z.eqb_refl; cbn [negb orb]; auto.
Qed.
Lemma equal_instr_total : forall p q, wfp p = true -> wfp q = true -> exists b, equal_instr p q = Ret b.
Proof.
  induction p as [|a p IH]; intros [|b q] H1 H2; try discriminate. cbn in *. destruct (tw_op_eqb (op a) (op b)) eqn:E; cbn [negb]; [|eauto]. apply op_eqb in E. rewrite <- E in H2.
  destruct (op a); eauto; destruct (iv a =? iv b); cbn [negb orb]; eauto; destruct (ii a =? ii b); cbn [negb]; eauto.
Qed.
Lemma wake_eqb_eq a b : wake_eqb a b = true -> a = b.
Proof. destruct a, b; cbn; congruence. Qed.
Lemma wake_eqb_refl a : wake_eqb a a = true.
Proof. now destruct a. Qed.

(** number of users of node p *)
Definition users_of (p : nat) (u : list (nat * twreq)) : nat := count_occ Nat.eq_dec (map fst u) p.
Definition covers (t : twid) (a : twreq) : Prop :=
  rq_wake a = tw_wake t /\ rq_n a = tw_n t /\ rq_r a = tw_r t /\ rq_m a <= tw_m t /\ equal_instr (tw_in t) (rq_in a) = Ret true.
Record tinv (M : Z) (x : tww) : Prop := {
  ti_list : forall h p, In p (ts_list (ww_st x) h) <-> exists t, ts_node (ww_st x) p = Some t /\ tw_hash M (tw_n t) (tw_r t) = Ret h;
  ti_hash : forall p t, ts_node (ww_st x) p = Some t -> exists h, tw_hash M (tw_n t) (tw_r t) = Ret h;
  ti_nodup : forall h, NoDup (ts_list (ww_st x) h);
  ti_next : forall p t, ts_node (ww_st x) p = Some t -> (p < ts_next (ww_st x))%nat;
  ti_ref : forall p t, ts_node (ww_st x) p = Some t -> tw_refcnt t = Z.of_nat (users_of p (ww_users x)) /\ 0 < tw_refcnt t;
  ti_user : forall p a, In (p, a) (ww_users x) -> exists t, ts_node (ww_st x) p = Some t /\ covers t a;
  ti_table : forall p t, ts_node (ww_st x) p = Some t -> compute M (tw_wake t) (tw_in t) (tw_n t) (tw_r t) (tw_m t) = Ret (tw_W t)
}.

Lemma setn_same {A} (f : nat -> A) p x : setn f p x p = x.
Proof. unfold setn. now rewrite Nat.eqb_refl. Qed.
Lemma setn_other {A} (f : nat -> A) p x q : q <> p -> setn f p x q = f q.
Proof. intros H. unfold setn. now destruct (Nat.eqb_spec q p). Qed.
Lemma setz_same {A} (f : Z -> A) p x : setz f p x p = x.
Proof. unfold setz. now rewrite Z.eqb_refl. Qed.
Lemma setz_other {A} (f : Z -> A) p x q : q <> p -> setz f p x q = f q.
Proof. intros H. unfold setz. now destruct (Z.eqb_spec q p). Qed.
Lemma unlink_ok p l : NoDup l -> forall l', unlink p l = Some l' -> In p l /\ NoDup l' /\ forall q, In q l' <-> In q l /\ q <> p.
Proof.
  induction 1 as [|x l Hx ND IH]; intros l' H; cbn in H; [discriminate|]. destruct (Nat.eqb_spec x p) as [->|N].
  - injection H as <-. split; [now left|]. split; auto. intros q. cbn. split; [intros Hq; split; auto; congruence|intros [[->|Hq] Nq]; [congruence|auto]].
  - destruct (unlink p l) as [l1|] eqn:E; [|discriminate]. injection H as <-. destruct (IH l1 eq_refl) as (I1 & I2 & I3). split; [now right|]. split.
    + constructor; auto. intros C. apply I3 in C as [C _]. contradiction.
    + intros q. cbn. rewrite I3. split; [intros [->|[Hq Nq]]; auto|intros [[->|Hq] Nq]; auto].
Qed.
Lemma unlink_some p l : In p l -> exists l', unlink p l = Some l'.
Proof.
  induction l as [|x l IH]; intros H; [contradiction|]. cbn. destruct (Nat.eqb_spec x p); [eauto|]. destruct H as [H|H]; [congruence|]. destruct (IH H) as (l' & ->). eauto.
Qed.
Lemma lookup_in_spec nd l w q n r m o : lookup_in nd l w q n r m = Ret o ->
  match o with Some p => In p l /\ exists t, nd p = Some t /\ ok_twid t w q n r m = Ret true | None => True end.
Proof.
  revert o. induction l as [|p l IH]; intros o H; cbn in H; [now injection H as <-|]. destruct (nd p) as [t|] eqn:E; [|discriminate].
  apply bind_ret in H as (b & Eb & H). destruct b.
  - injection H as <-. split; [now left|]. eauto.
  - apply IH in H. destruct o; auto. destruct H as [H1 H2]. split; [now right|auto].
Qed.
Lemma ok_twid_covers t a : ok_twid t (rq_wake a) (rq_in a) (rq_n a) (rq_r a) (rq_m a) = Ret true -> covers t a.
Proof.
  unfold ok_twid, covers. destruct (wake_eqb (rq_wake a) (tw_wake t)) eqn:E1'; [|discriminate]. apply wake_eqb_eq in E1'.
  destruct (Z.eqb_spec (rq_n a) (tw_n t)); [|discriminate]. destruct (Z.eqb_spec (rq_r a) (tw_r t)); [|discriminate]. destruct (Z.leb_spec (rq_m a) (tw_m t)); [|discriminate].
  cbn. auto.
Qed.
Lemma users_cons p q a u : users_of p ((q, a) :: u) = ((if Nat.eq_dec q p then 1 else 0) + users_of p u)%nat.
Proof. unfold users_of. cbn [map fst]. destruct (Nat.eq_dec q p); [now rewrite count_occ_cons_eq|now rewrite count_occ_cons_neq]. Qed.
Lemma users_app p u v : users_of p (u ++ v) = (users_of p u + users_of p v)%nat.
Proof. unfold users_of. rewrite map_app. apply count_occ_app. Qed.
Lemma users_in p u : (0 < users_of p u)%nat <-> exists a, In (p, a) u.
Proof.
  unfold users_of. split.
  - intros H. apply count_occ_In in H. apply in_map_iff in H as ([q a] & <- & H). eauto.
  - intros (a & H). apply count_occ_In. apply in_map_iff. exists (p, a). auto.
Qed.
Lemma users_le p u : (users_of p u <= length u)%nat.
Proof. unfold users_of. rewrite <- (map_length fst u). apply count_occ_bound. Qed.

Lemma tinv_step M x y : tinv M x -> tstep M x y -> tinv M y.
Proof.
  intros Iv S. destruct S as [s u a p s' H|s u1 u2 a p s' H]; destruct Iv as [I1 I2 I3 I4 I5 I6 I7]; cbn [ww_st ww_users] in *.
  - unfold tw_awake, mktwiddle in H. apply bind_ret in H as (f & Ef & H). unfold lookup in Ef. apply bind_ret in Ef as (h & Eh & Ef). apply lookup_in_spec in Ef. destruct f as [p0|].
    + destruct Ef as [Hp (t & Et & Ok)]. rewrite Et in H. apply bind_ret in H as (c & Ec & H). unfold cint in Ec. apply ck_inv in Ec as [-> _]. injection H as <- <-. apply ok_twid_covers in Ok.
      assert (ND : forall q t', setn (ts_node s) p0 (Some (with_ref t (tw_refcnt t + 1))) q = Some t' -> exists t0, ts_node s q = Some t0 /\ tw_n t' = tw_n t0 /\ tw_r t' = tw_r t0 /\ tw_m t' = tw_m t0 /\ tw_in t' = tw_in t0 /\ tw_wake t' = tw_wake t0 /\ tw_W t' = tw_W t0 /\ tw_refcnt t' = tw_refcnt t0 + (if Nat.eq_dec p0 q then 1 else 0)).
      { intros q t' Hq. destruct (Nat.eq_dec p0 q) as [<-|N].
        - rewrite setn_same in Hq. injection Hq as <-. exists t. cbn. auto 10.
        - rewrite setn_other in Hq by congruence. exists t'. rewrite Z.add_0_r. auto 10. }
      assert (DN : forall q t0, ts_node s q = Some t0 -> exists t', setn (ts_node s) p0 (Some (with_ref t (tw_refcnt t + 1))) q = Some t' /\ tw_n t' = tw_n t0 /\ tw_r t' = tw_r t0 /\ tw_m t' = tw_m t0 /\ tw_in t' = tw_in t0 /\ tw_wake t' = tw_wake t0).
      { intros q t0 Hq. destruct (Nat.eq_dec q p0) as [->|N].
        - rewrite setn_same. rewrite Et in Hq. injection Hq as <-. eexists. split; [reflexivity|]. cbn. auto 10.
        - rewrite setn_other by auto. eauto 10. }
      constructor; cbn [ww_st ww_users ts_list ts_node ts_next]; auto.
      * intros h' q. rewrite I1. split; intros (t0 & H1 & H2).
        -- destruct (DN q t0 H1) as (t' & D1 & D2 & D3 & _). exists t'. split; auto. now rewrite D2, D3.
        -- destruct (ND q t0 H1) as (t' & D1 & D2 & D3 & _). exists t'. split; auto. now rewrite <- D2, <- D3.
      * intros q t' Hq. destruct (ND q t' Hq) as (t0 & D1 & -> & -> & _). eauto.
      * intros q t' Hq. destruct (ND q t' Hq) as (t0 & D1 & _). eauto.
      * intros q t' Hq. destruct (ND q t' Hq) as (t0 & D1 & _ & _ & _ & _ & _ & _ & ->). destruct (I5 q t0 D1) as [R1 R2]. rewrite users_cons. destruct (Nat.eq_dec p0 q); lia.
      * intros q b [E|Hq].
        -- injection E as <- <-. rewrite setn_same. eexists. split; [reflexivity|]. exact Ok.
        -- destruct (I6 q b Hq) as (t0 & T1 & T2). destruct (DN q t0 T1) as (t' & D1 & D2 & D3 & D4 & D5 & D6). exists t'. split; auto. unfold covers in *. now rewrite D2, D3, D4, D5, D6.
      * intros q t' Hq. destruct (ND q t' Hq) as (t0 & D1 & -> & -> & -> & -> & -> & -> & _). eauto.
    + clear Ef. apply bind_ret in H as (W & EW & H). rewrite Eh in H. cbn [bind] in H. injection H as <- <-. set (p0 := ts_next s) in *. set (t := mktw W (rq_n a) (rq_r a) (rq_m a) 1 (rq_in a) (rq_wake a)).
      assert (Fr : ts_node s p0 = None). { destruct (ts_node s p0) as [t0|] eqn:E; auto. apply I4 in E. unfold p0 in E. lia. }
      assert (Nu : users_of p0 u = 0%nat). { destruct (users_of p0 u) eqn:E; auto. assert (exists b, In (p0, b) u) as (b & Hb) by (apply users_in; lia). destruct (I6 _ _ Hb) as (t0 & T & _). congruence. }
      constructor; cbn [ww_st ww_users ts_list ts_node ts_next]; auto.
      * intros h' q. destruct (Nat.eq_dec q p0) as [->|N].
        -- rewrite setn_same. split.
           ++ intros Hq. exists t. split; auto. cbn. destruct (Z.eq_dec h' h) as [->|N']; auto. rewrite setz_other in Hq by auto. apply I1 in Hq as (t0 & T & _). congruence.
           ++ intros (t0 & E & Ht). injection E as <-. cbn in Ht. assert (h' = h) by congruence. subst. rewrite setz_same. now left.
        -- rewrite setn_other by auto. rewrite <- I1. destruct (Z.eq_dec h' h) as [->|N']; [|now rewrite setz_other by auto]. rewrite setz_same. cbn. split; [intros [E|E]; [congruence|auto]|auto].
      * intros q t0 Hq. destruct (Nat.eq_dec q p0) as [->|N]; [rewrite setn_same in Hq; injection Hq as <-; cbn; eauto|rewrite setn_other in Hq by auto; eauto].
      * intros h'. destruct (Z.eq_dec h' h) as [->|N']; [|now rewrite setz_other by auto]. rewrite setz_same. constructor; auto. intros C. apply I1 in C as (t0 & T & _). congruence.
      * intros q t0 Hq. destruct (Nat.eq_dec q p0) as [->|N]; [lia|]. rewrite setn_other in Hq by auto. apply I4 in Hq. fold p0 in Hq. lia.
      * intros q t0 Hq. rewrite users_cons. destruct (Nat.eq_dec p0 q) as [<-|N].
        -- rewrite setn_same in Hq. injection Hq as <-. cbn. rewrite Nu. cbn. lia.
        -- rewrite setn_other in Hq by auto. apply I5 in Hq. cbn. lia.
      * intros q b [E|Hq].
        -- injection E as <- <-. rewrite setn_same. exists t. split; auto. unfold covers. cbn. split; auto. split; auto. split; auto. split; [lia|]. apply equal_instr_refl. eapply compute_wfp; eauto.
        -- destruct (I6 q b Hq) as (t0 & T1 & T2). exists t0. split; auto. rewrite setn_other; auto. congruence.
      * intros q t0 Hq. destruct (Nat.eq_dec q p0) as [->|N]; [rewrite setn_same in Hq; injection Hq as <-; cbn; auto|rewrite setn_other in Hq by auto; eauto].
  - unfold twiddle_destroy in H. destruct (ts_node s p) as [t|] eqn:Et; [|discriminate]. apply bind_ret in H as (c & Ec & H). unfold cint in Ec. apply ck_inv in Ec as [-> _].
    destruct (I5 p t Et) as [R1 R2]. rewrite users_app, users_cons in R1. destruct (Nat.eq_dec p p) as [_|]; [|congruence].
    assert (Us : users_of p (u1 ++ u2) = Z.to_nat (tw_refcnt t - 1)) by (rewrite users_app; lia).
    assert (Uo : forall q, q <> p -> users_of q (u1 ++ (p, a) :: u2) = users_of q (u1 ++ u2)). { intros q N. rewrite !users_app, users_cons. destruct (Nat.eq_dec p q); [congruence|reflexivity]. }
    assert (Hin : forall q b, In (q, b) (u1 ++ u2) -> In (q, b) (u1 ++ (p, a) :: u2)). { intros q b. rewrite !in_app_iff. cbn. tauto. }
    destruct (Z.eqb_spec (tw_refcnt t - 1) 0) as [Z0|Z0].
    + apply bind_ret in H as (h & Eh & H). destruct (unlink p (ts_list s h)) as [l|] eqn:El; [|discriminate]. injection H as <-. destruct (unlink_ok p _ (I3 h) l El) as (L1 & L2 & L3).
      assert (ND : forall q t0, setn (ts_node s) p None q = Some t0 -> q <> p /\ ts_node s q = Some t0).
      { intros q t0 Hq. destruct (Nat.eq_dec q p) as [->|N]; [rewrite setn_same in Hq; discriminate|]. rewrite setn_other in Hq by auto. auto. }
      constructor; cbn [ww_st ww_users ts_list ts_node ts_next].
      * intros h' q. destruct (Nat.eq_dec q p) as [->|N].
        -- rewrite setn_same. split; [|intros (t0 & E & _); discriminate]. intros C. exfalso. destruct (Z.eq_dec h' h) as [->|N'].
           ++ rewrite setz_same in C. apply L3 in C. tauto.
           ++ rewrite setz_other in C by auto. apply I1 in C as (t0 & T & T'). assert (t0 = t) by congruence. subst. congruence.
        -- rewrite setn_other by auto. rewrite <- I1. destruct (Z.eq_dec h' h) as [->|N']; [rewrite setz_same, L3; tauto|now rewrite setz_other by auto].
      * intros q t0 Hq. apply ND in Hq as [_ Hq]. eauto.
      * intros h'. destruct (Z.eq_dec h' h) as [->|N']; [now rewrite setz_same|now rewrite setz_other by auto].
      * intros q t0 Hq. apply ND in Hq as [_ Hq]. eauto.
      * intros q t0 Hq. apply ND in Hq as [N Hq]. apply I5 in Hq. rewrite Uo in Hq by auto. exact Hq.
      * intros q b Hq. assert (N : q <> p). { intros ->. assert (0 < users_of p (u1 ++ u2))%nat by (apply users_in; eauto). lia. }
        destruct (I6 q b (Hin q b Hq)) as (t0 & T1 & T2). exists t0. split; auto. now rewrite setn_other by auto.
      * intros q t0 Hq. apply ND in Hq as [_ Hq]. eauto.
    + injection H as <-.
      assert (ND : forall q t', setn (ts_node s) p (Some (with_ref t (tw_refcnt t - 1))) q = Some t' -> exists t0, ts_node s q = Some t0 /\ tw_n t' = tw_n t0 /\ tw_r t' = tw_r t0 /\ tw_m t' = tw_m t0 /\ tw_in t' = tw_in t0 /\ tw_wake t' = tw_wake t0 /\ tw_W t' = tw_W t0 /\ tw_refcnt t' = tw_refcnt t0 - (if Nat.eq_dec p q then 1 else 0)).
      { intros q t' Hq. destruct (Nat.eq_dec p q) as [<-|N].
        - rewrite setn_same in Hq. injection Hq as <-. exists t. cbn. auto 10.
        - rewrite setn_other in Hq by congruence. exists t'. rewrite Z.sub_0_r. auto 10. }
      assert (DN : forall q t0, ts_node s q = Some t0 -> exists t', setn (ts_node s) p (Some (with_ref t (tw_refcnt t - 1))) q = Some t' /\ tw_n t' = tw_n t0 /\ tw_r t' = tw_r t0 /\ tw_m t' = tw_m t0 /\ tw_in t' = tw_in t0 /\ tw_wake t' = tw_wake t0).
      { intros q t0 Hq. destruct (Nat.eq_dec q p) as [->|N].
        - rewrite setn_same. rewrite Et in Hq. injection Hq as <-. eexists. split; [reflexivity|]. cbn. auto 10.
        - rewrite setn_other by auto. eauto 10. }
      constructor; cbn [ww_st ww_users ts_list ts_node ts_next]; auto.
      * intros h' q. rewrite I1. split; intros (t0 & H1 & H2).
        -- destruct (DN q t0 H1) as (t' & D1 & D2 & D3 & _). exists t'. split; auto. now rewrite D2, D3.
        -- destruct (ND q t0 H1) as (t' & D1 & D2 & D3 & _). exists t'. split; auto. now rewrite <- D2, <- D3.
      * intros q t' Hq. destruct (ND q t' Hq) as (t0 & D1 & -> & -> & _). eauto.
      * intros q t' Hq. destruct (ND q t' Hq) as (t0 & D1 & _). eauto.
      * intros q t' Hq. destruct (ND q t' Hq) as (t0 & D1 & _ & _ & _ & _ & _ & _ & ->). destruct (I5 q t0 D1) as [Q1 Q2]. destruct (Nat.eq_dec p q) as [<-|N].
        -- assert (t0 = t) by congruence. subst. lia.
        -- rewrite Uo in Q1 by auto. lia.
      * intros q b Hq. destruct (I6 q b (Hin q b Hq)) as (t0 & T1 & T2). destruct (DN q t0 T1) as (t' & D1 & D2 & D3 & D4 & D5 & D6). exists t'. split; auto. unfold covers in *. now rewrite D2, D3, D4, D5, D6.
      * intros q t' Hq. destruct (ND q t' Hq) as (t0 & D1 & -> & -> & -> & -> & -> & -> & _). eauto.
Qed.
Lemma tinv_reach M x : tw_reach M x -> tinv M x.
Proof.
  induction 1 as [|x y Hr Iv S]; [|eapply tinv_step; eauto].
  constructor; cbn; try discriminate; auto; try contradiction.
  - intros h p. split; [contradiction|intros (t & E & _); discriminate].
  - constructor.
Qed.

(** C32 (correct for every sharer): whatever the history of wake-ups and sleeps of all
    plans, the table to which a plan that is awake points is in memory and starts with
    exactly what a fresh computation for that plan would give. *)
Theorem C32_correct_table M x p a F : tw_reach M x -> In (p, a) (ww_users x) ->
  compute M (rq_wake a) (rq_in a) (rq_n a) (rq_r a) (rq_m a) = Ret F ->
  exists t G, ts_node (ww_st x) p = Some t /\ tw_W t = F ++ G.
Proof.
  intros Hr Hu HF. pose proof (tinv_reach M x Hr) as Iv. destruct (ti_user M x Iv p a Hu) as (t & Et & C1 & C2 & C3 & C4 & C5).
  pose proof (ti_table M x Iv p t Et) as T. rewrite C1, C2, C3 in HF. rewrite <- (compute_equal M _ _ _ _ _ _ C5) in HF.
  destruct (compute_prefix M _ _ _ _ _ _ _ _ C4 HF T) as (G & EG). exists t, G. auto.
Qed.
(** ... for legal requests: the table of the specification. *)
Theorem C32_correct_values M x p a body vl : 2 ^ 31 - 1 <= M -> tw_reach M x -> In (p, a) (ww_users x) -> legal M a body vl ->
  exists t G, ts_node (ww_st x) p = Some t /\ tw_W t = tw_table (gen (rq_wake a) (rq_n a)) (rq_r a) (rq_m a) vl (rq_in a) ++ G.
Proof. intros HM Hr Hu L. eapply C32_correct_table; eauto. eapply C32_contents; eauto. Qed.

(** C32 (freed exactly when unused): a node is in memory if and only if some plan that is
    awake uses it; in particular nothing is left when all plans are asleep. *)
Theorem C32_freed_when_unused M x p : tw_reach M x ->
  ((exists t, ts_node (ww_st x) p = Some t) <-> (exists a, In (p, a) (ww_users x))).
Proof.
  intros Hr. pose proof (tinv_reach M x Hr) as Iv. split.
  - intros (t & Et). destruct (ti_ref M x Iv p t Et) as [R1 R2]. apply users_in. lia.
  - intros (a & Ha). destruct (ti_user M x Iv p a Ha) as (t & Et & _). eauto.
Qed.

(** C32 (no undefined behaviour): a plan that is awake can go to sleep, and a plan with a
    legal request can wake up (as long as fewer than 2^31 - 1 plans are awake: the
    reference count is an int). *)
Theorem C32_can_sleep M s u1 p a u2 : tw_reach M (mkww s (u1 ++ (p, a) :: u2)) -> Z.of_nat (length (u1 ++ (p, a) :: u2)) < 2 ^ 31 ->
  exists s', twiddle_destroy M p s = Ret s'.
Proof.
  intros Hr Hl. pose proof (tinv_reach M _ Hr) as Iv. destruct (ti_user M _ Iv p a) as (t & Et & _); [cbn; rewrite in_app_iff; right; now left|]. cbn [ww_st] in Et.
  destruct (ti_ref M _ Iv p t Et) as [R1 R2]. cbn [ww_users] in R1. pose proof (users_le p (u1 ++ (p, a) :: u2)) as B.
  unfold twiddle_destroy. rewrite Et. unfold cint. rewrite ck_ok by lia. cbn [bind]. destruct (Z.eqb_spec (tw_refcnt t - 1) 0); [|eauto].
  destruct (ti_hash M _ Iv p t Et) as (h & Eh). rewrite Eh. cbn [bind].
  destruct (unlink_some p (ts_list s h)) as (l & ->); [|eauto]. apply (ti_list M _ Iv h p). eauto.
Qed.
Theorem C32_can_wake M x a body vl : 2 ^ 31 - 1 <= M -> tw_reach M x -> legal M a body vl -> Z.of_nat (length (ww_users x)) < 2 ^ 31 - 1 ->
  exists p s', tw_awake M a (ww_st x) = Ret (p, s').
Proof.
  intros HM Hr L Hl. pose proof (tinv_reach M x Hr) as Iv. pose proof (C32_contents M a body vl HM L) as HC. unfold tw_awake, mktwiddle, lookup.
  assert (Eh : exists h, tw_hash M (rq_n a) (rq_r a) = Ret h).
  { destruct L as [_ [L2 L2'] L3 _ _ _ _ _]. unfold tw_hash. rewrite ck_ok by lia. cbn [bind]. rewrite ck_ok by lia. cbn [bind]. destruct (Z.ltb_spec (rq_n a * 17 + rq_r a) 0); [lia|]. cbn. eauto. }
  destruct Eh as (h & Eh). rewrite Eh. cbn [bind].
  assert (El : exists o, lookup_in (ts_node (ww_st x)) (ts_list (ww_st x) h) (rq_wake a) (rq_in a) (rq_n a) (rq_r a) (rq_m a) = Ret o).
  { assert (G : forall l, (forall q, In q l -> exists t, ts_node (ww_st x) q = Some t) -> exists o, lookup_in (ts_node (ww_st x)) l (rq_wake a) (rq_in a) (rq_n a) (rq_r a) (rq_m a) = Ret o).
    { intros l0. induction l0 as [|q l0 IH]; intros H; [now exists None|]. cbn. destruct (H q (or_introl eq_refl)) as (t & Et). rewrite Et. unfold ok_twid.
      destruct (_ && _ && _ && _); cbn [bind].
      - destruct (equal_instr_total (tw_in t) (rq_in a)) as (b & ->); [eapply compute_wfp, (ti_table M x Iv q t Et)|eapply compute_wfp, HC|]. cbn [bind]. destruct b; [eauto|]. apply IH. intros; apply H; now right.
      - apply IH. intros; apply H; now right. }
    apply G. intros q Hq. apply (ti_list M x Iv) in Hq as (t & Et & _). eauto. }
  destruct El as (o & El). rewrite El. cbn [bind]. destruct o as [p|].
  - apply lookup_in_spec in El as [_ (t & Et & _)]. rewrite Et. destruct (ti_ref M x Iv p t Et) as [R1 R2]. pose proof (users_le p (ww_users x)).
    unfold cint. rewrite ck_ok by lia. cbn [bind]. eauto.
  - rewrite HC. cbn [bind]. eauto.
Qed.

(** ** Non-vacuity *)
(** A request as made by a Cooley-Tukey step of radix r: n = r * m, program TW_FULL 0. *)
Definition ct_prog : list tw_instr := [mkin TW_FULL 0 0; mkin TW_NEXT 1 0].
Lemma C32_ct_legal M r m : 0 < r -> 0 < m -> 18 * (r * m) + 128 <= M -> legal M (mkrq AWAKE_SQRTN_TABLE ct_prog (r * m) r m) [mkin TW_FULL 0 0] 1.
Proof.
  intros Hr Hm HM. constructor; cbn [rq_wake rq_n rq_r rq_m rq_in]; try nia.
  - discriminate.
  - split; [exists (mkin TW_NEXT 1 0), []; auto|]. constructor; [discriminate|constructor].
  - split; [lia|apply Z.divide_1_l].
  - intros ntw. unfold twlen0. destruct (Z.ltb_spec 0 r); [|lia]. cbn [assert_ bind twlen0_loop ct_prog op]. intros E. assert (ntw = 0 + (r - 1) * 2) by congruence. rewrite Z.div_1_r. nia.
  - intros j Hj _. constructor; [|constructor]. split; [cbn; lia|]. cbn [op iv]. intros i Hi. nia.
Qed.
(** Two plans of size 12, radix 3: one with 4 rows, one that uses the first 2 only; both
    share one table, of which one remains after the first is asleep. *)
Example C32_share : let M := 2 ^ 63 - 1 in
  let a := mkrq AWAKE_SQRTN_TABLE ct_prog 12 3 4 in let b := mkrq AWAKE_SQRTN_TABLE ct_prog 12 3 2 in
  exists s, tw_reach M (mkww s [(0%nat, b)]) /\
    exists t G, ts_node s 0 = Some t /\ tw_W t = tw_table (root 12) 3 2 1 ct_prog ++ G /\ tw_refcnt t = 1.
Proof.
  intros M a b. assert (La : legal M a [mkin TW_FULL 0 0] 1) by (apply (C32_ct_legal M 3 4); unfold M; lia).
  pose proof (C32_contents M a _ 1 ltac:(unfold M; lia) La) as Ca.
  set (F := tw_table (gen (rq_wake a) (rq_n a)) (rq_r a) (rq_m a) 1 (rq_in a)) in Ca.
  set (s1 := mkts (setz (fun _ => []) 98 [0%nat]) (setn (fun _ => None) 0 (Some (mktw F 12 3 4 1 ct_prog AWAKE_SQRTN_TABLE))) 1).
  assert (W1 : tw_awake M a tw_init = Ret (0%nat, s1)).
  { unfold tw_awake, mktwiddle, lookup. change (tw_hash M (rq_n a) (rq_r a)) with (Ret 98). cbn [bind tw_init ts_list lookup_in]. rewrite Ca. reflexivity. }
  set (s2 := mkts (ts_list s1) (setn (ts_node s1) 0 (Some (mktw F 12 3 4 2 ct_prog AWAKE_SQRTN_TABLE))) 1).
  assert (W2 : tw_awake M b s1 = Ret (0%nat, s2)) by reflexivity.
  set (s3 := mkts (ts_list s1) (setn (ts_node s2) 0 (Some (mktw F 12 3 4 1 ct_prog AWAKE_SQRTN_TABLE))) 1).
  assert (W3 : twiddle_destroy M 0 s2 = Ret s3) by reflexivity.
  exists s3. split.
  - eapply tr_step; [|apply (tw_sleep M s2 [(0%nat, b)] [] a 0 s3 W3)].
    eapply tr_step; [|apply (tw_wake_up M s1 [(0%nat, a)] b 0 s2 W2)]. eapply tr_step; [apply tr_init|]. exact (tw_wake_up M tw_init [] a 0 s1 W1).
  - eexists. eexists. split; [reflexivity|]. split; [|reflexivity]. cbn [tw_W]. unfold F, tw_table. cbn [rq_wake rq_n rq_r rq_m rq_in a gen].
    change (zr (4 / 1)) with (zr (2 / 1) ++ [2; 3]). rewrite map_app, concat_app. reflexivity.
Qed.

Print Assumptions C32_contents.
Print Assumptions C32_correct_table.
Print Assumptions C32_correct_values.
Print Assumptions C32_freed_when_unused.
Print Assumptions C32_can_sleep.
Print Assumptions C32_can_wake.
