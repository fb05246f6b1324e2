(** * Property C41: the MPI block distribution covers the data *)
From Coq Require Import ZArith List Lia Bool Znumtheory.
From Verif Require Import Base PrimesModel PrimesProofs NumTheory MpiModel MpiProofs MpiProofs2 MpiSlab.
Import ListNotations.
Open Scope Z_scope.

(** ** Specification

    A process holds a rectangle: [(len, start)] are its extent and origin in
    each dimension; [holds r j] says that the multi-index [j] lies in it.
    [within n j]: [j] is an index of an array of dimensions [n]. *)
Definition holds (r : list Z * list Z) (j : list Z) : Prop :=
  length j = length (fst r) /\
  forall i, (i < length j)%nat -> nth i (snd r) 0 <= nth i j 0 < nth i (snd r) 0 + nth i (fst r) 0.
Definition within (n j : list Z) : Prop :=
  length j = length n /\ forall i, (i < length j)%nat -> 0 <= nth i j 0 < nth i n 0.
(** [P] processes, process [w] holding [r w], share out an array of dimensions
    [n]: every element is on exactly one process and nothing else is held. *)
Definition shared_out (n : list Z) (P : Z) (r : Z -> list Z * list Z) : Prop :=
  (forall j, within n j -> exists w, 0 <= w < P /\ holds (r w) j /\
     forall w', 0 <= w' < P -> holds (r w') j -> w' = w) /\
  (forall w j, 0 <= w < P -> holds (r w) j -> within n j).
Fixpoint size (l : list Z) : Z := match l with [] => 1 | x :: t => x * size t end.
(** [n] divided by [b], rounded up *)
Definition ceiling (n b q : Z) : Prop := (q - 1) * b < n <= q * b.

(** ** One dimension *)
Theorem C41_blocks : forall n b, 0 <= n -> 1 <= b ->
  (exists q, num_blocks n b = Ret q /\ ceiling n b q /\
     forall w, 0 <= w -> (0 < block n b w <-> w < q)) /\
  (forall w, 0 <= w -> 0 <= block n b w <= b /\ (0 < block n b w -> w * b + block n b w <= n)) /\
  (forall j, 0 <= j < n -> exists w, 0 <= w /\ w * b <= j < w * b + block n b w /\
     forall w', 0 <= w' -> w' * b <= j < w' * b + block n b w' -> w' = w).
Proof.
  intros n b Hn Hb. split; [|split].
  - exists (nblk n b). split; [now apply num_blocks_ok|]. pose proof (nblk_bounds n b Hn Hb).
    split; [unfold ceiling; lia|]. intros w Hw. destruct (Z.eq_dec n 0) as [->|].
    + assert (nblk 0 b = 0) by nia. unfold block. destruct (Z.leb_spec (0 - w * b) 0); [lia|nia].
    + apply block_pos; lia.
  - intros w Hw. split; [now apply block_nonneg|apply block_range].
  - intros j Hj. exists (j / b). assert (0 <= j / b) by (apply Z.div_pos; lia). split; auto. split.
    + apply block_in; auto.
    + intros w' Hw'. apply block_in; auto.
Qed.
Print Assumptions C41_blocks.

(** The blocks of [P] processes add up to [n] as soon as there are enough of them. *)
Theorem C41_sum : forall n b P, 0 <= n -> 1 <= b -> (n <= Z.of_nat P * b) ->
  fold_right Z.add 0 (map (fun w => block n b (Z.of_nat w)) (seq 0 P)) = n.
Proof.
  intros n b P Hn Hb HP.
  assert (G : forall p, fold_right Z.add 0 (map (fun w => block n b (Z.of_nat w)) (seq 0 p)) = Z.min n (Z.of_nat p * b)).
  { induction p as [|p IH]; [cbn; lia|]. rewrite seq_S, map_app, fold_right_app. cbn [map fold_right].
    assert (A : forall l a, fold_right Z.add a l = fold_right Z.add 0 l + a).
    { induction l as [|x l IHl]; intros a; cbn; [lia|]. rewrite IHl. lia. }
    rewrite A, IH. cbn [Nat.add]. unfold block.
    destruct (Z.leb_spec (n - Z.of_nat p * b) 0); [lia|]. destruct (Z.ltb_spec b (n - Z.of_nat p * b)); lia. }
  rewrite G. lia.
Qed.
Print Assumptions C41_sum.

(** The default block size: at most [P] blocks, and no smaller block size
    would do. *)
Theorem C41_default_block : forall n P, 1 <= n -> 1 <= P ->
  exists b, default_block n P = Ret b /\ 1 <= b /\ n <= P * b /\ (forall b', 1 <= b' -> n <= P * b' -> b <= b') /\
  exists q, num_blocks n b = Ret q /\ 1 <= q <= P.
Proof.
  intros n P Hn HP. exists (nblk n P). pose proof (nblk_bounds n P ltac:(lia) HP). pose proof (nblk_pos n P Hn HP).
  split; [apply default_block_ok; lia|]. split; [lia|]. split; [lia|]. split; [intros; nia|].
  exists (nblk n (nblk n P)). split; [apply num_blocks_ok; lia|]. split; [apply nblk_pos; lia|apply nblk_default; lia].
Qed.
Print Assumptions C41_default_block.

(** ** fftw_mpi_local_size_guru

    The user gives the dimensions with their input and output block sizes, 0
    meaning "choose".  [processes_needed]: the processes that the explicitly
    chosen blocks need. *)
Definition user_blocks (k : kind) (d : ddim) : Z := match k with IB => bI d | OB => bO d end.
Inductive processes_needed (k : kind) : list ddim -> Z -> Prop :=
| pn_nil : processes_needed k [] 1
| pn_default : forall d t p, user_blocks k d = 0 -> processes_needed k t p -> processes_needed k (d :: t) p
| pn_user : forall d t q p, user_blocks k d <> 0 -> ceiling (dn_ d) (user_blocks k d) q ->
    processes_needed k t p -> processes_needed k (d :: t) (q * p).
Definition enough (k : kind) (dims : list ddim) (P : Z) : Prop := forall p, processes_needed k dims p -> p <= P.

Record guru_args (M : Z) (dims : list ddim) (howmany P sign flags : Z) : Prop := {
  ga_dims : dims <> [];
  ga_sizes : forall d, In d dims -> 1 <= dn_ d /\ 0 <= bI d /\ 0 <= bO d;
  ga_howmany : 1 <= howmany;
  ga_P : 1 <= P;
  (* one-dimensional transforms need primality tests and square roots of n in an
     INT, and a sign unless the batch is spread over the processes *)
  ga_1d : forall d, dims = [d] -> 2 ^ 31 - 1 <= M /\ dn_ d < M /\
    (exists r, 0 <= r /\ dn_ d < r * r /\ (r + 1) * (r + 1) <= M) /\
    (sign = -1 \/ sign = 1 \/ (P <= howmany /\ flags < 2 ^ 27 /\ 0 <= flags))
}.

(** A user-chosen block size [b] for dimension [i] is respected by a rectangle. *)
Definition respects (k : kind) (dims : list ddim) (r : list Z * list Z) : Prop :=
  forall i d, nth_error dims i = Some d -> user_blocks k d <> 0 ->
    (user_blocks k d | nth i (snd r) 0) /\ nth i (fst r) 0 <= user_blocks k d.

Lemma needed_spec k dims : (forall d, In d dims -> 1 <= dn_ d /\ 0 <= bI d /\ 0 <= bO d) -> processes_needed k dims (needed k dims).
Proof.
  induction dims as [|d t IH]; intros H; cbn [needed map zprod]; [constructor|].
  assert (Hd := H d (or_introl eq_refl)). fold (needed k t).
  assert (IH' : processes_needed k t (needed k t)) by (apply IH; intros; apply H; now right).
  destruct (Z.eqb_spec (bk k d) 0) as [E|E].
  - change (zprod (map (fun d => if bk k d =? 0 then 1 else nblk (dn_ d) (bk k d)) t)) with (needed k t).
    rewrite Z.mul_1_l. apply pn_default; auto.
  - apply pn_user; auto. assert (1 <= bk k d) by (destruct k; cbn in *; lia).
    pose proof (nblk_bounds (dn_ d) (bk k d) ltac:(lia) ltac:(lia)).
    unfold ceiling. change (user_blocks k d) with (bk k d). lia.
Qed.

Lemma Forall2_len {A B} (Q : A -> B -> Prop) l l' : Forall2 Q l l' -> length l = length l'.
Proof. induction 1; cbn; auto. Qed.
Lemma locw_lengths k sz w : good k sz -> length (fst (locw k sz w)) = length sz /\ length (snd (locw k sz w)) = length sz.
Proof.
  intros G. unfold locw. destruct (_ <=? _); [cbn; now rewrite map_length|].
  assert (L : forall sz, good k sz -> forall cs, length cs = length sz -> length (fst (local_blocks sz k cs)) = length sz /\ length (snd (local_blocks sz k cs)) = length sz).
  { clear. induction 1 as [|d t [H1 H2] H IH]; intros [|c cs] E; try discriminate; auto. cbn [local_blocks].
    destruct (IH cs ltac:(cbn in E; lia)) as [L1 L2]. destruct (local_blocks t k cs); cbn in *; lia. }
  apply L; auto. pose proof (coords_box k sz w G) as B. apply Forall2_len in B. unfold nbs in B. rewrite map_length in B. lia.
Qed.

Lemma locw_respects k dims sz w : good k sz -> valid dims -> map dn_ sz = map dn_ dims -> honours k dims sz -> 0 <= w -> respects k dims (locw k sz w).
Proof.
  intros G V ED H Hw. unfold locw. destruct (Z.leb_spec (zprod (nbs k sz)) w).
  - intros i d Hi Hne. cbn [fst snd]. assert (1 <= bk k d).
    { apply nth_error_In in Hi. eapply Forall_forall in V; [|apply Hi]. pose proof (valid_bk k d (proj2 V)). change (user_blocks k d) with (bk k d) in Hne. lia. }
    assert (Z0 : forall l, nth i (map (fun _ : ddim => 0) l) 0 = 0).
    { intros l. revert i Hi. clear. intros i _. revert i. induction l as [|x l IH]; intros [|i]; cbn; auto. }
    rewrite Z0. split; [apply Z.divide_0_r|]. change (user_blocks k d) with (bk k d). lia.
  - pose proof (coords_box k sz w G) as B. revert B. generalize (coords k sz w) as cs. revert sz G ED H H0.
    clear Hw. intros sz G ED H _. revert G ED. induction H as [|d0 d l l' Hd Ht IH]; intros G ED cs B.
    + intros i d Hi. destruct i; discriminate.
    + inversion G as [|? ? [G1 G2] Gt]; subst. inversion V as [|? ? V0 Vt]; subst. cbn in ED. injection ED as ED0 ED.
      inversion B as [|? c ? cs' Hc Bt]; subst. cbn [local_blocks].
      specialize (IH Vt Gt ED cs' Bt). destruct (local_blocks l' k cs') as [ln ls].
      intros [|i] e He Hne; cbn [fst snd nth nth_error] in *.
      * injection He as <-. change (user_blocks k d0) with (bk k d0) in *.
        destruct (Hd Hne) as [E|[E1 E2]].
        -- rewrite E. split; [exists c; ring|]. pose proof (block_nonneg (dn_ d) (bk k d0) c ltac:(lia)). lia.
        -- rewrite E2. rewrite ED0. assert (c = 0). { rewrite nblk_self in Hc by lia. lia. } subst c.
           split; [rewrite Z.mul_0_l; apply Z.divide_0_r|]. pose proof (block_nonneg (dn_ d0) (dn_ d0) 0 ltac:(lia)). lia.
      * apply (IH i e He Hne).
Qed.

Lemma guru_core M dims howmany P sign flags : guru_args M dims howmany P sign flags ->
  args_ok M dims howmany P sign flags.
Proof.
  intros [A1 A2 A3 A4 A5]. split; [auto|]. split; [auto|]. split; [now apply Forall_forall|]. split; [auto|].
  destruct dims as [|d [|d' t]]; [congruence| |].
  - destruct (A5 d eq_refl) as (B1 & B2 & B3 & B4). split; [cbn; auto|]. intros _. destruct B4 as [?|[?|(C1 & C2 & C3)]]; auto.
    right; right. split; auto. rewrite Z.shiftr_div_pow2 by lia. apply Z.div_small; lia.
  - split; [exact I|]. cbn. lia.
Qed.
Lemma size_prod l : prod l = size l.
Proof. apply prod_zprod. Qed.

Theorem C41_guru : forall M dims howmany P sign flags, guru_args M dims howmany P sign flags ->
  exists (N : Z -> Z) (rin rout : Z -> list Z * list Z),
  (forall w, 0 <= w < P -> local_size_guru M dims howmany P w sign flags = Ret (N w, rin w, rout w)) /\
  (enough IB dims P -> shared_out (map dn_ dims) P rin) /\
  (enough OB dims P -> shared_out (map dn_ dims) P rout) /\
  (forall w, 0 <= w < P -> howmany <= N w /\ howmany * size (fst (rin w)) <= N w /\ howmany * size (fst (rout w)) <= N w) /\
  ((2 <= length dims)%nat -> forall w, 0 <= w < P -> respects IB dims (rin w) /\ respects OB dims (rout w)).
Proof.
  intros M dims howmany P sign flags A.
  destruct (guru_ok M dims howmany P sign flags (guru_core _ _ _ _ _ _ A)) as (sz & S1 & S2 & S3).
  destruct A as [A1 A2 A3 A4 A5].
  set (val := fun w => match local_size_guru M dims howmany P w sign flags with Ret (N, _, _) => N | _ => 0 end).
  exists val, (locw IB sz), (locw OB sz).
  assert (Ln : sz <> []). { intros ->. pose proof (so_dn _ _ _ S1). destruct dims; [congruence|discriminate]. }
  split; [|split; [|split; [|split]]].
  - intros w Hw. destruct (S3 w ltac:(lia)) as (N & E & _). unfold val. now rewrite E.
  - intros En. split.
    + intros j Hj. apply dist_unique; auto; [apply (so_gI _ _ _ S1)| |].
      * apply (so_nI _ _ _ S1). apply En. now apply needed_spec.
      * rewrite (so_dn _ _ _ S1). exact Hj.
    + intros w j Hw Ho. pose proof (dist_inside IB sz w j (so_gI _ _ _ S1) Ln Ho) as D. rewrite (so_dn _ _ _ S1) in D. exact D.
  - intros En. split.
    + intros j Hj. apply dist_unique; auto; [apply (so_gO _ _ _ S1)| |].
      * apply (so_nO _ _ _ S1). apply En. now apply needed_spec.
      * rewrite (so_dn _ _ _ S1). exact Hj.
    + intros w j Hw Ho. pose proof (dist_inside OB sz w j (so_gO _ _ _ S1) Ln Ho) as D. rewrite (so_dn _ _ _ S1) in D. exact D.
  - intros w Hw. destruct (S3 w ltac:(lia)) as (N & E & B). unfold val. rewrite E. rewrite <- !size_prod. exact B.
  - intros L2 w Hw. destruct (S2 L2) as [H1 H2]. assert (V : valid dims) by now apply Forall_forall.
    split; apply locw_respects; auto; try lia; first [apply (so_gI _ _ _ S1)|apply (so_gO _ _ _ S1)|apply (so_dn _ _ _ S1)].
Qed.
Print Assumptions C41_guru.

(** ** fftw_mpi_local_size, _many, _transposed, _many_transposed

    Slabs: process [w] holds [len] consecutive rows from [start] on. *)
Definition slabs (n P : Z) (r : Z -> Z * Z) : Prop :=
  (forall i, 0 <= i < n -> exists w, 0 <= w < P /\ snd (r w) <= i < snd (r w) + fst (r w) /\
     forall w', 0 <= w' < P -> snd (r w') <= i < snd (r w') + fst (r w') -> w' = w) /\
  (forall w i, 0 <= w < P -> snd (r w) <= i < snd (r w) + fst (r w) -> 0 <= i < n).

Lemma slabs_block n b P : 1 <= n -> 1 <= b -> nblk n b <= P ->
  slabs n P (fun w => if nblk n b <=? w then (0, 0) else (block n b w, w * b)).
Proof.
  intros Hn Hb HP. split.
  - intros i Hi. exists (i / b). pose proof (nblk_bounds n b ltac:(lia) Hb).
    assert (Q : 0 <= i / b < nblk n b) by (split; [apply Z.div_pos; lia|apply Z.div_lt_upper_bound; nia]).
    split; [lia|]. split.
    + destruct (Z.leb_spec (nblk n b) (i / b)); [lia|]. cbn [fst snd]. apply block_in; lia.
    + intros w' Hw'. destruct (Z.leb_spec (nblk n b) w'); cbn [fst snd]; [lia|]. intros Hi'. apply block_in in Hi'; lia.
  - intros w i Hw. destruct (Z.leb_spec (nblk n b) w); cbn [fst snd]; [lia|].
    intros Hi. pose proof (block_range n b w ltac:(lia)). nia.
Qed.

Definition mt_args (n : list Z) (howmany P xblock yblock : Z) : Prop :=
  Forall (fun x => 1 <= x) n /\ 1 <= howmany /\ 1 <= P /\ 0 <= xblock /\ 0 <= yblock.

Lemma valid_many n xblock yblock : Forall (fun x => 1 <= x) n -> 0 <= xblock -> 0 <= yblock -> valid (many_dims n xblock yblock).
Proof.
  intros H Hx Hy. destruct n as [|n0 [|n1 t]]; [constructor| |].
  - inversion H; subst. constructor; [cbn; lia|constructor].
  - inversion H as [|? ? H0 H']; subst. inversion H' as [|? ? H1 Ht]; subst. cbn [many_dims].
    apply Forall_app. split.
    + destruct (yblock <? n1); (constructor; [cbn; lia|constructor; [cbn; lia|constructor]]).
    + apply Forall_forall. intros d Hd. apply in_map_iff in Hd as (x & <- & Hx'). eapply Forall_forall in Ht; [|apply Hx']. cbn. lia.
Qed.


Lemma honours_local k dims sz : honours k dims sz -> map dn_ sz = map dn_ dims ->
  Forall (fun d => 1 <= dn_ d /\ bk k d = dn_ d) dims -> local k sz.
Proof.
  induction 1 as [|d0 d l l' Hd H IH]; intros E F; [constructor|]. cbn in E. injection E as E0 E.
  inversion F as [|? ? [F1 F2] Ft]; subst. constructor; [|apply IH; auto].
  destruct Hd as [K|[_ K]]; [lia| |]; congruence.
Qed.
Lemma needed_local k dims : Forall (fun d => 1 <= dn_ d /\ bk k d = dn_ d) dims -> needed k dims = 1.
Proof.
  unfold needed. induction 1 as [|d t [H1 H2] H IH]; auto. cbn [map zprod]. rewrite IH, H2, nblk_self by lia. now destruct (_ =? 0).
Qed.
Lemma needed_cons k d t : needed k (d :: t) = (if bk k d =? 0 then 1 else nblk (dn_ d) (bk k d)) * needed k t.
Proof. reflexivity. Qed.
Lemma tail_local k t : Forall (fun x => 1 <= x) t -> Forall (fun d => 1 <= dn_ d /\ bk k d = dn_ d) (map (fun x => mkdd x x x) t).
Proof. induction 1; cbn [map]; constructor; auto. split; [auto|now destruct k]. Qed.

Definition slab_of (n b w : Z) : Z * Z := if nblk n b <=? w then (0, 0) else (block n b w, w * b).

(** [T] is true when the output is requested transposed (yblock < n1) *)
Lemma many_core M n0 n1 t howmany P xblock yblock : mt_args (n0 :: n1 :: t) howmany P xblock yblock ->
  (xblock = 0 \/ n0 <= P * xblock) -> (yblock = 0 \/ n1 <= P * yblock) ->
  exists bx by_, 1 <= bx /\ 1 <= by_ /\ nblk n0 bx <= P /\ (yblock < n1 -> nblk n1 by_ <= P) /\
  (xblock <> 0 -> bx = xblock \/ (n0 <= xblock /\ bx = n0)) /\ (yblock <> 0 -> by_ = yblock \/ (n1 <= yblock /\ by_ = n1)) /\
  forall w, 0 <= w -> exists N yy,
    local_size_many_transposed M (n0 :: n1 :: t) howmany xblock yblock P w = Ret (N, slab_of n0 bx w, yy) /\
    (yblock < n1 -> yy = slab_of n1 by_ w) /\
    howmany <= N /\ howmany * (fst (slab_of n0 bx w) * n1 * size t) <= N /\
    (yblock < n1 -> howmany * (n0 * fst (slab_of n1 by_ w) * size t) <= N).
Proof.
  intros (H1 & H2 & H3 & H4 & H5) HX HY.
  inversion H1 as [|? ? Hn0 H1']; subst. inversion H1' as [|? ? Hn1 Ht]; subst.
  set (dims := many_dims (n0 :: n1 :: t) xblock yblock).
  assert (V : valid dims) by now apply valid_many.
  assert (AO : args_ok M dims howmany P 0 0).
  { assert (exists a b c, dims = a :: b :: c) as (a & b & c & E) by (unfold dims; cbn [many_dims]; destruct (yblock <? n1); cbn; eauto).
    split; [auto|]. split; [auto|]. split; [auto|]. rewrite E. split; [discriminate|]. split; [exact Logic.I|]. cbn. lia. }
  destruct (guru_ok M dims howmany P 0 0 AO) as (sz & S1 & S2 & S3).
  assert (L2 : (2 <= length dims)%nat).
  { unfold dims. cbn [many_dims]. destruct (yblock <? n1); cbn; lia. }
  destruct (S2 L2) as [HI HO]. pose proof (so_dn _ _ _ S1) as DN. pose proof (so_gI _ _ _ S1) as GI. pose proof (so_gO _ _ _ S1) as GO.
  pose proof (so_nI _ _ _ S1) as NI. pose proof (so_nO _ _ _ S1) as NO.
  assert (EDIM : map dn_ dims = n0 :: n1 :: t).
  { unfold dims. cbn [many_dims]. destruct (yblock <? n1); cbn [app map dn_]; rewrite map_map; cbn; now rewrite map_id. }
  rewrite EDIM in DN. destruct sz as [|e0 [|e1 sz]]; try discriminate. cbn [map] in DN. injection DN as D0 D1 DT.
  assert (KX : xblock <> 0 -> nblk n0 xblock <= P). { intros Hx. apply nblk_le; lia. }
  assert (KY : yblock <> 0 -> nblk n1 yblock <= P). { intros Hx. apply nblk_le; lia. }
  assert (GI0 := GI). inversion GI0 as [|? ? [A1 A2] GI1]; subst. inversion GI1 as [|? ? [B1 B2] GI2]; subst.
  assert (GO0 := GO). inversion GO0 as [|? ? [A1' A2'] GO1]; subst. inversion GO1 as [|? ? [B1' B2'] GO2]; subst.
  assert (TI : Forall (fun d => 1 <= dn_ d /\ bk IB d = dn_ d) (map (fun x => mkdd x x x) (map dn_ sz))) by now apply tail_local.
  assert (TO : Forall (fun d => 1 <= dn_ d /\ bk OB d = dn_ d) (map (fun x => mkdd x x x) (map dn_ sz))) by now apply tail_local.
  (* the input distribution *)
  assert (LI : local IB (e1 :: sz) /\ (needed IB dims <= P -> True) /\ needed IB dims <= P /\
     (xblock <> 0 -> bI e0 = xblock \/ (dn_ e0 <= xblock /\ bI e0 = dn_ e0))).
  { unfold dims in HI |- *. cbn [many_dims] in HI |- *.
    destruct (yblock <? dn_ e1); cbn [app] in HI |- *; inversion HI as [|? ? ? ? X1 X2]; subst.
    - split; [|split; [auto|split]].
      + eapply honours_local; [apply X2|cbn [map dn_]; f_equal; rewrite map_map; now rewrite map_id|constructor; [cbn; lia|auto]].
      + rewrite !needed_cons. cbn [bk bI bO dn_]. rewrite (needed_local IB _ TI).
        rewrite (nblk_self (dn_ e1)) by lia. destruct (dn_ e1 =? 0); destruct (Z.eqb_spec xblock 0); try lia; specialize (KX ltac:(auto)); lia.
      + exact X1.
    - split; [|split; [auto|split]].
      + eapply honours_local; [apply X2|cbn [map dn_]; f_equal; rewrite map_map; now rewrite map_id|constructor; [cbn; lia|auto]].
      + rewrite !needed_cons. cbn [bk bI bO dn_]. rewrite (needed_local IB _ TI).
        rewrite (nblk_self (dn_ e1)) by lia. destruct (dn_ e1 =? 0); destruct (Z.eqb_spec xblock 0); try lia; specialize (KX ltac:(auto)); lia.
      + exact X1. }
  destruct LI as (LI & _ & LN & LX).
  assert (NX : nblk (dn_ e0) (bI e0) <= P).
  { specialize (NI LN). cbn [nbs map zprod] in NI. fold (nbs IB sz) in NI.
    pose proof (nbs_local IB (e1 :: sz) GI1 LI) as O1. apply zprod_ones in O1. cbn [nbs map zprod] in O1. fold (nbs IB sz) in O1.
    rewrite O1 in NI. cbn [bk] in NI. lia. }
  assert (SI : forall w, 0 <= w -> locw IB (e0 :: e1 :: sz) w =
      if nblk (dn_ e0) (bI e0) <=? w then (zeros (e0 :: e1 :: sz), zeros (e0 :: e1 :: sz))
      else (block (dn_ e0) (bI e0) w :: dn_ e1 :: map dn_ sz, w * bI e0 :: 0 :: zeros sz)).
  { intros w Hw. exact (locw_slab IB [] e0 (e1 :: sz) w GI (Forall_nil _) LI Hw). }
  (* the output distribution *)
  destruct (Z.ltb_spec yblock (dn_ e1)) as [LT|GE].
  - assert (LO : local OB [e0] /\ local OB sz /\ needed OB dims <= P /\
      (yblock <> 0 -> bO e1 = yblock \/ (dn_ e1 <= yblock /\ bO e1 = dn_ e1))).
    { unfold dims in HO |- *. cbn [many_dims] in HO |- *. destruct (Z.ltb_spec yblock (dn_ e1)); [|lia]. cbn [app] in HO |- *.
      inversion HO as [|? ? ? ? X1 X2]; subst. inversion X2 as [|? ? ? ? X3 X4]; subst. cbn [bk bI bO dn_] in X1, X3.
      split; [|split; [|split]].
      + constructor; [|constructor]. cbn [bk]. destruct X1 as [X1|[_ X1]]; [lia| |]; auto.
      + eapply honours_local; [apply X4|rewrite map_map; now rewrite map_id|auto].
      + rewrite !needed_cons. cbn [bk bI bO dn_]. rewrite (needed_local OB _ TO).
        rewrite (nblk_self (dn_ e0)) by lia. destruct (dn_ e0 =? 0); destruct (Z.eqb_spec yblock 0); try lia; specialize (KY ltac:(auto)); lia.
      + exact X3. }
    destruct LO as (LO1 & LO2 & LON & LY).
    assert (SO : forall w, 0 <= w -> locw OB (e0 :: e1 :: sz) w =
      if nblk (dn_ e1) (bO e1) <=? w then (zeros (e0 :: e1 :: sz), zeros (e0 :: e1 :: sz))
      else (dn_ e0 :: block (dn_ e1) (bO e1) w :: map dn_ sz, 0 :: w * bO e1 :: zeros sz)).
    { intros w Hw. exact (locw_slab OB [e0] e1 sz w GO LO1 LO2 Hw). }
    assert (NY : nblk (dn_ e1) (bO e1) <= P).
    { specialize (NO LON). cbn [nbs map zprod] in NO. fold (nbs OB sz) in NO.
      rewrite (zprod_ones _ (nbs_local OB sz GO2 LO2)) in NO.
      pose proof (nbs_local OB [e0] ltac:(constructor; [auto|constructor]) LO1) as O1. cbn [nbs map] in O1. inversion O1 as [|? ? O2 _]; subst.
      cbn [bk] in *. rewrite <- O2 in NO. lia. }
    exists (bI e0), (bO e1). cbn [bk] in *. split; [lia|]. split; [lia|]. split; [auto|]. split; [auto|]. split; [auto|]. split; [auto|].
    intros w Hw. destruct (S3 w Hw) as (N & E & E1 & E2 & E3). exists N, (slab_of (dn_ e1) (bO e1) w).
    unfold local_size_many_transposed. fold dims. rewrite E. cbn [bind]. rewrite (SI w Hw) in E2 |- *. rewrite (SO w Hw) in E3 |- *.
    rewrite !size_prod in *. unfold slab_of.
    destruct (Z.leb_spec (nblk (dn_ e0) (bI e0)) w); destruct (Z.leb_spec (nblk (dn_ e1) (bO e1)) w);
      cbn [zeros map fst snd size] in *; (split; [reflexivity|]); split; auto; split; auto; split; try lia; intros _; lia.
  - assert (LO : local OB (e1 :: sz)).
    { unfold dims in HO |- *. cbn [many_dims] in HO |- *. destruct (Z.ltb_spec yblock (dn_ e1)); [lia|]. cbn [app] in HO |- *.
      inversion HO as [|? ? ? ? X1 X2]; subst.
      eapply honours_local; [apply X2|cbn [map dn_]; f_equal; rewrite map_map; now rewrite map_id|constructor; [cbn; lia|auto]]. }
    assert (SO : forall w, 0 <= w -> locw OB (e0 :: e1 :: sz) w =
      if nblk (dn_ e0) (bO e0) <=? w then (zeros (e0 :: e1 :: sz), zeros (e0 :: e1 :: sz))
      else (block (dn_ e0) (bO e0) w :: dn_ e1 :: map dn_ sz, w * bO e0 :: 0 :: zeros sz)).
    { intros w Hw. exact (locw_slab OB [] e0 (e1 :: sz) w GO (Forall_nil _) LO Hw). }
    exists (bI e0), (dn_ e1). cbn [bk] in *. split; [lia|]. split; [lia|]. split; [auto|]. split; [lia|]. split; [auto|]. split; [auto|].
    intros w Hw. destruct (S3 w Hw) as (N & E & E1 & E2 & E3). exists N, (if nblk (dn_ e0) (bO e0) <=? w then 0 else dn_ e1, 0).
    unfold local_size_many_transposed. fold dims. rewrite E. cbn [bind]. rewrite (SI w Hw) in E2 |- *. rewrite (SO w Hw) in E3 |- *.
    rewrite !size_prod in *. unfold slab_of.
    destruct (Z.leb_spec (nblk (dn_ e0) (bI e0)) w); destruct (Z.leb_spec (nblk (dn_ e0) (bO e0)) w);
      cbn [zeros map fst snd size] in *; (split; [reflexivity|]); split; try lia; split; auto; split; try lia; intros; lia.
Qed.

Theorem C41_slabs : forall M n0 n1 t howmany P xblock yblock, mt_args (n0 :: n1 :: t) howmany P xblock yblock ->
  (xblock = 0 \/ n0 <= P * xblock) -> (yblock = 0 \/ n1 <= P * yblock) ->
  exists (N : Z -> Z) (x y : Z -> Z * Z),
  (forall w, 0 <= w < P ->
     local_size_many_transposed M (n0 :: n1 :: t) howmany xblock yblock P w = Ret (N w, x w, y w)) /\
  slabs n0 P x /\ (yblock < n1 -> slabs n1 P y) /\
  (forall w, 0 <= w < P -> howmany <= N w /\ howmany * (fst (x w) * n1 * size t) <= N w /\
     (yblock < n1 -> howmany * (n0 * fst (y w) * size t) <= N w)) /\
  (forall w, 0 <= w < P -> xblock <> 0 -> (xblock | snd (x w)) /\ fst (x w) <= xblock) /\
  (forall w, 0 <= w < P -> yblock <> 0 -> yblock < n1 -> (yblock | snd (y w)) /\ fst (y w) <= yblock).
Proof.
  intros M n0 n1 t howmany P xblock yblock A HX HY. pose proof A as (F & _ & HP & X0 & Y0).
  inversion F as [|? ? F0 F']; subst. inversion F' as [|? ? F1 _]; subst.
  destruct (many_core M n0 n1 t howmany P xblock yblock A HX HY) as (bx & by_ & B1 & B2 & B3 & B4 & B5 & B6 & B7).
  set (val := fun w => match local_size_many_transposed M (n0 :: n1 :: t) howmany xblock yblock P w with Ret (N, _, y) => (N, y) | _ => (0, (0, 0)) end).
  exists (fun w => fst (val w)), (slab_of n0 bx), (fun w => snd (val w)).
  assert (R : forall w, 0 <= w -> exists N yy, val w = (N, yy) /\ local_size_many_transposed M (n0 :: n1 :: t) howmany xblock yblock P w = Ret (N, slab_of n0 bx w, yy) /\
    (yblock < n1 -> yy = slab_of n1 by_ w) /\
    howmany <= N /\ howmany * (fst (slab_of n0 bx w) * n1 * size t) <= N /\
    (yblock < n1 -> howmany * (n0 * fst (slab_of n1 by_ w) * size t) <= N)).
  { intros w Hw. destruct (B7 w Hw) as (N & yy & E & Rest). exists N, yy. split; [unfold val; now rewrite E|auto]. }
  assert (RS : forall b u n w, 1 <= n -> 1 <= b -> 0 <= w -> 0 <= u -> u <> 0 -> (b = u \/ (n <= u /\ b = n)) -> (u | snd (slab_of n b w)) /\ fst (slab_of n b w) <= u).
  { intros b u n w Hn Hb Hw Hu Hu0 E. unfold slab_of. destruct (Z.leb_spec (nblk n b) w) as [L|L]; cbn [fst snd].
    - split; [apply Z.divide_0_r|lia].
    - pose proof (block_nonneg n b w Hb). destruct E as [->|[E ->]].
      + split; [exists w; ring|lia].
      + rewrite nblk_self in L by lia. assert (w = 0) as -> by lia. split; [rewrite Z.mul_0_l; apply Z.divide_0_r|lia]. }
  split; [|split; [|split; [|split; [|split]]]].
  - intros w Hw. destruct (R w ltac:(lia)) as (N & yy & V & E & _). rewrite V. exact E.
  - exact (slabs_block n0 bx P F0 B1 B3).
  - intros LT. destruct (slabs_block n1 by_ P F1 B2 (B4 LT)) as [P1 P2].
    assert (Y : forall w, 0 <= w -> snd (val w) = slab_of n1 by_ w).
    { intros w Hw. destruct (R w Hw) as (N & yy & V & _ & E & _). rewrite V. cbn. auto. }
    split.
    + intros i Hi. destruct (P1 i Hi) as (w & W1 & W2 & W3). exists w. split; auto. rewrite Y by lia. split; [exact W2|].
      intros w' Hw'. rewrite Y by lia. apply W3; auto.
    + intros w i Hw. rewrite Y by lia. apply P2; auto.
  - intros w Hw. destruct (R w ltac:(lia)) as (N & yy & V & _ & E & E1 & E2 & E3). rewrite V. cbn [fst snd].
    split; [auto|]. split; [auto|]. intros LT. rewrite (E LT). auto.
  - intros w Hw Hne. apply RS; auto; lia.
  - intros w Hw Hne LT. destruct (R w ltac:(lia)) as (N & yy & V & _ & E & _). rewrite V. cbn [snd]. rewrite (E LT). apply RS; auto; lia.
Qed.
Print Assumptions C41_slabs.

(** ** Where the code falls short *)

(** A dimension of size 0 makes every process divide by zero. *)
Theorem C41_zero_refuted : forall M dims howmany P w sign flags, 1 <= P ->
  (forall d, In d dims -> 0 <= dn_ d /\ 0 <= bI d /\ 0 <= bO d) -> (exists d, In d dims /\ dn_ d = 0) ->
  local_size_guru M dims howmany P w sign flags = UB.
Proof.
  intros M dims howmany P w sign flags HP HV (d & Hd & D0).
  destruct dims as [|d0 t]; [destruct Hd|]. cbn [local_size_guru].
  assert (E : default_sz M (d0 :: t) P = UB).
  { unfold default_sz. change (map _ (d0 :: t)) with (map init_dim (d0 :: t)).
    assert (F : fill_kind P IB (d0 :: t) (map init_dim (d0 :: t)) = UB).
    { unfold fill_kind, num_blocks_total.
      assert (T : forall l a, (forall e, In e l -> 0 <= dn_ e /\ 0 <= bI e /\ 0 <= bO e) ->
         (a = 0 \/ exists e, In e l /\ dn_ e = 0) ->
         num_blocks_total_loop (map init_dim l) IB a = UB \/ num_blocks_total_loop (map init_dim l) IB a = Ret 0).
      { induction l as [|e l IH]; intros a Hl Ha.
        - destruct Ha as [->|(e & [] & _)]. now right.
        - cbn [map num_blocks_total_loop]. destruct (Hl e (or_introl eq_refl)) as (L1 & L2 & L3).
          unfold num_blocks_kind, num_blocks. rewrite bk_init. cbn [dn_ init_dim bk].
          destruct (Z.eqb_spec (bI e) 0) as [Z0|Z0].
          + unfold cdiv. destruct (Z.eqb_spec (dn_ e) 0); [now left|]. cbn [bind]. apply IH; [intros; apply Hl; now right|].
            destruct Ha as [->|(e' & [->|Hin] & E')]; [now left|congruence|right; eauto].
          + rewrite cdiv_pos by lia. cbn [bind]. apply IH; [intros; apply Hl; now right|].
            destruct Ha as [->|(e' & [->|Hin] & E')]; [now left| |right; eauto].
            left. rewrite E'. rewrite (Z.div_small (0 + bI e' - 1)) by lia. ring. }
      destruct (T (d0 :: t) 1 HV) as [->| ->]; [right; eauto|reflexivity|]. cbn [bind]. reflexivity. }
    rewrite F. reflexivity. }
  now rewrite E.
Qed.
Print Assumptions C41_zero_refuted.

(** fftw_mpi_plan_many_dft with FFTW_MPI_TRANSPOSED_OUT (mpi/api.c:595-612)
    distributes the second dimension of the output with the block size given,
    whatever it is. *)
Definition plan_dims_transposed_out (n0 n1 : Z) (iblock oblock : Z) : list ddim := [mkdd n0 iblock n0; mkdd n1 n1 oblock].
(** But fftw_mpi_local_size_many_transposed falls back to the untransposed
    distribution when that block size is not smaller than the dimension: it
    then reports a size that is too small (here 4 instead of 16 elements on
    process 0), and tells all processes that they own the same rows of the
    transposed output. *)
Theorem C41_full_output_block_refuted :
  let M := 2 ^ 63 - 1 in
  exists sz,
  default_sz M (plan_dims_transposed_out 4 4 1 4) 4 = Ret (Some sz) /\
  total_block sz OB 0 = Ret 16 /\
  (forall w, 0 <= w < 4 -> local_size_many_transposed M [4; 4] 1 1 4 4 w = Ret (4, (1, w), (4, 0))).
Proof.
  eexists. split; [vm_compute; reflexivity|]. split; [vm_compute; reflexivity|].
  intros w Hw. assert (w = 0 \/ w = 1 \/ w = 2 \/ w = 3) as [->|[->|[->| ->]]] by lia; vm_compute; reflexivity.
Qed.
Print Assumptions C41_full_output_block_refuted.

(** ** Examples *)
Lemma enough_check k dims P : (forall d, In d dims -> 1 <= dn_ d /\ 0 <= bI d /\ 0 <= bO d) -> needed k dims <= P -> enough k dims P.
Proof.
  intros V H p Hp. replace p with (needed k dims); auto. clear H. induction Hp as [|d t p E Hp IH|d t q p E C Hp IH]; auto.
  - rewrite needed_cons. change (bk k d) with (user_blocks k d). rewrite E, Z.eqb_refl. rewrite IH; [ring|]. intros; apply V; now right.
  - rewrite needed_cons. rewrite IH by (intros; apply V; now right). change (bk k d) with (user_blocks k d).
    destruct (Z.eqb_spec (user_blocks k d) 0); [congruence|]. f_equal.
    destruct (V d (or_introl eq_refl)) as (V1 & V2 & V3). assert (1 <= user_blocks k d) by (destruct k; cbn in *; lia).
    pose proof (nblk_bounds (dn_ d) (user_blocks k d) ltac:(lia) ltac:(lia)). unfold ceiling in C. nia.
Qed.
Example C41_case_guru : guru_args (2 ^ 63 - 1) [mkdd 10 0 10; mkdd 7 7 3; mkdd 5 2 0] 2 9 0 0 /\
  enough OB [mkdd 10 0 10; mkdd 7 7 3; mkdd 5 2 0] 9 /\ enough IB [mkdd 10 0 10; mkdd 7 7 3; mkdd 5 2 0] 9 /\
  local_size_guru (2 ^ 63 - 1) [mkdd 10 0 10; mkdd 7 7 3; mkdd 5 2 0] 2 9 4 0 0 = Ret (120, ([4; 7; 2], [4; 0; 2]), ([10; 3; 2], [0; 3; 2])).
Proof.
  split; [|split; [|split]].
  - constructor; try lia; [discriminate| |discriminate]. intros d [<-|[<-|[<-|[]]]]; cbn; lia.
  - apply enough_check; [intros d [<-|[<-|[<-|[]]]]; cbn; lia|vm_compute; discriminate].
  - apply enough_check; [intros d [<-|[<-|[<-|[]]]]; cbn; lia|vm_compute; discriminate].
  - vm_compute. reflexivity.
Qed.
Example C41_case_slabs : mt_args [10; 7; 3] 2 4 0 0 /\
  map (local_size_many_transposed (2 ^ 63 - 1) [10; 7; 3] 2 0 0 4) [0; 1; 2; 3] =
  [Ret (126, (3, 0), (2, 0)); Ret (126, (3, 3), (2, 2)); Ret (126, (3, 6), (2, 4)); Ret (106, (1, 9), (1, 6))].
Proof. split; [split; [repeat (constructor; [lia|]); constructor|lia]|]. vm_compute. reflexivity. Qed.
Example C41_case_1d : guru_args (2 ^ 63 - 1) [mkdd 12 0 0] 1 5 (-1) 0 /\
  map (fun w => local_size_many_1d (2 ^ 63 - 1) 12 1 5 w (-1) 0) [0; 4] =
  [Ret (4, ([3], [0]), ([4], [0])); Ret (4, ([0], [0]), ([0], [0]))].
Proof.
  split; [|vm_compute; reflexivity]. constructor; try lia; [discriminate| |].
  - intros d [<-|[]]; cbn; lia.
  - intros d E. injection E as <-. cbn [dn_]. split; [lia|]. split; [lia|]. split; [exists 4; lia|lia].
Qed.
