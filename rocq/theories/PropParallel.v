(** * C35: parallel execution is deterministic *)
From Coq Require Import Reals ZArith List Bool Lia Permutation PeanoNat.
From Verif Require Import Cplx Spec SpecApi SpecThreads SpecParallel Base NumTheory Offs XForm XKern TensorModel DftModel DftProofs ApiProofs RaceProofs ParProofs ThreadModel PropThreads.
Import ListNotations.
Open Scope Z_scope.

(** ** Any schedule *)
Section Pool.
(** [ps]: the programs of the user threads, the parallel loops of which are executed
    by the shared pool of worker threads; [m]: the initial memory. *)
Variable ps : list (prog access).
Notation N := (length ps).
Notation st := (@st access mem).

(** C35 (determinism): if no two blocks of a parallel loop (and no two user threads)
    contain conflicting memory operations, then every complete schedule of the pool
    computes what sequential execution computes. *)
Theorem C35_deterministic m c (s : st) : race_free (PSpawn ps PEnd) ->
  steps do_access N c (init ps m) s -> s_k s = KDone -> s_mem s = run_seq (PSpawn ps PEnd) m.
Proof. intros R H K. apply (race_free_unique ps m); auto. exact (C36_complete do_access ps m c s H K). Qed.
Theorem C35_two_schedules_agree m c c' (s s' : st) : race_free (PSpawn ps PEnd) ->
  steps do_access N c (init ps m) s -> s_k s = KDone -> steps do_access N c' (init ps m) s' -> s_k s' = KDone ->
  s_mem s = s_mem s'.
Proof. intros R H K H' K'. rewrite (C35_deterministic m c s), (C35_deterministic m c' s'); auto. Qed.
End Pool.

(** ** Concurrent transforms *)

(** A transform that a user thread executes: the problem, its arrays, its scratch
    memory, and the program. *)
Record job := mkjob { jb_nd : bool; jb_sz : list iodim; jb_vec : list iodim; jb_in : cptr; jb_out : cptr; jb_S : loc -> Prop; jb_p : prog access }.
Definition jb_ok (K : loc -> Prop) (j : job) : Prop := dft_program (jb_nd j) (jb_sz j) (jb_vec j) (jb_in j) (jb_out j) (jb_S j) K (jb_p j).
Definition jb_reads (j : job) (l : loc) : Prop :=
  in_loc (jb_in j) (jb_sz j ++ jb_vec j) l \/ out_loc (jb_out j) (jb_sz j ++ jb_vec j) l \/ jb_S j l.
Definition jb_writes (j : job) (l : loc) : Prop :=
  out_loc (jb_out j) (jb_sz j ++ jb_vec j) l \/ (jb_nd j = false /\ in_loc (jb_in j) (jb_sz j ++ jb_vec j) l) \/ jb_S j l.
(** No job writes the arrays or scratch memory of the other.  (Input arrays that are
    preserved may be shared.) *)
Definition jb_apart (i j : job) : Prop :=
  forall l, ~ (jb_writes i l /\ jb_reads j l) /\ ~ (jb_reads i l /\ jb_writes j l).

Lemma writes_reads j l : jb_writes j l -> jb_reads j l.
Proof. unfold jb_writes, jb_reads. tauto. Qed.
Lemma jobs_race_free K js : Forall (jb_ok K) js -> ForallOrdPairs jb_apart js ->
  (forall j l, In j js -> K l -> ~ jb_writes j l) -> race_free (PSpawn (map jb_p js) PEnd).
Proof.
  intros HO HA HK. constructor; [|  |constructor].
  - rewrite Forall_map. eapply Forall_impl; [|exact HO]. intros j Hj. apply Hj.
  - induction HA as [|j js Hj HA IH]; cbn [map]; [constructor|]. inversion HO as [|? ? Oj Os]; subst. constructor; [|apply IH; auto].
    + rewrite Forall_map. rewrite Forall_forall in *. intros k Hk a b Ha Hb.
      assert (Wa : jb_writes j (ac_dst a)) by (destruct (dp_writes _ _ _ _ _ _ _ _ Oj a Ha) as [C|[C|C]]; unfold jb_writes; tauto).
      assert (Wb : jb_writes k (ac_dst b)) by (destruct (dp_writes _ _ _ _ _ _ _ _ (Os k Hk) b Hb) as [C|[C|C]]; unfold jb_writes; tauto).
      intros [E|[E|E]].
      * rewrite E in Wa. apply (proj1 (Hj k Hk (ac_dst b))). split; auto. now apply writes_reads.
      * destruct (dp_reads _ _ _ _ _ _ _ _ (Os k Hk) b _ Hb E) as [C|[C|[C|C]]].
        1-3: apply (proj1 (Hj k Hk (ac_dst a))); split; auto; unfold jb_reads; tauto.
        apply (HK j _ (or_introl eq_refl) C Wa).
      * destruct (dp_reads _ _ _ _ _ _ _ _ Oj a _ Ha E) as [C|[C|[C|C]]].
        1-3: apply (proj2 (Hj k Hk (ac_dst b))); split; auto; unfold jb_reads; tauto.
        apply (HK k _ (or_intror Hk) C Wb).
    + intros k l Hk. apply HK. now right.
Qed.
Lemma mdft_ext : forall sz x y ks, in_box sz ks -> (forall js, in_box sz js -> x (ioff sz js) = y (ioff sz js)) -> mdft sz x ks = mdft sz y ks.
Proof.
  induction sz as [|d sz IH]; intros x y ks Hk H; destruct ks as [|k ks]; cbn in Hk; try contradiction.
  - cbn. exact (H [] Logic.I).
  - destruct Hk as [Hk Hks]. cbn [mdft]. apply Csum_ext. intros j Hj. f_equal. apply IH; auto. intros js Hjs. exact (H (j :: js) (Logic.conj Hj Hjs)).
Qed.
Lemma in_box_app : forall s v ks vs, in_box s ks -> in_box v vs -> in_box (s ++ v) (ks ++ vs) /\ ioff (s ++ v) (ks ++ vs) = ioff v vs + ioff s ks /\ ooff (s ++ v) (ks ++ vs) = ooff v vs + ooff s ks.
Proof.
  induction s as [|d s IH]; intros v ks vs H1 H2; destruct ks as [|k ks]; cbn in H1; try contradiction.
  - cbn. split; [auto|]. split; lia.
  - destruct H1 as [H1 H3]. destruct (IH v ks vs H3 H2) as (A & B & D). cbn. split; [auto|]. rewrite B, D. split; lia.
Qed.
(** a transform depends only on the input array, and only the output array matters *)
Lemma is_transform_swap sz vec pi po m m1 m2 m3 : is_transform sz vec pi po m1 m2 ->
  (forall l, in_loc pi (sz ++ vec) l -> m1 l = m l) -> (forall l, out_loc po (sz ++ vec) l -> m3 l = m2 l) ->
  is_transform sz vec pi po m m3.
Proof.
  intros T HI HO vs ks Hv Hk. destruct (in_box_app sz vec ks vs Hk Hv) as (B & _ & E).
  transitivity (rdc m2 po (ooff vec vs + ooff sz ks)).
  { unfold rdc. f_equal; apply HO; exists (ks ++ vs); rewrite E; auto. }
  rewrite (T vs ks Hv Hk). apply mdft_ext; auto. intros js Hj. destruct (in_box_app sz vec js vs Hj Hv) as (B' & E' & _).
  unfold rdc. f_equal; apply HI; exists (js ++ vs); rewrite E'; auto.
Qed.
Lemma fold_frame ps : forall m l, (forall p a, In p ps -> In a (actions p) -> ac_dst a <> l) -> fold_left (fun m p => run_seq p m) ps m l = m l.
Proof.
  induction ps as [|p ps IH]; intros m l H; cbn [fold_left]; auto. rewrite IH by (intros p1 a1 Hp Ha; apply (H p1 a1); [now right|exact Ha]).
  apply run_seq_frame. intros a Ha. apply (H p a); [now left|auto].
Qed.

(** C35 (user threads): any number of user threads execute transforms at the same
    time, each possibly multi-threaded, sharing the pool of workers.  Whatever the
    schedule, each gets its own transform of its own input, and nothing else in memory
    is changed. *)
Theorem C35_concurrent_transforms K js m c (s : @st access mem) : Forall (jb_ok K) js -> ForallOrdPairs jb_apart js ->
  (forall j l, In j js -> K l -> ~ jb_writes j l) ->
  steps do_access (length (map jb_p js)) c (init (map jb_p js) m) s -> s_k s = KDone ->
  (forall j, In j js -> is_transform (jb_sz j) (jb_vec j) (jb_in j) (jb_out j) m (s_mem s)) /\
  (forall l, (forall j, In j js -> ~ jb_writes j l) -> s_mem s l = m l).
Proof.
  intros HO HA HK H Hk. rewrite (C35_deterministic (map jb_p js) m c s); auto; [|now apply jobs_race_free with K].
  cbn [run_seq]. assert (Wr : forall j a, In j js -> In a (actions (jb_p j)) -> jb_writes j (ac_dst a)).
  { intros j a Hj Ha. rewrite Forall_forall in HO. destruct (dp_writes _ _ _ _ _ _ _ _ (HO j Hj) a Ha) as [C|[C|C]]; unfold jb_writes; tauto. }
  split.
  - intros j Hj. destruct (in_split j js Hj) as (l1 & l2 & ->). rewrite map_app, fold_left_app. cbn [map fold_left].
    apply FOP_split in HA as (_ & A1 & A2). rewrite Forall_forall in HO, A1, A2. pose proof (HO j Hj) as Oj.
    set (m1 := fold_left _ (map jb_p l1) m).
    eapply is_transform_swap; [apply (dp_alone _ _ _ _ _ _ _ _ Oj m1)| |].
    + intros l Hl. apply fold_frame. intros p a Hp Ha <-. apply in_map_iff in Hp as (i & <- & Hi).
      assert (Hi' : In i (l1 ++ j :: l2)) by (rewrite in_app_iff; now left).
      apply (proj1 (A1 i Hi (ac_dst a))). split; [now apply Wr|now left].
    + intros l Hl. apply fold_frame. intros p a Hp Ha <-. apply in_map_iff in Hp as (i & <- & Hi).
      assert (Hi' : In i (l1 ++ j :: l2)) by (rewrite in_app_iff; right; now right).
      apply (proj2 (A2 i Hi (ac_dst a))). split; [right; now left|now apply Wr].
  - intros l Hl. apply fold_frame. intros p a Hp Ha <-. apply in_map_iff in Hp as (i & <- & Hi). apply (Hl i Hi). now apply Wr.
Qed.

(** There are complete schedules: every schedule can be continued to one. *)
Theorem C35_schedule_exists (ps : list (prog access)) m : exists c (s : @st access mem),
  steps do_access (length ps) c (init ps m) s /\ s_k s = KDone.
Proof.
  destruct (C36_terminates do_access ps m) as (b & Hb).
  assert (G : forall d c (s : @st access mem), (b < d + c)%nat -> steps do_access (length ps) c (init ps m) s ->
     exists c s, steps do_access (length ps) c (init ps m) s /\ s_k s = KDone).
  { induction d as [|d IH]; intros c s Hd H; [apply Hb in H; lia|].
    destruct (C36_no_deadlock do_access ps m c s H) as [K|(l & s' & C)]; [eauto|].
    apply (IH (S c) s'); [lia|]. econstructor; eauto. }
  apply (G (S b) 0%nat (init ps m)); [lia|constructor].
Qed.

(** ** The multi-threaded solvers *)
Section Solvers.
(** The input array starts at [ri], the output array at [ro]; they were allocated
    before the plan was executed, scratch memory is allocated later. *)
Variables (nd : bool) (nx : nat) (ri : loc) (di : Z) (ro : loc) (do_ : Z) (K : loc -> Prop).
Notation pi := (ri, sh ri di).
Notation po := (ro, sh ro do_).

(** A sequential plan: a program without races that accesses only the arrays, scratch
    memory and tables, and that has the effect of a plan of the model. *)
Theorem C35_sequential_plan qs ip sz vec f (S : loc -> Prop) p : qsort_perm qs ->
  child qs nd ip di do_ sz vec f -> sign_consistent (ip = true) (sz ++ vec) ->
  (fst ri < nx)%nat -> (fst ro < nx)%nat -> good_arrays sz vec pi po -> (ip = true -> ri = ro) -> (ip = false -> pi <> po) ->
  (forall a, In a (actions p) -> out_loc po (sz ++ vec) (ac_dst a) \/ (nd = false /\ in_loc pi (sz ++ vec) (ac_dst a)) \/ S (ac_dst a)) ->
  (forall a l, In a (actions p) -> In l (ac_src a) -> in_loc pi (sz ++ vec) l \/ out_loc po (sz ++ vec) l \/ S l \/ K l) ->
  race_free p -> (forall m l, (fst l < nx)%nat -> run_seq p m l = f nx ri ro m l) ->
  dft_program nd sz vec pi po S K p.
Proof.
  intros Hq Hc Hs HI HO G H1 H2 HW HR RF E. constructor; auto. intros m.
  destruct (split_exec qs nd ip di do_ sz vec f Hq Hc Hs nx ri ro m HI HO G H1 H2) as [T _].
  eapply is_transform_swap; [exact T|reflexivity|]. intros l Hl. apply E. destruct Hl as (ks & _ & [->| ->]); exact HO.
Qed.

(** C35 (threads/dft-vrank-geq1.c): the loop over dimension i of the vector is cut in
    blocks; if the program of block j computes the transforms of its part of the arrays
    (as it does alone), the parallel loop computes all of them. *)
Theorem C35_vector_loop sz vec i d nthr (S : Z -> loc -> Prop) p :
  let nb := thr_nb (dn d) nthr in
  let cv j := set_nth vec i (mkdim (thr_cnt (dn d) nthr j) (dis d) (dos d)) in
  let ci j := csh pi (j * (dis d * thr_bs (dn d) nthr)) in
  let co j := csh po (j * (dos d * thr_bs (dn d) nthr)) in
  good_arrays sz vec pi po -> (fst ri < nx)%nat -> (fst ro < nx)%nat ->
  nth_error vec i = Some d -> 0 < dn d -> 0 < nthr ->
  (pi = po -> dis d = dos d /\ (forall l, in_loc pi (sz ++ vec) l <-> out_loc po (sz ++ vec) l) /\
     forall j, 0 <= j < nb -> forall l, in_loc (ci j) (sz ++ cv j) l <-> out_loc (co j) (sz ++ cv j) l) ->
  (forall j l, 0 <= j < nb -> S j l -> (nx <= fst l)%nat) ->
  (forall j k l, 0 <= j < nb -> 0 <= k < nb -> j <> k -> S j l -> S k l -> False) ->
  (forall l, K l -> ~ in_loc pi (sz ++ vec) l /\ ~ out_loc po (sz ++ vec) l /\ forall j, 0 <= j < nb -> ~ S j l) ->
  (forall j, 0 <= j < nb -> dft_program nd sz (cv j) (ci j) (co j) (S j) K (p j)) ->
  dft_program nd sz vec pi po (fun l => exists j, 0 <= j < nb /\ S j l) K (PSpawn (map p (zr nb)) PEnd).
Proof. apply thr_vrank_program. Qed.

(** C35 (threads/ct.c, apply_dit): the sub-transforms, then a parallel loop over the
    butterflies. *)
Theorem C35_decimation_in_time n is os v ivs ovs r m nthr (S0 : loc -> Prop) (S : Z -> loc -> Prop) pc q :
  let nb := thr_nb m nthr in
  let lo j := j * thr_bs m nthr in let hi j := j * thr_bs m nthr + thr_cnt m nthr j in
  n = r * m -> 0 < r -> 0 < m -> 0 < nthr ->
  good_arrays [mkdim n is os] [mkdim v ivs ovs] pi po -> (fst ri < nx)%nat -> (fst ro < nx)%nat ->
  (pi = po -> forall l, in_loc pi [mkdim n is os; mkdim v ivs ovs] l <-> out_loc po [mkdim n is os; mkdim v ivs ovs] l) ->
  (forall l, S0 l -> (nx <= fst l)%nat) ->
  (forall j l, 0 <= j < nb -> S j l -> (nx <= fst l)%nat) ->
  (forall j k l, 0 <= j < nb -> 0 <= k < nb -> j <> k -> S j l -> S k l -> False) ->
  (forall l, K l -> ~ out_loc po [mkdim n is os; mkdim v ivs ovs] l /\ forall j, 0 <= j < nb -> ~ S j l) ->
  dft_program nd [mkdim m (r * is) os] [mkdim r is (m * os); mkdim v ivs ovs] pi po S0 K pc ->
  (forall j, 0 <= j < nb -> twiddle_program true do_ r (m * os) (m * os) m os v ovs ovs (lo j) (hi j) ro (S j) K (q j)) ->
  dft_program nd [mkdim n is os] [mkdim v ivs ovs] pi po (fun l => S0 l \/ exists j, 0 <= j < nb /\ S j l) K
    (papp pc (PSpawn (map q (zr nb)) PEnd)).
Proof. apply thr_dit_program. Qed.

(** C35 (threads/ct.c, apply_dif): a parallel loop over the butterflies of the input
    array (which is destroyed unless the transform is in place), possibly with a
    transposition of the small blocks, then the sub-transforms. *)
Theorem C35_decimation_in_frequency n is os v ivs ovs r m cors covs nthr (S0 : loc -> Prop) (S : Z -> loc -> Prop) pc q :
  let nb := thr_nb m nthr in
  let lo j := j * thr_bs m nthr in let hi j := j * thr_bs m nthr + thr_cnt m nthr j in
  n = r * m -> 0 < r -> 0 < m -> 0 < nthr ->
  Permutation [(r, m * is); (v, ivs)] [(r, cors); (v, covs)] ->
  pi = po \/ nd = false ->
  good_arrays [mkdim n is os] [mkdim v ivs ovs] pi po -> (fst ri < nx)%nat -> (fst ro < nx)%nat ->
  (pi = po -> forall l, in_loc pi [mkdim n is os; mkdim v ivs ovs] l <-> out_loc po [mkdim n is os; mkdim v ivs ovs] l) ->
  (forall l, S0 l -> (nx <= fst l)%nat) ->
  (forall j l, 0 <= j < nb -> S j l -> (nx <= fst l)%nat) ->
  (forall j k l, 0 <= j < nb -> 0 <= k < nb -> j <> k -> S j l -> S k l -> False) ->
  (forall l, K l -> ~ in_loc pi [mkdim n is os; mkdim v ivs ovs] l /\ forall j, 0 <= j < nb -> ~ S j l) ->
  (forall j, 0 <= j < nb -> twiddle_program false di r (m * is) cors m is v ivs covs (lo j) (hi j) ri (S j) K (q j)) ->
  dft_program nd [mkdim m is (r * os)] [mkdim r cors os; mkdim v covs ovs] pi po S0 K pc ->
  dft_program nd [mkdim n is os] [mkdim v ivs ovs] pi po (fun l => S0 l \/ exists j, 0 <= j < nb /\ S j l) K
    (papp (PSpawn (map q (zr nb)) PEnd) pc).
Proof. apply thr_dif_program. Qed.
End Solvers.

(** ** Non-vacuity: four transforms of size 2, with 3 threads *)
Module Toy4.
Definition pin : cptr := ((0%nat, 0), sh (0%nat, 0) 1).
Definition pout : cptr := ((1%nat, 0), sh (1%nat, 0) 1).
Definition two (f : R -> R -> R) (l : list R) : R := match l with [x; y] => f x y | _ => 0%R end.
(** transform number j: elements 4j .. 4j+3 *)
Definition one (j : Z) (k : prog access) : prog access :=
  let i o := (0%nat, 4 * j + o) in let u o := (1%nat, 4 * j + o) in
  PAct (mkac [i 0; i 2] (two Rplus) (u 0)) (PAct (mkac [i 1; i 3] (two Rplus) (u 1))
  (PAct (mkac [i 0; i 2] (two Rminus) (u 2)) (PAct (mkac [i 1; i 3] (two Rminus) (u 3)) k))).
(** block j: 2 transforms (thr_bs 4 3 = 2, so 2 blocks) *)
Definition blk (j : Z) : prog access := one (2 * j) (one (2 * j + 1) PEnd).
Definition none (l : loc) : Prop := False.

Lemma W20 : W 2 0 = RtoC 1.
Proof. apply W_0. Qed.
Lemma W21 : W 2 1 = RtoC (-1).
Proof.
  unfold W, cis, RtoC. replace (- (2 * PI * IZR 1 / IZR 2))%R with (- PI)%R by field.
  rewrite cos_neg, sin_neg, cos_PI, sin_PI. f_equal. ring.
Qed.
Lemma box1 a b c js : in_box [mkdim a b c] js -> exists k, js = [k] /\ 0 <= k < a.
Proof. destruct js as [|k [|? ?]]; cbn; try tauto. intros [H _]. eauto. Qed.
Lemma box2 a b c a' b' c' js : in_box [mkdim a b c; mkdim a' b' c'] js -> exists k k', js = [k; k'] /\ 0 <= k < a /\ 0 <= k' < a'.
Proof. destruct js as [|k [|k' [|? ?]]]; cbn; try tauto. intros [H [H' _]]. eauto. Qed.
Lemma Csum2 f : Csum 2 f = (f 0%Z + f 1%Z)%C.
Proof. change 2 with (1 + 1) at 1. rewrite Csum_succ, Csum_1 by lia. reflexivity. Qed.
Lemma cases2 k : 0 <= k < 2 -> k = 0 \/ k = 1.
Proof. lia. Qed.
Lemma one_val j k m : exists m2, run_seq (one j k) m = run_seq k m2 /\
  (forall c, 0 <= c < 2 -> m2 (1%nat, 4 * j + c) = (m (0%nat, (4 * j + c)%Z) + m (0%nat, (4 * j + 2 + c)%Z))%R /\
     m2 (1%nat, 4 * j + 2 + c) = (m (0%nat, (4 * j + c)%Z) - m (0%nat, (4 * j + 2 + c)%Z))%R) /\
  (forall l, fst l <> 1%nat \/ snd l < 4 * j \/ 4 * j + 4 <= snd l -> m2 l = m l).
Proof.
  unfold one. cbn [run_seq]. eexists. split; [reflexivity|]. unfold do_access. cbn [ac_dst ac_src ac_fun map two].
  split.
  - intros c Hc. apply cases2 in Hc as [->| ->].
    all: rewrite <- ?(Z.add_assoc (4 * j)); cbn [Z.add Z.succ_double Pos.add Pos.succ Pos.add_carry].
    all: split.
    all: repeat (first [rewrite store_same | rewrite store_other by (intros E; injection E; lia)]); reflexivity.
  - intros [b o] H. cbn in H. rewrite !store_other; auto; intros E; injection E as <- <-; lia.
Qed.
(** each block alone computes its two transforms *)
Lemma blk_ok j : 0 <= j < 2 ->
  dft_program true [mkdim 2 2 2] [mkdim 2 4 4] (csh pin (j * 8)) (csh pout (j * 8)) none none (blk j).
Proof.
  intros Hj. constructor.
  - repeat constructor.
  - intros a Ha. left. unfold blk, one in Ha. cbn [actions In] in Ha.
    assert (G : forall k v c z, 0 <= k < 2 -> 0 <= v < 2 -> 0 <= c < 2 -> z = 4 * (2 * j + v) + (2 * k + c) -> out_loc (csh pout (j * 8)) ([mkdim 2 2 2] ++ [mkdim 2 4 4]) (1%nat, z)).
    { intros k v c z H1 H2 H3 ->. exists [k; v]. split; [cbn; auto|]. apply cases2 in H3 as [->| ->]; [left|right]; unfold csh, sh, pin, pout, sh; cbn [fst snd ioff ooff app dn dis dos]; apply (f_equal (pair _)); lia. }
    destruct Ha as [<-|[<-|[<-|[<-|[<-|[<-|[<-|[<-|[]]]]]]]]]; cbn [ac_dst].
    all: first [apply (G 0 0 0); lia|apply (G 0 0 1); lia|apply (G 1 0 0); lia|apply (G 1 0 1); lia|apply (G 0 1 0); lia|apply (G 0 1 1); lia|apply (G 1 1 0); lia|apply (G 1 1 1); lia].
  - intros a l Ha Hl. left. unfold blk, one in Ha. cbn [actions In] in Ha.
    assert (G : forall k v c z, 0 <= k < 2 -> 0 <= v < 2 -> 0 <= c < 2 -> z = 4 * (2 * j + v) + (2 * k + c) -> in_loc (csh pin (j * 8)) ([mkdim 2 2 2] ++ [mkdim 2 4 4]) (0%nat, z)).
    { intros k v c z H1 H2 H3 ->. exists [k; v]. split; [cbn; auto|]. apply cases2 in H3 as [->| ->]; [left|right]; unfold csh, sh, pin, pout, sh; cbn [fst snd ioff ooff app dn dis dos]; apply (f_equal (pair _)); lia. }
    destruct Ha as [<-|[<-|[<-|[<-|[<-|[<-|[<-|[<-|[]]]]]]]]]; cbn [ac_src] in Hl; destruct Hl as [<-|[<-|[]]].
    all: first [apply (G 0 0 0); lia|apply (G 0 0 1); lia|apply (G 1 0 0); lia|apply (G 1 0 1); lia|apply (G 0 1 0); lia|apply (G 0 1 1); lia|apply (G 1 1 0); lia|apply (G 1 1 1); lia].
  - intros m vs ks Hv Hk. apply box1 in Hv as (v & -> & Hv). apply box1 in Hk as (k & -> & Hk).
    cbn [ioff ooff mdft dn dis dos]. rewrite Csum2.
    unfold blk. destruct (one_val (2 * j) (one (2 * j + 1) PEnd) m) as (m2 & -> & V2 & F2).
    destruct (one_val (2 * j + 1) PEnd m2) as (m3 & -> & V3 & F3). cbn [run_seq].
    assert (V : forall v c, 0 <= v < 2 -> 0 <= c < 2 ->
      m3 (1%nat, 4 * (2 * j + v) + c) = (m (0%nat, (4 * (2 * j + v) + c)%Z) + m (0%nat, (4 * (2 * j + v) + 2 + c)%Z))%R /\
      m3 (1%nat, 4 * (2 * j + v) + 2 + c) = (m (0%nat, (4 * (2 * j + v) + c)%Z) - m (0%nat, (4 * (2 * j + v) + 2 + c)%Z))%R).
    { clear Hv v. intros v c Hv Hc. apply cases2 in Hv as [->| ->].
      - rewrite Z.add_0_r. rewrite !F3 by (cbn [fst snd]; lia). auto.
      - destruct (V3 c Hc) as [-> ->]. rewrite !F2 by (cbn [fst snd]; lia). auto. }
    assert (Rd : forall mm b o o', o' = 4 * (2 * j + v) + o -> rdc mm (csh ((b, 0), sh (b, 0) 1) (j * 8)) (v * 4 + 0 + (o + 0)) = (mm (b, o'), mm (b, o' + 1))).
    { intros mm b o o' ->. unfold rdc, csh, sh; cbn [fst snd]. f_equal; do 2 f_equal; lia. }
    destruct (V v 0 Hv ltac:(lia)) as [A1 A2]. destruct (V v 1 Hv ltac:(lia)) as [B1 B2].
    unfold pin, pout. rewrite (Rd m 0%nat (0 * 2) (4 * (2 * j + v) + 0)), (Rd m 0%nat (1 * 2) (4 * (2 * j + v) + 2 + 0)) by lia.
    apply cases2 in Hk as [->| ->].
    + rewrite (Rd m3 1%nat (0 * 2) (4 * (2 * j + v) + 0)) by lia. rewrite A1. replace (4 * (2 * j + v) + 0 + 1) with (4 * (2 * j + v) + 1) by lia. rewrite B1.
      replace (4 * (2 * j + v) + 2 + 0 + 1) with (4 * (2 * j + v) + 2 + 1) by lia. change (0 * 0) with 0. change (1 * 0) with 0. rewrite W20.
      apply C_eq; cbn; ring.
    + rewrite (Rd m3 1%nat (1 * 2) (4 * (2 * j + v) + 2 + 0)) by lia. rewrite A2. replace (4 * (2 * j + v) + 0 + 1) with (4 * (2 * j + v) + 1) by lia.
      replace (4 * (2 * j + v) + 2 + 0 + 1) with (4 * (2 * j + v) + 2 + 1) by lia. rewrite B2. change (0 * 1) with 0. change (1 * 1) with 1. rewrite W20, W21.
      apply C_eq; cbn; ring.
Qed.

(** the parallel loop over the four transforms with 3 threads: 2 blocks of 2 *)
Example C35_toy : dft_program true [mkdim 2 2 2] [mkdim 4 4 4] pin pout (fun l => exists j, 0 <= j < 2 /\ none l) none
  (PSpawn [blk 0; blk 1] PEnd).
Proof.
  apply (C35_vector_loop true 2%nat (0%nat, 0) 1 (1%nat, 0) 1 none [mkdim 2 2 2] [mkdim 4 4 4] 0%nat (mkdim 4 4 4) 3 (fun _ => none) blk).
  - constructor.
    + repeat constructor.
    + repeat constructor. cbn. lia.
    + split; intros ks js Hk Hj; apply box2 in Hk as (k & v & -> & Hk & Hv); apply box2 in Hj as (k' & v' & -> & Hk' & Hv'); unfold pin, pout, sh; cbn [fst snd app ioff ooff dn dis dos]; intros E.
      * assert (k = k') by lia. assert (v = v') by lia. congruence.
      * apply (f_equal snd) in E. cbn [snd] in E. lia.
    + split; intros ks js Hk Hj; apply box2 in Hk as (k & v & -> & Hk & Hv); apply box2 in Hj as (k' & v' & -> & Hk' & Hv'); unfold pin, pout, sh; cbn [fst snd app ioff ooff dn dis dos]; intros E.
      * assert (k = k') by lia. assert (v = v') by lia. congruence.
      * apply (f_equal snd) in E. cbn [snd] in E. lia.
    + right. intros l (ks & _ & Hk) (js & _ & Hj). destruct Hk as [->| ->], Hj as [H|H]; discriminate H.
  - cbn. lia.
  - cbn. lia.
  - reflexivity.
  - cbn. lia.
  - lia.
  - discriminate.
  - intros j l _ [].
  - intros j k l _ _ _ [].
  - intros l [].
  - intros j Hj. change (thr_nb (dn (mkdim 4 4 4)) 3) with 2 in Hj.
    assert (E : thr_cnt 4 3 j = 2) by (apply cases2 in Hj as [->| ->]; reflexivity).
    cbn [dn set_nth nth_error]. rewrite E. change (thr_bs 4 3) with 2. exact (blk_ok j Hj).
Qed.

(** and a complete execution of it by the pool *)
Definition job1 : job := mkjob true [mkdim 2 2 2] [mkdim 4 4 4] pin pout none (PSpawn [blk 0; blk 1] PEnd).
Example C35_toy_run m : exists c (s : @st access mem), steps do_access 1 c (init [jb_p job1] m) s /\ s_k s = KDone /\
  is_transform [mkdim 2 2 2] [mkdim 4 4 4] pin pout m (s_mem s).
Proof.
  destruct (C35_schedule_exists [jb_p job1] m) as (c & s & H & K). exists c, s. split; auto. split; auto.
  apply (C35_concurrent_transforms none [job1] m c s) with (j := job1); auto; [| |now left].
  - constructor; [|constructor]. constructor; cbn [job1 jb_nd jb_sz jb_vec jb_in jb_out jb_S jb_p].
    + apply C35_toy.
    + intros a Ha. destruct (dp_writes _ _ _ _ _ _ _ _ C35_toy a Ha) as [C|[C|(j & _ & [])]]; auto.
    + intros a l Ha Hl. destruct (dp_reads _ _ _ _ _ _ _ _ C35_toy a l Ha Hl) as [C|[C|[(j & _ & [])|C]]]; auto.
    + apply C35_toy.
  - repeat constructor.
Qed.
End Toy4.

Print Assumptions C35_deterministic.
Print Assumptions C35_two_schedules_agree.
Print Assumptions C35_concurrent_transforms.
Print Assumptions C35_schedule_exists.
Print Assumptions C35_sequential_plan.
Print Assumptions C35_vector_loop.
Print Assumptions C35_decimation_in_time.
Print Assumptions C35_decimation_in_frequency.
