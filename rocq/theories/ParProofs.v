(** * Parallel DFT plans are free of races (proofs) *)
From Coq Require Import Reals ZArith List Lia Bool Permutation.
From Verif Require Import NumTheory Cplx Spec SpecThreads SpecParallel RaceProofs TensorModel Offs TensorProofs XForm XKern XSeq
  DftModel DftTw DftTw2 DftComp DftSplit DftProofs XPar XParTw ApiProofs Rank0Model Rank0Proofs Rank0Plans CopyProofs CopyBounds TransProofs Base PrimesModel PrimesProofs.
Import ListNotations.
Open Scope Z_scope.

(** ** From arrays to [Wf] *)
Lemma Wf_good nx ip sz vec I O di do_ : good_arrays sz vec (I, sh I di) (O, sh O do_) ->
  (fst I < nx)%nat -> (fst O < nx)%nat ->
  (ip = true -> I = O /\ forall l, in_loc (I, sh I di) (sz ++ vec) l <-> out_loc (O, sh O do_) (sz ++ vec) l) ->
  (ip = false -> (I, sh I di) <> (O, sh O do_)) ->
  Wf nx ip I O (cx di do_ sz) vec.
Proof.
  intros [G1 G2 G3 G4 G5] HI HO Hip Hoop. constructor; auto.
  - rewrite il_cx. now apply (good_nodup_i di _ I).
  - rewrite ol_cx. now apply (good_nodup_o do_ _ O).
  - rewrite il_cx, ol_cx. destruct ip.
    + destruct (Hip eq_refl) as [<- E]. split; auto. intros o. specialize (E (sh I o)). rewrite in_loc_il, out_loc_ol in E.
      rewrite !InP_in in E. exact E.
    + intros l Hl1 Hl2. apply in_loc_il in Hl1. apply out_loc_ol in Hl2. destruct G5 as [G5|G5]; [now apply Hoop in G5|eauto].
Qed.
Lemma is_transform_vals sz vec I O di do_ m m' : is_transform sz vec (I, sh I di) (O, sh O do_) m m' <-> vals (cx di do_ sz) vec I O m m'.
Proof.
  rewrite vals_cx. split.
  - intros H a b Hab ks Hk. apply in_offs in Hab as (vs & Hv & E). injection E as -> ->. now apply H.
  - intros H vs ks Hv Hk. apply H; auto. now apply in_offs_box.
Qed.
Lemma vals_perm X vec vec' I O m m' : Permutation vec vec' -> vals X vec I O m m' -> vals X vec' I O m m'.
Proof. intros P H a b Hab. apply H. eapply Permutation_in; [symmetry; apply offs_perm; exact P|exact Hab]. Qed.
Lemma il_vperm X vec vec' : Permutation vec vec' -> Permutation (il X vec) (il X vec').
Proof. intros P. apply il_perm; auto. now apply offs_perm. Qed.
Lemma ol_vperm X vec vec' : Permutation vec vec' -> Permutation (ol X vec) (ol X vec').
Proof. intros P. apply ol_perm; auto. now apply offs_perm. Qed.

Lemma csh_pair p d o : csh (p, sh p d) o = (sh p o, sh (sh p o) d).
Proof. unfold csh. cbn [fst snd]. rewrite !sh_sh. do 2 f_equal. ring. Qed.

(** a program as an execution function *)
Lemma Correct_override nd ip X vec nx0 I0 O0 (g : mem -> mem) : nnegd vec ->
  (forall m, vals X vec I0 O0 m (g m) /\ frame nx0 nd X vec I0 O0 m (g m)) ->
  exists f : rapply, Correct nd ip X vec f /\ forall m, f nx0 I0 O0 m = g m.
Proof.
  intros Hn H.
  exists (fun nx I O m => if Nat.eq_dec nx nx0 then if loc_dec I I0 then if loc_dec O O0 then g m else kern (xvec X vec) nx I O m
                                      else kern (xvec X vec) nx I O m else kern (xvec X vec) nx I O m).
  split.
  - intros nx I O m HW. pose proof (kern_vec_correct nd ip X vec Hn nx I O m HW) as K.
    destruct (Nat.eq_dec nx nx0) as [->|]; auto. destruct (loc_dec I I0) as [->|]; auto. destruct (loc_dec O O0) as [->|]; auto.
  - intros m. destruct (Nat.eq_dec nx0 nx0); [|easy]. destruct (loc_dec I0 I0); [|easy]. now destruct (loc_dec O0 O0).
Qed.
Lemma CorrectW_override X vec nx0 O0 (g : mem -> mem) : nnegd vec ->
  (forall m, vals X vec O0 O0 m (g m) /\ frame nx0 true X vec O0 O0 m (g m)) ->
  exists w : wapply, CorrectW X vec w /\ forall m, w nx0 O0 m = g m.
Proof.
  intros Hn H. destruct (Correct_override true true X vec nx0 O0 O0 g Hn H) as (f & C & E).
  exists (fun nx p m => f nx p p m). split; auto. intros nx I O m HW. pose proof (wf_x _ _ _ _ _ _ HW) as [-> _]. now apply C.
Qed.

(** ** Races between pieces *)
Section Blocks.
  Context {T : Type} (nx : nat) (nd : bool) (X : T -> xform) (vec : T -> list iodim) (I O : T -> loc) (p : T -> prog access).
  Context (S : T -> loc -> Prop) (K : loc -> Prop) (J : list T).
  Hypothesis HP : Pieces nx X vec I O J.
  Hypothesis HR : forall j, In j J -> race_free (p j).
  Hypothesis HWr : forall j a, In j J -> In a (actions (p j)) -> rO X vec O j (ac_dst a) \/ rI X vec I j (ac_dst a) \/ S j (ac_dst a).
  Hypothesis HRd : forall j a l, In j J -> In a (actions (p j)) -> In l (ac_src a) -> rI X vec I j l \/ rO X vec O j l \/ S j l \/ K l.
  Hypothesis HS : forall j l, In j J -> S j l -> (nx <= fst l)%nat.
  Hypothesis HSS : forall j k l, In j J -> In k J -> j <> k -> S j l -> S k l -> False.
  Hypothesis HK : forall l, K l -> (forall j, In j J -> ~ rI X vec I j l /\ ~ rO X vec O j l /\ ~ S j l).

  Lemma blk_rI j l : In j J -> rI X vec I j l -> (fst l < nx)%nat.
  Proof. intros Hj. apply InP_blk. now apply HP. Qed.
  Lemma blk_rO j l : In j J -> rO X vec O j l -> (fst l < nx)%nat.
  Proof. intros Hj. apply InP_blk. now apply HP. Qed.

  (** written by j, accessed by k *)
  Lemma no_share j k l : In j J -> In k J -> j <> k ->
    (rO X vec O j l \/ rI X vec I j l \/ S j l) -> (rI X vec I k l \/ rO X vec O k l \/ S k l \/ K l) -> False.
  Proof.
    intros Hj Hk Hne HA HB. pose proof (blk_rI j l Hj) as B1. pose proof (blk_rO j l Hj) as B2.
    pose proof (blk_rI k l Hk) as B3. pose proof (blk_rO k l Hk) as B4. pose proof (HS j l Hj) as B5. pose proof (HS k l Hk) as B6.
    destruct HB as [HB|[HB|[HB|HB]]].
    - destruct HA as [HA|[HA|HA]].
      + exact (pc_oi _ _ _ _ _ _ HP j k l Hj Hk Hne HA HB).
      + exact (pc_ii _ _ _ _ _ _ HP j k l Hj Hk Hne HA HB).
      + specialize (B3 HB). specialize (B5 HA). lia.
    - destruct HA as [HA|[HA|HA]].
      + exact (pc_oo _ _ _ _ _ _ HP j k l Hj Hk Hne HA HB).
      + apply (pc_oi _ _ _ _ _ _ HP k j l); auto.
      + specialize (B4 HB). specialize (B5 HA). lia.
    - destruct HA as [HA|[HA|HA]].
      + specialize (B2 HA). specialize (B6 HB). lia.
      + specialize (B1 HA). specialize (B6 HB). lia.
      + exact (HSS j k l Hj Hk Hne HA HB).
    - destruct (HK l HB j Hj) as (K1 & K2 & K3). tauto.
  Qed.
  Lemma blocks_indep j k : In j J -> In k J -> j <> k -> independent (p j) (p k).
  Proof.
    intros Hj Hk Hne a b Ha Hb [E|[E|E]].
    - apply (no_share j k (ac_dst a) Hj Hk Hne); [now apply HWr|]. rewrite E. pose proof (HWr k b Hk Hb). tauto.
    - apply (no_share j k (ac_dst a) Hj Hk Hne); [now apply HWr|]. eapply HRd; eauto.
    - apply (no_share k j (ac_dst b) Hk Hj); [auto|now apply HWr|]. eapply HRd; eauto.
  Qed.
  Lemma blocks_race_free : race_free (PSpawn (map p J) PEnd).
  Proof.
    constructor; [| |constructor].
    - rewrite Forall_map, Forall_forall. exact HR.
    - pose proof (pc_nodup _ _ _ _ _ _ HP) as ND. assert (Inc : incl J J) by apply incl_refl.
      revert Inc ND. generalize J at 1 3 4. intros L. induction L as [|j L IH]; intros Inc ND; cbn [map]; constructor.
      + rewrite Forall_map, Forall_forall. intros k Hk. inversion ND; subst. apply blocks_indep.
        * apply Inc. now left.
        * apply Inc. now right.
        * intros ->. auto.
      + inversion ND; subst. apply IH; auto. intros x Hx. apply Inc. now right.
  Qed.
  Lemma blocks_actions a : In a (actions (PSpawn (map p J) PEnd)) <-> exists j, In j J /\ In a (actions (p j)).
  Proof.
    cbn [actions]. rewrite app_nil_r, in_flat_map. split.
    - intros (q & Hq & Ha). apply in_map_iff in Hq as (j & <- & Hj). eauto.
    - intros (j & Hj & Ha). exists (p j). split; auto. now apply in_map.
  Qed.
  Lemma blocks_run m : run_seq (PSpawn (map p J) PEnd) m = fold_left (fun m j => run_seq (p j) m) J m.
  Proof. cbn [run_seq]. generalize J. intros L. revert m. induction L as [|j L IH]; intros m; cbn; auto. Qed.

  (** a confined program leaves everything else alone *)
  Lemma prog_frame j m (Hj : In j J) :
    (nd = true -> forall a, In a (actions (p j)) -> rO X vec O j (ac_dst a) \/ S j (ac_dst a)) ->
    frame nx nd (X j) (vec j) (I j) (O j) m (run_seq (p j) m).
  Proof.
    intros Hn l Hl Ho Hi. apply run_seq_frame. intros a Ha <-. destruct Hi as [Hi|Hi].
    - destruct (Hn Hi a Ha) as [C|C]; [now apply Ho|]. apply HS in C; auto. lia.
    - destruct (HWr j a Hj Ha) as [C|[C|C]]; [now apply Ho|now apply Hi|]. apply HS in C; auto. lia.
  Qed.
End Blocks.

(** ** thr-vrank *)
Lemma thr_vrank_program nd nx sz vec i d nthr ri di ro do_ (S : Z -> loc -> Prop) (K : loc -> Prop) p :
  let pi := (ri, sh ri di) in let po := (ro, sh ro do_) in
  let nb := thr_nb (dn d) nthr in
  let cv j := set_nth vec i (mkdim (thr_cnt (dn d) nthr j) (dis d) (dos d)) in
  let ci j := csh pi (j * (dis d * thr_bs (dn d) nthr)) in
  let co j := csh po (j * (dos d * thr_bs (dn d) nthr)) in
  good_arrays sz vec pi po -> (fst ri < nx)%nat -> (fst ro < nx)%nat ->
  nth_error vec i = Some d -> 0 < dn d -> 0 < nthr ->
  (pi = po -> dis d = dos d /\ (forall l, in_loc pi (sz ++ vec) l <-> out_loc po (sz ++ vec) l) /\
     forall j, 0 <= j < nb -> forall l, in_loc (ci j) (sz ++ cv j) l <-> out_loc (co j) (sz ++ cv j) l) ->
  (forall j l, 0 <= j < nb -> S j l -> (nx <= fst l)%nat) ->
  (forall j k l, 0 <= j < nb -> 0 <= k < nb -> j <> k -> S j l -> S k l -> False) ->
  (forall l, K l -> ~ in_loc pi (sz ++ vec) l /\ ~ out_loc po (sz ++ vec) l /\ forall j, 0 <= j < nb -> ~ S j l) ->
  (forall j, 0 <= j < nb -> dft_program nd sz (cv j) (ci j) (co j) (S j) K (p j)) ->
  dft_program nd sz vec pi po (fun l => exists j, 0 <= j < nb /\ S j l) K (PSpawn (map p (zr nb)) PEnd).
Proof.
  intros pi po nb cv ci co G HI HO Hd Hn Ht Hip HS HSS HK HPj.
  set (s := dis d) in *. set (u := dos d) in *. set (bs := thr_bs (dn d) nthr) in *.
  set (X := cx di do_ sz). set (ve := tensor_copy_except vec i).
  pose (ip := if loc_dec ri ro then if loc_dec (sh ri di) (sh ro do_) then true else false else false).
  assert (Ipt : ip = true <-> pi = po).
  { unfold ip, pi, po. destruct (loc_dec ri ro) as [E1|E1]; [destruct (loc_dec (sh ri di) (sh ro do_)) as [E2|E2]|]; split; intros; try congruence. }
  assert (W0 : Wf nx ip ri ro X vec).
  { apply Wf_good; auto.
    - intros E. apply Ipt in E. split; [now injection E|]. now apply Hip.
    - intros E E'. apply Ipt in E'. congruence. }
  assert (PV : Permutation vec (mkdim (dn d) s u :: ve)).
  { unfold s, u. replace (mkdim (dn d) (dis d) (dos d)) with d by now destruct d. now apply copy_except_perm. }
  assert (PC : forall j, Permutation (cv j) (mkdim (thr_cnt (dn d) nthr j) s u :: ve)) by (intros j; eapply set_nth_perm; eauto).
  assert (W1 : Wf nx ip ri ro X (mkdim (dn d) s u :: ve)).
  { eapply Wf_perm; [| | |exact W0]; [now apply il_vperm|now apply ol_vperm|].
    eapply Permutation_Forall; [exact PV|]. apply W0. }
  assert (Eci : forall j, ci j = (sh ri (j * (s * bs)), sh (sh ri (j * (s * bs))) di)) by (intros; apply csh_pair).
  assert (Eco : forall j, co j = (sh ro (j * (u * bs)), sh (sh ro (j * (u * bs))) do_)) by (intros; apply csh_pair).
  assert (RIj : forall j l, in_loc (ci j) (sz ++ cv j) l <-> InP (sh ri (j * (s * bs))) (il X (mkdim (thr_cnt (dn d) nthr j) s u :: ve)) l).
  { intros j l. rewrite Eci, in_loc_il, <- (il_cx di do_ sz). split; apply InP_perm; [|symmetry]; now apply il_vperm. }
  assert (ROj : forall j l, out_loc (co j) (sz ++ cv j) l <-> InP (sh ro (j * (u * bs))) (ol X (mkdim (thr_cnt (dn d) nthr j) s u :: ve)) l).
  { intros j l. rewrite Eco, out_loc_ol, <- (ol_cx di do_ sz). split; apply InP_perm; [|symmetry]; now apply ol_vperm. }
  assert (RI : forall l, in_loc pi (sz ++ vec) l <-> InP ri (il X (mkdim (dn d) s u :: ve)) l).
  { intros l. unfold pi. rewrite in_loc_il, <- (il_cx di do_ sz). split; apply InP_perm; [|symmetry]; now apply il_vperm. }
  assert (RO : forall l, out_loc po (sz ++ vec) l <-> InP ro (ol X (mkdim (dn d) s u :: ve)) l).
  { intros l. unfold po. rewrite out_loc_ol, <- (ol_cx di do_ sz). split; apply InP_perm; [|symmetry]; now apply ol_vperm. }
  assert (HX : xwf X) by apply cx_wf.
  assert (Hip' : ip = true -> s = u /\ forall j, 0 <= j < nb -> same_set X (mkdim (thr_cnt (dn d) nthr j) s u :: ve)).
  { intros E. apply Ipt in E. destruct (Hip E) as (E1 & _ & E2). split; auto. intros j Hj o.
    specialize (E2 j Hj (sh (sh ri (j * (s * bs))) o)). rewrite RIj, ROj in E2. rewrite <- E1 in E2.
    assert (Er : ri = ro) by (unfold pi, po in E; congruence). rewrite <- Er, !InP_in in E2. rewrite <- E1. exact E2. }
  assert (Hz : forall j, In j (zr nb) -> 0 <= j < nb) by (intros; now apply in_zr).
  assert (PS := cut_Pieces nx ip ri ro X ve (dn d) s u nthr bs nb W1 HX Hn Ht eq_refl eq_refl Hip' (zr nb) (NoDup_zr _) Hz).
  set (pv := fun j => mkdim (thr_cnt (dn d) nthr j) s u :: ve) in *.
  set (Ip := fun j => sh ri (j * (s * bs))) in *. set (Op := fun j => sh ro (j * (u * bs))) in *.
  assert (Wr : forall j a, In j (zr nb) -> In a (actions (p j)) ->
    rO (fun _ => X) pv Op j (ac_dst a) \/ rI (fun _ => X) pv Ip j (ac_dst a) \/ S j (ac_dst a)).
  { intros j a Hj Ha. apply Hz in Hj. destruct (dp_writes _ _ _ _ _ _ _ _ (HPj j Hj) a Ha) as [C|[[_ C]|C]].
    - left. now apply ROj.
    - right. left. now apply RIj.
    - auto. }
  assert (Wn : forall j, In j (zr nb) -> nd = true -> forall a, In a (actions (p j)) -> rO (fun _ => X) pv Op j (ac_dst a) \/ S j (ac_dst a)).
  { intros j Hj E a Ha. apply Hz in Hj. destruct (dp_writes _ _ _ _ _ _ _ _ (HPj j Hj) a Ha) as [C|[[E' C]|C]]; [|congruence|auto].
    left. now apply ROj. }
  assert (Rd : forall j a l, In j (zr nb) -> In a (actions (p j)) -> In l (ac_src a) ->
    rI (fun _ => X) pv Ip j l \/ rO (fun _ => X) pv Op j l \/ S j l \/ K l).
  { intros j a l Hj Ha Hl. apply Hz in Hj. destruct (dp_reads _ _ _ _ _ _ _ _ (HPj j Hj) a l Ha Hl) as [C|[C|[C|C]]]; auto.
    - left. now apply RIj.
    - right. left. now apply ROj. }
  assert (InI : forall j l, 0 <= j < nb -> rI (fun _ => X) pv Ip j l -> in_loc pi (sz ++ vec) l).
  { intros j l Hj H. apply RI. exact (cut_rI ri X ve (dn d) s u nthr bs nb Hn Ht eq_refl eq_refl j l Hj H). }
  assert (InO : forall j l, 0 <= j < nb -> rO (fun _ => X) pv Op j l -> out_loc po (sz ++ vec) l).
  { intros j l Hj H. apply RO. exact (cut_rO ro X ve (dn d) s u nthr bs nb Hn Ht eq_refl eq_refl j l Hj H). }
  assert (HK' : forall l, K l -> forall j, In j (zr nb) -> ~ rI (fun _ => X) pv Ip j l /\ ~ rO (fun _ => X) pv Op j l /\ ~ S j l).
  { intros l Kl j Hj. apply Hz in Hj. destruct (HK l Kl) as (K1 & K2 & K3). split; [|split]; auto; intros C.
    - apply K1. eauto.
    - apply K2. eauto. }
  constructor.
  - apply (blocks_race_free nx (fun _ => X) pv Ip Op p S K (zr nb)); auto.
    + intros j Hj. apply (HPj j (Hz j Hj)).
    + intros j l Hj. apply HS; auto.
    + intros j k l Hj Hk. apply HSS; auto.
  - intros a Ha. apply blocks_actions in Ha as (j & Hj & Ha).
    destruct (dp_writes _ _ _ _ _ _ _ _ (HPj j (Hz j Hj)) a Ha) as [C|[[E C]|C]].
    + left. apply (InO j); auto. now apply ROj.
    + right. left. split; auto. apply (InI j); auto. now apply RIj.
    + right. right. eauto.
  - intros a l Ha Hl. apply blocks_actions in Ha as (j & Hj & Ha).
    destruct (Rd j a l Hj Ha Hl) as [C|[C|[C|C]]].
    + left. apply (InI j); auto.
    + right. left. apply (InO j); auto.
    + right. right. left. exists j. auto.
    + auto.
  - intros m. rewrite blocks_run. unfold pi, po. rewrite is_transform_vals. fold X.
    eapply vals_perm; [symmetry; exact PV|].
    destruct (pieces_any_order nx nd (fun _ => X) pv Ip Op (fun j => run_seq (p j)) (zr nb) PS) with (m := m) as [V _].
    + intros j Hj m1. split.
      * eapply vals_perm; [apply PC|]. pose proof (dp_alone _ _ _ _ _ _ _ _ (HPj j (Hz j Hj)) m1) as A.
        rewrite Eci, Eco, is_transform_vals in A. exact A.
      * apply (prog_frame nx nd (fun _ => X) pv Ip Op p S (zr nb)); auto.
        intros k l Hk. apply HS; auto.
    + apply (cut_vals ri ro X ve (dn d) s u nthr bs nb HX Hn Ht eq_refl eq_refl). intros j Hj. apply V. now apply in_zr.
Qed.

(** ** thr-ct *)
Lemma tw_loc_il dit di r irs ors m ms v ivs ovs lo hi p l :
  tw_loc di r irs ms v ivs lo hi p l <-> InP p (il (xtw dit di r irs ors m lo (hi - lo) ms) [mkdim v ivs ovs]) l.
Proof.
  rewrite il_xtw. cbn [ti map dn dis]. unfold tw_loc, InP. split.
  - intros (k & j & i & c & Hk & Hj & Hi & Hc & ->). eexists; split; [|reflexivity].
    apply in_map_iff. exists ((k - lo) * ms + (c * di + (j * irs + (i * ivs + 0)))). split; [ring|].
    apply in_locs_cons. exists (k - lo), (c * di + (j * irs + (i * ivs + 0))). split; [lia|]. split; [|auto].
    apply in_locs_cons. exists c, (j * irs + (i * ivs + 0)). split; [lia|]. split; [|auto].
    apply in_locs_cons. exists j, (i * ivs + 0). split; [lia|]. split; [|auto].
    apply in_locs_cons. exists i, 0. split; [lia|]. split; [now left|auto].
  - intros (o & Ho & ->). apply in_map_iff in Ho as (x & <- & Hx).
    apply in_locs_cons in Hx as (k & x1 & Hk & Hx & ->). apply in_locs_cons in Hx as (c & x2 & Hc & Hx & ->).
    apply in_locs_cons in Hx as (j & x3 & Hj & Hx & ->). apply in_locs_cons in Hx as (i & x4 & Hi & Hx & ->). destruct Hx as [<-|[]].
    exists (lo + k), j, i, c. repeat (split; [lia|]). f_equal. ring.
Qed.
Lemma tw_loc_ol dit di r irs ors m ms v ivs ovs lo hi p l :
  tw_loc di r ors ms v ovs lo hi p l <-> InP p (ol (xtw dit di r irs ors m lo (hi - lo) ms) [mkdim v ivs ovs]) l.
Proof.
  replace (InP p (ol (xtw dit di r irs ors m lo (hi - lo) ms) [mkdim v ivs ovs]) l) with
    (InP p (il (xtw dit di r ors irs m lo (hi - lo) ms) [mkdim v ovs ivs]) l); [apply tw_loc_il|].
  now rewrite il_xtw, ol_xtw.
Qed.

Section ThrCt.
  Context (nx : nat) (dit : bool) (di r irs ors m ms v ivs ovs nthr : Z) (p0 : loc).
  Context (S : Z -> loc -> Prop) (K : loc -> Prop) (q : Z -> prog access).
  Let nb := thr_nb m nthr.
  Let lo (j : Z) := j * thr_bs m nthr.
  Let hi (j : Z) := j * thr_bs m nthr + thr_cnt m nthr j.
  Let X := xtw dit di r irs ors m 0 m ms.
  Let Xp (j : Z) := xtw dit di r irs ors m (j * thr_bs m nthr) (thr_cnt m nthr j) ms.
  Let vec := [mkdim v ivs ovs].
  Hypothesis PV : Permutation [(r, irs); (v, ivs)] [(r, ors); (v, ovs)].
  Hypothesis Hm : 0 < m.
  Hypothesis Ht : 0 < nthr.
  Hypothesis HW : Wf nx true p0 p0 X vec.
  Hypothesis HS : forall j l, 0 <= j < nb -> S j l -> (nx <= fst l)%nat.
  Hypothesis HSS : forall j k l, 0 <= j < nb -> 0 <= k < nb -> j <> k -> S j l -> S k l -> False.
  Hypothesis HK : forall l, K l -> ~ InP p0 (il X vec) l /\ ~ InP p0 (ol X vec) l /\ forall j, 0 <= j < nb -> ~ S j l.
  Hypothesis HQ : forall j, 0 <= j < nb -> twiddle_program dit di r irs ors m ms v ivs ovs (lo j) (hi j) p0 (S j) K (q j).

  Lemma ct_rI j l : tw_loc di r irs ms v ivs (lo j) (hi j) p0 l <-> rI Xp (fun _ => vec) (fun _ => p0) j l.
  Proof. rewrite (tw_loc_il dit di r irs ors m ms v ivs ovs). unfold rI, Xp, lo, hi. now replace (j * thr_bs m nthr + thr_cnt m nthr j - j * thr_bs m nthr) with (thr_cnt m nthr j) by ring. Qed.
  Lemma ct_rO j l : tw_loc di r ors ms v ovs (lo j) (hi j) p0 l <-> rO Xp (fun _ => vec) (fun _ => p0) j l.
  Proof. rewrite (tw_loc_ol dit di r irs ors m ms v ivs ovs). unfold rO, Xp, lo, hi. now replace (j * thr_bs m nthr + thr_cnt m nthr j - j * thr_bs m nthr) with (thr_cnt m nthr j) by ring. Qed.
  Lemma ct_PS : Pieces nx Xp (fun _ => vec) (fun _ => p0) (fun _ => p0) (zr nb).
  Proof.
    apply (tw_Pieces dit di r irs ors m ms v ivs ovs nthr PV Hm Ht nx p0 p0 HW (zr nb) (NoDup_zr _)). intros j Hj. now apply in_zr.
  Qed.
  Lemma ct_wr j a : In j (zr nb) -> In a (actions (q j)) ->
    rO Xp (fun _ => vec) (fun _ => p0) j (ac_dst a) \/ rI Xp (fun _ => vec) (fun _ => p0) j (ac_dst a) \/ S j (ac_dst a).
  Proof.
    intros Hj Ha. apply in_zr in Hj. rewrite <- ct_rI, <- ct_rO.
    exact (tp_writes _ _ _ _ _ _ _ _ _ _ _ _ _ _ _ _ (HQ j Hj) a Ha).
  Qed.
  Lemma ct_rd j a l : In j (zr nb) -> In a (actions (q j)) -> In l (ac_src a) ->
    rI Xp (fun _ => vec) (fun _ => p0) j l \/ rO Xp (fun _ => vec) (fun _ => p0) j l \/ S j l \/ K l.
  Proof.
    intros Hj Ha Hl. apply in_zr in Hj. rewrite <- ct_rI, <- ct_rO.
    exact (tp_reads _ _ _ _ _ _ _ _ _ _ _ _ _ _ _ _ (HQ j Hj) a l Ha Hl).
  Qed.
  Lemma ct_HS j l : In j (zr nb) -> S j l -> (nx <= fst l)%nat.
  Proof. intros Hj. apply in_zr in Hj. now apply HS. Qed.
  Lemma ct_race_free : race_free (PSpawn (map q (zr nb)) PEnd).
  Proof.
    apply (blocks_race_free nx Xp (fun _ => vec) (fun _ => p0) (fun _ => p0) q S K (zr nb) ct_PS).
    - intros j Hj. apply in_zr in Hj. exact (tp_race_free _ _ _ _ _ _ _ _ _ _ _ _ _ _ _ _ (HQ j Hj)).
    - exact ct_wr.
    - exact ct_rd.
    - exact ct_HS.
    - intros j k l Hj Hk. apply in_zr in Hj, Hk. now apply HSS.
    - intros l Kl j Hj. apply in_zr in Hj. destruct (HK l Kl) as (K1 & K2 & K3). split; [|split]; auto; intros C.
      + apply K1. exact (tw_rI dit di r irs ors m ms v ivs ovs nthr Hm Ht p0 j l Hj C).
      + apply K2. exact (tw_rO dit di r irs ors m ms v ivs ovs nthr Hm Ht p0 j l Hj C).
  Qed.
  Lemma ct_writes a : In a (actions (PSpawn (map q (zr nb)) PEnd)) ->
    InP p0 (ol X vec) (ac_dst a) \/ exists j, 0 <= j < nb /\ S j (ac_dst a).
  Proof.
    intros Ha. apply blocks_actions in Ha as (j & Hj & Ha). pose proof (ct_wr j a Hj Ha) as C. apply in_zr in Hj.
    destruct C as [C|[C|C]]; [| |eauto]; left.
    - exact (tw_rO dit di r irs ors m ms v ivs ovs nthr Hm Ht p0 j _ Hj C).
    - apply (tw_rI dit di r irs ors m ms v ivs ovs nthr Hm Ht p0 j) in C; auto.
      pose proof (wf_x _ _ _ _ _ _ HW) as [_ E]. eapply InP_incl; [|exact C]. intros o. apply E.
  Qed.
  Lemma ct_reads a l : In a (actions (PSpawn (map q (zr nb)) PEnd)) -> In l (ac_src a) ->
    InP p0 (ol X vec) l \/ (exists j, 0 <= j < nb /\ S j l) \/ K l.
  Proof.
    intros Ha Hl. apply blocks_actions in Ha as (j & Hj & Ha). pose proof (ct_rd j a l Hj Ha Hl) as C. apply in_zr in Hj.
    destruct C as [C|[C|[C|C]]]; [| |eauto|auto]; left.
    - apply (tw_rI dit di r irs ors m ms v ivs ovs nthr Hm Ht p0 j) in C; auto.
      pose proof (wf_x _ _ _ _ _ _ HW) as [_ E]. eapply InP_incl; [|exact C]. intros o. apply E.
    - exact (tw_rO dit di r irs ors m ms v ivs ovs nthr Hm Ht p0 j _ Hj C).
  Qed.
  Lemma ct_alone mm : vals X vec p0 p0 mm (run_seq (PSpawn (map q (zr nb)) PEnd) mm) /\
    frame nx true X vec p0 p0 mm (run_seq (PSpawn (map q (zr nb)) PEnd) mm).
  Proof.
    split.
    - rewrite blocks_run.
      destruct (pieces_any_order nx false Xp (fun _ => vec) (fun _ => p0) (fun _ => p0) (fun j => run_seq (q j)) (zr nb) ct_PS) with (m := mm) as [V _].
      + intros j Hj m1. split.
        * apply in_zr in Hj. unfold Xp. rewrite vals_xtw. intros a b Hab k Hk k1 Hk1.
          apply offs1_inv in Hab as (i & Hi & -> & ->).
          exact (tp_alone _ _ _ _ _ _ _ _ _ _ _ _ _ _ _ _ (HQ j Hj) m1 i k k1 Hi Hk Hk1).
        * apply (prog_frame nx false Xp (fun _ => vec) (fun _ => p0) (fun _ => p0) q S (zr nb)); auto.
          -- exact ct_wr.
          -- exact ct_HS.
          -- discriminate.
      + apply (tw_vals dit di r irs ors m ms v ivs ovs nthr Hm Ht p0 p0). intros j Hj. apply V. now apply in_zr.
    - intros l Hl Ho _. apply run_seq_frame. intros a Ha <-. destruct (ct_writes a Ha) as [C|(j & Hj & C)]; [auto|].
      apply HS in C; auto. lia.
  Qed.
End ThrCt.

(** decimation in time: the sub-transforms, then the parallel twiddle step *)
Lemma thr_dit_program nd nx n is os v ivs ovs r m nthr ri di ro do_ (S0 : loc -> Prop) (S : Z -> loc -> Prop) (K : loc -> Prop) pc q :
  let pi := (ri, sh ri di) in let po := (ro, sh ro do_) in
  let nb := thr_nb m nthr in
  let lo j := j * thr_bs m nthr in let hi j := j * thr_bs m nthr + thr_cnt m nthr j in
  n = r * m -> 0 < r -> 0 < m -> 0 < nthr ->
  good_arrays [mkdim n is os] [mkdim v ivs ovs] pi po -> (fst ri < nx)%nat -> (fst ro < nx)%nat ->
  (pi = po -> forall l, in_loc pi [mkdim n is os; mkdim v ivs ovs] l <-> out_loc po [mkdim n is os; mkdim v ivs ovs] l) ->
  (forall l, S0 l -> (nx <= fst l)%nat) ->
  (forall j l, 0 <= j < nb -> S j l -> (nx <= fst l)%nat) ->
  (forall j k l, 0 <= j < nb -> 0 <= k < nb -> j <> k -> S j l -> S k l -> False) ->
  (forall l, K l -> ~ out_loc po [mkdim n is os; mkdim v ivs ovs] l /\ forall j, 0 <= j < nb -> ~ S j l) ->
  dft_program nd [mkdim m (r * is) os] [mkdim r is (m * os); mkdim v ivs ovs] pi po S0 K pc ->
  (forall j, 0 <= j < nb -> twiddle_program true do_ r (m * os) (m * os) m os v ovs ovs (lo j) (hi j) ro (S j) K (q j)) ->
  dft_program nd [mkdim n is os] [mkdim v ivs ovs] pi po (fun l => S0 l \/ exists j, 0 <= j < nb /\ S j l) K
    (papp pc (PSpawn (map q (zr nb)) PEnd)).
Proof.
  intros pi po nb lo hi -> Hr Hm Ht G HI HO Hip HS0 HS HSS HK HC HQ.
  set (X := cx di do_ [mkdim (r * m) is os]). set (vec := [mkdim v ivs ovs]).
  set (Xc := cx di do_ [mkdim m (r * is) os]). set (vc := [mkdim r is (m * os); mkdim v ivs ovs]).
  set (Xw := xtw true do_ r (m * os) (m * os) m 0 m os). set (vw := [mkdim v ovs ovs]).
  pose (ip := if loc_dec ri ro then if loc_dec (sh ri di) (sh ro do_) then true else false else false).
  assert (Ipt : ip = true <-> pi = po).
  { unfold ip, pi, po. destruct (loc_dec ri ro) as [E1|E1]; [destruct (loc_dec (sh ri di) (sh ro do_)) as [E2|E2]|]; split; intros; try congruence. }
  assert (W0 : Wf nx ip ri ro X vec).
  { apply Wf_good; auto.
    - intros E. apply Ipt in E. split; [now injection E|]. now apply Hip.
    - intros E E'. apply Ipt in E'. congruence. }
  assert (Hv : 0 <= v) by (destruct W0 as [_ _ W _ _ _]; now inversion W).
  assert (Pic : Permutation (il X vec) (il Xc vc)).
  { unfold X, Xc, vec, vc. rewrite !il_cx. cbn [app ti map dn dis]. rewrite (Z.mul_comm r m). rewrite locs_merge2 by lia.
    rewrite (Z.mul_comm is r). reflexivity. }
  assert (Poc : Permutation (ol X vec) (ol Xc vc)).
  { unfold X, Xc, vec, vc. rewrite !ol_cx. cbn [app to_ map dn dos]. rewrite locs_merge2 by lia. rewrite (Z.mul_comm os m). apply locs_perm, perm_skip, perm_swap. }
  assert (Pow : Permutation (ol X vec) (il Xw vw)).
  { unfold X, Xw, vec, vw. rewrite ol_cx, il_xtw. cbn [app to_ ti map dn dis dos]. rewrite Z.mul_0_l, map_add0. rewrite locs_merge2 by lia. rewrite (Z.mul_comm os m).
    change (Permutation (locs [(2, do_); (r, m * os); (m, os); (v, ovs)]) (locs [(m, os); (2, do_); (r, m * os); (v, ovs)])).
    apply locs_perm. symmetry. apply (perm_rot3 (m, os) (2, do_) (r, m * os)). }
  assert (Ew : il Xw vw = ol Xw vw) by (unfold Xw, vw; now rewrite il_xtw, ol_xtw).
  assert (Ww : Wf nx true ro ro Xw vw).
  { constructor; auto.
    - repeat constructor. exact Hv.
    - eapply Permutation_NoDup; [exact Pow|]. apply W0.
    - rewrite <- Ew. eapply Permutation_NoDup; [exact Pow|]. apply W0.
    - split; auto. intros o. now rewrite Ew. }
  assert (RI : forall l, in_loc pi [mkdim (r * m) is os; mkdim v ivs ovs] l <-> InP ri (il X vec) l).
  { intros l. unfold pi. rewrite in_loc_il. unfold X. now rewrite il_cx. }
  assert (RO : forall l, out_loc po [mkdim (r * m) is os; mkdim v ivs ovs] l <-> InP ro (ol X vec) l).
  { intros l. unfold po. rewrite out_loc_ol. unfold X. now rewrite ol_cx. }
  assert (RIc : forall l, in_loc pi ([mkdim m (r * is) os] ++ vc) l <-> InP ri (il X vec) l).
  { intros l. unfold pi. rewrite in_loc_il, <- (il_cx di do_). fold Xc. split; apply InP_perm; auto. now symmetry. }
  assert (ROc : forall l, out_loc po ([mkdim m (r * is) os] ++ vc) l <-> InP ro (ol X vec) l).
  { intros l. unfold po. rewrite out_loc_ol, <- (ol_cx di do_). fold Xc. split; apply InP_perm; auto. now symmetry. }
  assert (ROw : forall l, InP ro (ol Xw vw) l <-> InP ro (ol X vec) l).
  { intros l. rewrite <- Ew. split; apply InP_perm; auto. now symmetry. }
  assert (HKw : forall l, K l -> ~ InP ro (il Xw vw) l /\ ~ InP ro (ol Xw vw) l /\ forall j, 0 <= j < nb -> ~ S j l).
  { intros l Kl. destruct (HK l Kl) as [K1 K2]. rewrite Ew, ROw, <- RO. auto. }
  pose proof (ct_race_free nx true do_ r (m * os) (m * os) m os v ovs ovs nthr ro S K q (Permutation_refl _) Hm Ht Ww HS HSS HKw HQ) as RF.
  constructor.
  - apply papp_rf; [apply HC|exact RF].
  - intros a Ha. rewrite papp_act, in_app_iff in Ha. destruct Ha as [Ha|Ha].
    + destruct (dp_writes _ _ _ _ _ _ _ _ HC a Ha) as [C|[[E C]|C]].
      * left. apply RO. now apply ROc.
      * right. left. split; auto. apply RI. now apply RIc.
      * right. right. now left.
    + destruct (ct_writes nx true do_ r (m * os) (m * os) m os v ovs ovs nthr ro S K q Hm Ht Ww HQ a Ha) as [C|C]; [|auto].
      left. apply RO. now apply ROw.
  - intros a l Ha Hl. rewrite papp_act, in_app_iff in Ha. destruct Ha as [Ha|Ha].
    + destruct (dp_reads _ _ _ _ _ _ _ _ HC a l Ha Hl) as [C|[C|[C|C]]]; [| |right; right; left; now left|auto].
      * left. apply RI. now apply RIc.
      * right. left. apply RO. now apply ROc.
    + destruct (ct_reads nx true do_ r (m * os) (m * os) m os v ovs ovs nthr ro S K q Hm Ht Ww HQ a l Ha Hl) as [C|[C|C]]; [|auto|auto].
      right. left. apply RO. now apply ROw.
  - intros mm. rewrite papp_run. unfold pi, po. rewrite is_transform_vals. fold X vec.
    destruct (Correct_override nd ip Xc vc nx ri ro (run_seq pc)) as (f & Cf & Ef).
    { repeat constructor; cbn; lia. }
    { intros m1. split.
      - apply is_transform_vals. apply HC.
      - intros l Hl Ho Hi. apply run_seq_frame. intros a Ha <-. unfold Xc, vc in Ho, Hi. rewrite ol_cx in Ho. rewrite il_cx in Hi.
        destruct (dp_writes _ _ _ _ _ _ _ _ HC a Ha) as [C|[[E C]|C]].
        + apply Ho. now apply out_loc_ol.
        + destruct Hi as [Hi|Hi]; [congruence|]. apply Hi. now apply in_loc_il.
        + apply HS0 in C. lia. }
    destruct (CorrectW_override Xw vw nx ro (run_seq (PSpawn (map q (zr nb)) PEnd))) as (w & Cw & E2).
    { repeat constructor. exact Hv. }
    { intros m1. apply (ct_alone nx true do_ r (m * os) (m * os) m os v ovs ovs nthr ro S K q (Permutation_refl _) Hm Ht Ww HS HQ). }
    rewrite <- E2, <- Ef.
    exact (proj1 (ct_dit_correct nd ip di do_ r m is os v ivs ovs w f Hr Hm Hv Cw Cf nx ri ro mm W0)).
Qed.

(** decimation in frequency (with or without the transposition of
    DECDIF+TRANSPOSE): the parallel twiddle step on the input array, then the
    sub-transforms *)
Lemma thr_dif_program nd nx n is os v ivs ovs r m cors covs nthr ri di ro do_ (S0 : loc -> Prop) (S : Z -> loc -> Prop) (K : loc -> Prop) pc q :
  let pi := (ri, sh ri di) in let po := (ro, sh ro do_) in
  let nb := thr_nb m nthr in
  let lo j := j * thr_bs m nthr in let hi j := j * thr_bs m nthr + thr_cnt m nthr j in
  n = r * m -> 0 < r -> 0 < m -> 0 < nthr ->
  Permutation [(r, m * is); (v, ivs)] [(r, cors); (v, covs)] ->
  pi = po \/ nd = false ->
  good_arrays [mkdim n is os] [mkdim v ivs ovs] pi po -> (fst ri < nx)%nat -> (fst ro < nx)%nat ->
  (pi = po -> forall l, in_loc pi [mkdim n is os; mkdim v ivs ovs] l <-> out_loc po [mkdim n is os; mkdim v ivs ovs] l) ->
  (forall l, S0 l -> (nx <= fst l)%nat) ->
  (forall j l, 0 <= j < nb -> S j l -> (nx <= fst l)%nat) ->
  (forall j k l, 0 <= j < nb -> 0 <= k < nb -> j <> k -> S j l -> S k l -> False) ->
  (forall l, K l -> ~ in_loc pi [mkdim n is os; mkdim v ivs ovs] l /\ forall j, 0 <= j < nb -> ~ S j l) ->
  (forall j, 0 <= j < nb -> twiddle_program false di r (m * is) cors m is v ivs covs (lo j) (hi j) ri (S j) K (q j)) ->
  dft_program nd [mkdim m is (r * os)] [mkdim r cors os; mkdim v covs ovs] pi po S0 K pc ->
  dft_program nd [mkdim n is os] [mkdim v ivs ovs] pi po (fun l => S0 l \/ exists j, 0 <= j < nb /\ S j l) K
    (papp (PSpawn (map q (zr nb)) PEnd) pc).
Proof.
  intros pi po nb lo hi -> Hr Hm Ht PV Hnd G HI HO Hip HS0 HS HSS HK HQ HC.
  set (X := cx di do_ [mkdim (r * m) is os]). set (vec := [mkdim v ivs ovs]).
  set (Xc := cx di do_ [mkdim m is (r * os)]). set (vc := [mkdim r cors os; mkdim v covs ovs]).
  set (Xw := xtw false di r (m * is) cors m 0 m is). set (vw := [mkdim v ivs covs]).
  pose (ip := if loc_dec ri ro then if loc_dec (sh ri di) (sh ro do_) then true else false else false).
  assert (Ipt : ip = true <-> pi = po).
  { unfold ip, pi, po. destruct (loc_dec ri ro) as [E1|E1]; [destruct (loc_dec (sh ri di) (sh ro do_)) as [E2|E2]|]; split; intros; try congruence. }
  assert (W0 : Wf nx ip ri ro X vec).
  { apply Wf_good; auto.
    - intros E. apply Ipt in E. split; [now injection E|]. now apply Hip.
    - intros E E'. apply Ipt in E'. congruence. }
  assert (Hv : 0 <= v) by (destruct W0 as [_ _ W _ _ _]; now inversion W).
  assert (P1 : Permutation (locs [(2, di); (r * m, is); (v, ivs)]) (locs [(m, is); (2, di); (r, m * is); (v, ivs)])).
  { rewrite locs_merge2 by lia. rewrite (Z.mul_comm is m). apply locs_perm. symmetry. apply (perm_rot3 (m, is) (2, di) (r, m * is)). }
  assert (P2 : Permutation (locs [(2, di); (r * m, is); (v, ivs)]) (locs [(m, is); (2, di); (r, cors); (v, covs)])).
  { rewrite P1. apply locs_perm. now do 2 apply perm_skip. }
  assert (Piw : Permutation (il X vec) (il Xw vw)).
  { unfold X, Xw, vec, vw. rewrite il_cx, il_xtw. cbn [app ti map dn dis]. rewrite Z.mul_0_l, map_add0. exact P1. }
  assert (Pow : Permutation (il X vec) (ol Xw vw)).
  { unfold X, Xw, vec, vw. rewrite il_cx, ol_xtw. cbn [app ti to_ map dn dis dos]. rewrite Z.mul_0_l, map_add0. exact P2. }
  assert (Pic : Permutation (il X vec) (il Xc vc)).
  { unfold X, Xc, vec, vc. rewrite !il_cx. cbn [app ti map dn dis]. rewrite P2. apply locs_perm. apply perm_swap. }
  assert (Poc : Permutation (ol X vec) (ol Xc vc)).
  { unfold X, Xc, vec, vc. rewrite !ol_cx. cbn [app to_ map dn dos]. rewrite (Z.mul_comm r m).
    rewrite locs_merge2 by lia. rewrite (Z.mul_comm os r). reflexivity. }
  assert (Ww : Wf nx true ri ri Xw vw).
  { constructor; auto.
    - repeat constructor. exact Hv.
    - eapply Permutation_NoDup; [exact Piw|]. apply W0.
    - eapply Permutation_NoDup; [exact Pow|]. apply W0.
    - split; auto. intros o. split; intros Ho; (eapply Permutation_in; [|exact Ho]).
      + rewrite <- Piw. exact Pow.
      + rewrite <- Pow. exact Piw. }
  assert (RI : forall l, in_loc pi [mkdim (r * m) is os; mkdim v ivs ovs] l <-> InP ri (il X vec) l).
  { intros l. unfold pi. rewrite in_loc_il. unfold X. now rewrite il_cx. }
  assert (RO : forall l, out_loc po [mkdim (r * m) is os; mkdim v ivs ovs] l <-> InP ro (ol X vec) l).
  { intros l. unfold po. rewrite out_loc_ol. unfold X. now rewrite ol_cx. }
  assert (RIc : forall l, in_loc pi ([mkdim m is (r * os)] ++ vc) l <-> InP ri (il X vec) l).
  { intros l. unfold pi. rewrite in_loc_il, <- (il_cx di do_). fold Xc. split; apply InP_perm; auto. now symmetry. }
  assert (ROc : forall l, out_loc po ([mkdim m is (r * os)] ++ vc) l <-> InP ro (ol X vec) l).
  { intros l. unfold po. rewrite out_loc_ol, <- (ol_cx di do_). fold Xc. split; apply InP_perm; auto. now symmetry. }
  assert (RIw : forall l, InP ri (ol Xw vw) l <-> InP ri (il X vec) l).
  { intros l. split; apply InP_perm; auto. now symmetry. }
  assert (RIw' : forall l, InP ri (il Xw vw) l <-> InP ri (il X vec) l).
  { intros l. split; apply InP_perm; auto. now symmetry. }
  assert (HKw : forall l, K l -> ~ InP ri (il Xw vw) l /\ ~ InP ri (ol Xw vw) l /\ forall j, 0 <= j < nb -> ~ S j l).
  { intros l Kl. destruct (HK l Kl) as [K1 K2]. rewrite RIw, RIw', <- RI. auto. }
  pose proof (ct_race_free nx false di r (m * is) cors m is v ivs covs nthr ri S K q PV Hm Ht Ww HS HSS HKw HQ) as RF.
  constructor.
  - apply papp_rf; [exact RF|apply HC].
  - intros a Ha. rewrite papp_act, in_app_iff in Ha. destruct Ha as [Ha|Ha].
    + destruct (ct_writes nx false di r (m * is) cors m is v ivs covs nthr ri S K q Hm Ht Ww HQ a Ha) as [C|C]; [|auto].
      apply RIw, RI in C. destruct Hnd as [E|E]; [|auto]. left. now apply Hip.
    + destruct (dp_writes _ _ _ _ _ _ _ _ HC a Ha) as [C|[[E C]|C]].
      * left. apply RO. now apply ROc.
      * right. left. split; auto. apply RI. now apply RIc.
      * right. right. now left.
  - intros a l Ha Hl. rewrite papp_act, in_app_iff in Ha. destruct Ha as [Ha|Ha].
    + destruct (ct_reads nx false di r (m * is) cors m is v ivs covs nthr ri S K q Hm Ht Ww HQ a l Ha Hl) as [C|[C|C]]; [|auto|auto].
      left. apply RI. now apply RIw.
    + destruct (dp_reads _ _ _ _ _ _ _ _ HC a l Ha Hl) as [C|[C|[C|C]]]; [| |right; right; left; now left|auto].
      * left. apply RI. now apply RIc.
      * right. left. apply RO. now apply ROc.
  - intros mm. rewrite papp_run. unfold pi, po. rewrite is_transform_vals. fold X vec.
    destruct (Correct_override nd ip Xc vc nx ri ro (run_seq pc)) as (f & Cf & Ef).
    { repeat constructor; cbn; lia. }
    { intros m1. split.
      - apply is_transform_vals. apply HC.
      - intros l Hl Ho Hi. apply run_seq_frame. intros a Ha <-. unfold Xc, vc in Ho, Hi. rewrite ol_cx in Ho. rewrite il_cx in Hi.
        destruct (dp_writes _ _ _ _ _ _ _ _ HC a Ha) as [C|[[E C]|C]].
        + apply Ho. now apply out_loc_ol.
        + destruct Hi as [Hi|Hi]; [congruence|]. apply Hi. now apply in_loc_il.
        + apply HS0 in C. lia. }
    destruct (CorrectW_override Xw vw nx ri (run_seq (PSpawn (map q (zr nb)) PEnd))) as (w & Cw & E2).
    { repeat constructor. exact Hv. }
    { intros m1. apply (ct_alone nx false di r (m * is) cors m is v ivs covs nthr ri S K q PV Hm Ht Ww HS HQ). }
    rewrite <- E2, <- Ef.
    assert (Hd : ip = true \/ nd = false) by (destruct Hnd as [E|E]; [left; now apply Ipt|auto]).
    exact (proj1 (ct_dif_correct nd ip di do_ r m is os v ivs ovs cors covs w f Hr Hm Hv Hd PV Cw Cf nx ri ro mm W0)).
Qed.
