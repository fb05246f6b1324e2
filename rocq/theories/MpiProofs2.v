(** * MpiProofs2: default block sizes and the local_size family *)
From Coq Require Import ZArith List Lia Bool Znumtheory.
From Verif Require Import Base PrimesModel PrimesProofs MpiModel MpiProofs.
Import ListNotations.
Open Scope Z_scope.

Lemma bk_setb_same k b d : bk k (setb k b d) = b.
Proof. now destruct k. Qed.
Lemma dn_setb k b d : dn_ (setb k b d) = dn_ d.
Proof. now destruct k. Qed.
Definition other (k : kind) : kind := match k with IB => OB | OB => IB end.
Lemma bk_setb_other k b d : bk (other k) (setb k b d) = bk (other k) d.
Proof. now destruct k. Qed.

(** [kept k dims0 sz]: the sizes are the user's, and so are the blocks the user
    specified. *)
Definition kept (k : kind) (dims0 sz : list ddim) : Prop :=
  Forall2 (fun d0 d => dn_ d = dn_ d0 /\ 1 <= dn_ d /\ 1 <= bk k d /\ (bk k d0 <> 0 -> bk k d = bk k d0)) dims0 sz.
Lemma kept_good k a b : kept k a b -> good k b.
Proof. induction 1 as [|x y a b (H1 & H2 & H3 & _) H IH]; constructor; auto. Qed.

Lemma fill_blocks_ok k P : 1 <= P -> forall dims0 sz nb np,
  kept k dims0 sz ->
  Forall2 (fun d0 d => bk k d0 = 0 -> bk k d = dn_ d) dims0 sz ->
  1 <= nb -> np = P / nb ->
  exists r, fill_blocks P k dims0 sz nb np = Ret r /\ kept k dims0 r /\
    map (bk (other k)) r = map (bk (other k)) sz /\
    forall pre, 1 <= pre -> nb = pre * zprod (nbs k sz) -> nb <= P -> pre * zprod (nbs k r) <= P.
Proof.
  intros HP. induction dims0 as [|d0 t0 IH]; intros sz nb np Hk Hd Hnb Hnp.
  - inversion Hk; subst. exists []. split; auto. split; auto. split; auto. intros; lia.
  - inversion Hk as [|? d ? t (K1 & K2 & K3 & K4) Kt]; subst. inversion Hd as [|? ? ? ? D1 Dt]; subst.
    cbn [fill_blocks]. destruct (Z.ltb_spec 1 (P / nb)) as [L|L].
    + pose proof (Z.mul_div_le P nb ltac:(lia)) as Q.
      destruct (Z.eqb_spec (bk k d0) 0) as [E|E].
      * set (np := P / nb) in *.
        rewrite default_block_ok by lia. cbn [bind].
        pose proof (nblk_pos (dn_ d) np K2 ltac:(lia)) as B1.
        rewrite num_blocks_ok by lia. cbn [bind].
        pose proof (nblk_pos (dn_ d) _ K2 B1) as B2.
        set (nb1 := nblk (dn_ d) (nblk (dn_ d) np)) in *.
        pose proof (nblk_default (dn_ d) np K2 ltac:(lia)) as B3. fold nb1 in B3.
        rewrite cdiv_pos by nia. cbn [bind].
        destruct (IH t (nb * nb1) (P / (nb * nb1)) Kt Dt ltac:(nia) eq_refl) as (r & R1 & R2 & R2' & R3).
        rewrite R1. cbn [bind]. exists (setb k (nblk (dn_ d) np) d :: r). split; [auto|]. split; [|split].
        -- constructor; auto. rewrite dn_setb, bk_setb_same. repeat split; auto. intros; contradiction.
        -- cbn [map]. now rewrite bk_setb_other, R2'.
        -- intros pre Hp En Hle. cbn [nbs map zprod] in *. rewrite dn_setb, bk_setb_same. fold nb1. fold (nbs k t) in En. fold (nbs k r).
           rewrite (D1 E), nblk_self in En by lia.
           rewrite Z.mul_assoc. apply R3; nia.
      * destruct (IH t nb (P / nb) Kt Dt Hnb eq_refl) as (r & R1 & R2 & R2' & R3).
        rewrite R1. cbn [bind]. exists (d :: r). split; [auto|]. split; [constructor; auto|]. split; [cbn; now rewrite R2'|].
        intros pre Hp En Hle. cbn [nbs map zprod] in *. fold (nbs k t) in En. fold (nbs k r).
        pose proof (nblk_pos (dn_ d) (bk k d) K2 K3). rewrite Z.mul_assoc. apply R3; [nia|lia|lia].
    + exists (d :: t). split; auto. split; [constructor; auto|]. split; auto. intros pre Hp En Hle. lia.
Qed.

(** number of processes needed by the blocks the user specified *)
Definition needed (k : kind) (dims0 : list ddim) : Z :=
  zprod (map (fun d => if bk k d =? 0 then 1 else nblk (dn_ d) (bk k d)) dims0).

Definition init_dim (d : ddim) : ddim :=
  mkdd (dn_ d) (if bI d =? 0 then dn_ d else bI d) (if bO d =? 0 then dn_ d else bO d).
Definition valid (dims0 : list ddim) : Prop := Forall (fun d => 1 <= dn_ d /\ 0 <= bI d /\ 0 <= bO d) dims0.

Lemma bk_init k d : bk k (init_dim d) = if bk k d =? 0 then dn_ d else bk k d.
Proof. now destruct k. Qed.
Lemma valid_bk k d : 0 <= bI d /\ 0 <= bO d -> 0 <= bk k d.
Proof. destruct k; cbn; lia. Qed.

Lemma kept_init k dims0 : valid dims0 -> kept k dims0 (map init_dim dims0).
Proof.
  induction 1 as [|d t [H1 H2] H IH]; cbn [map]; constructor; auto.
  rewrite bk_init. pose proof (valid_bk k d H2). split; [reflexivity|]. split; [auto|].
  destruct (Z.eqb_spec (bk k d) 0); split; cbn; try lia.
Qed.
Lemma unspec_init k dims0 : Forall2 (fun d0 d => bk k d0 = 0 -> bk k d = dn_ d) dims0 (map init_dim dims0).
Proof.
  induction dims0 as [|d t IH]; cbn [map]; constructor; auto. intros E. now rewrite bk_init, E.
Qed.
Lemma needed_init k dims0 : valid dims0 -> zprod (nbs k (map init_dim dims0)) = needed k dims0.
Proof.
  unfold needed. induction 1 as [|d t [H1 H2] H IH]; cbn [map nbs zprod]; auto. fold (nbs k (map init_dim t)). rewrite IH. f_equal.
  rewrite bk_init. cbn [dn_ init_dim]. destruct (Z.eqb_spec (bk k d) 0); auto. apply nblk_self; lia.
Qed.

Lemma kept_change k dims0 a b : kept k dims0 a -> map dn_ b = map dn_ a -> map (bk k) b = map (bk k) a -> kept k dims0 b.
Proof.
  intros H. revert b. induction H as [|d0 d l l' (H1 & H2 & H3 & H4) H IH]; intros b E1 E2.
  - destruct b; [constructor|discriminate].
  - destruct b as [|y b]; [discriminate|]. cbn in E1, E2. injection E1 as E1 E1'. injection E2 as E2 E2'.
    constructor; [|apply IH; auto]. rewrite E1, E2. auto.
Qed.
Lemma kept_dn k a b : kept k a b -> map dn_ b = map dn_ a.
Proof. induction 1 as [|x y l l' (H1 & _) H IH]; cbn; congruence. Qed.
Lemma unspec_change k dims0 a b : Forall2 (fun d0 d => bk k d0 = 0 -> bk k d = dn_ d) dims0 a ->
  map dn_ b = map dn_ a -> map (bk k) b = map (bk k) a -> Forall2 (fun d0 d => bk k d0 = 0 -> bk k d = dn_ d) dims0 b.
Proof.
  intros H. revert b. induction H as [|d0 d l l' H1 H IH]; intros b E1 E2.
  - destruct b; [constructor|discriminate].
  - destruct b as [|y b]; [discriminate|]. cbn in E1, E2. injection E1 as E1 E1'. injection E2 as E2 E2'.
    constructor; [|apply IH; auto]. rewrite E1, E2. auto.
Qed.
Lemma nbs_change k a b : map dn_ b = map dn_ a -> map (bk k) b = map (bk k) a -> nbs k b = nbs k a.
Proof.
  revert b. induction a as [|d a IH]; intros [|y b] E1 E2; try discriminate; auto.
  cbn in E1, E2. injection E1 as E1 E1'. injection E2 as E2 E2'. cbn [nbs map]. fold (nbs k a) (nbs k b). rewrite E1, E2. f_equal. auto.
Qed.

Lemma fill_kind_ok k P dims0 sz : 1 <= P -> valid dims0 ->
  map dn_ sz = map dn_ dims0 -> map (bk k) sz = map (bk k) (map init_dim dims0) ->
  exists r, fill_kind P k dims0 sz = Ret r /\ kept k dims0 r /\
    map (bk (other k)) r = map (bk (other k)) sz /\
    (needed k dims0 <= P -> zprod (nbs k r) <= P).
Proof.
  intros HP HV E1 E2.
  assert (E3 : map dn_ (map init_dim dims0) = map dn_ dims0) by now rewrite map_map.
  assert (K : kept k dims0 sz). { eapply kept_change; [apply kept_init; auto|congruence|auto]. }
  assert (N : nbs k sz = nbs k (map init_dim dims0)) by (apply nbs_change; congruence).
  pose proof (kept_good _ _ _ K) as G. unfold fill_kind. rewrite total_ok by auto. cbn [bind].
  pose proof (zprod_pos _ (nbs_pos _ _ G)) as Z1. rewrite cdiv_pos by lia. cbn [bind].
  destruct (fill_blocks_ok k P HP dims0 sz (zprod (nbs k sz)) (P / zprod (nbs k sz)) K) as (r & R1 & R2 & R3 & R4); auto.
  { eapply unspec_change; [apply unspec_init|congruence|auto]. }
  exists r. split; [auto|]. split; [auto|]. split; [auto|].
  intros Hn. rewrite <- (Z.mul_1_l (zprod (nbs k r))). apply R4; [lia|lia|]. rewrite N, needed_init; auto.
Qed.

(** canonical form *)
Definition canon (d : ddim) : ddim :=
  mkdd (dn_ d) (if nblk (dn_ d) (bI d) =? 1 then dn_ d else bI d) (if nblk (dn_ d) (bO d) =? 1 then dn_ d else bO d).
Lemma canonical_ok sz : good IB sz -> good OB sz -> dtensor_canonical sz = Ret (Some (map canon sz)).
Proof.
  intros G1 G2. unfold dtensor_canonical.
  replace (existsb _ sz) with false.
  2:{ symmetry. apply not_true_iff_false. intros H. apply existsb_exists in H as (d & Hd & E).
      eapply Forall_forall in G1; [|apply Hd]. lia. }
  assert (E : canonical_dims sz = Ret (map canon sz)).
  { induction sz as [|d t IH]; auto. inversion G1 as [|? ? [A1 A2] A3]; inversion G2 as [|? ? [B1 B2] B3]; subst.
    cbn [canonical_dims map]. unfold canonical_block. cbn [bk] in *. rewrite !num_blocks_ok by lia. cbn [bind].
    rewrite IH by auto. reflexivity. }
  now rewrite E.
Qed.
Lemma bk_canon k d : bk k (canon d) = if nblk (dn_ d) (bk k d) =? 1 then dn_ d else bk k d.
Proof. now destruct k. Qed.
Lemma good_canon k sz : good k sz -> good k (map canon sz).
Proof.
  induction 1 as [|d t [H1 H2] H IH]; cbn [map]; constructor; auto. rewrite bk_canon. cbn [dn_ canon].
  destruct (_ =? 1); lia.
Qed.
Lemma nbs_canon k sz : good k sz -> nbs k (map canon sz) = nbs k sz.
Proof.
  induction 1 as [|d t [H1 H2] H IH]; cbn [map nbs]; auto. fold (nbs k t) (nbs k (map canon t)). rewrite IH. f_equal.
  rewrite bk_canon. cbn [dn_ canon]. destruct (Z.eqb_spec (nblk (dn_ d) (bk k d)) 1) as [E|E]; auto. rewrite nblk_self; lia.
Qed.

(** [honours k dims0 sz]: a dimension whose block the user fixed is cut at
    multiples of that block. *)
Definition honours (k : kind) (dims0 sz : list ddim) : Prop :=
  Forall2 (fun d0 d => bk k d0 <> 0 -> bk k d = bk k d0 \/ (dn_ d0 <= bk k d0 /\ bk k d = dn_ d0)) dims0 sz.
Lemma kept_honours k dims0 sz : kept k dims0 sz -> honours k dims0 (map canon sz).
Proof.
  induction 1 as [|d0 d l l' (H1 & H2 & H3 & H4) H IH]; cbn [map]; constructor; auto.
  intros Hne. specialize (H4 Hne). rewrite bk_canon. destruct (Z.eqb_spec (nblk (dn_ d) (bk k d)) 1) as [E|E]; auto.
  right. apply nblk_one in E; auto. rewrite H4 in E. split; [lia|auto].
Qed.

Record sz_ok (P : Z) (dims0 sz : list ddim) : Prop := {
  so_dn : map dn_ sz = map dn_ dims0;
  so_gI : good IB sz;
  so_gO : good OB sz;
  so_nI : needed IB dims0 <= P -> zprod (nbs IB sz) <= P;
  so_nO : needed OB dims0 <= P -> zprod (nbs OB sz) <= P;
}.

Definition rank1_ok (M : Z) (dims0 : list ddim) : Prop :=
  match dims0 with [d] => 2 ^ 31 - 1 <= M /\ dn_ d < M /\ fd_safe M (dn_ d) | _ => True end.

Lemma default_sz_ok M P dims0 : 1 <= P -> valid dims0 -> rank1_ok M dims0 ->
  exists sz, default_sz M dims0 P = Ret (Some sz) /\ sz_ok P dims0 sz /\
    ((2 <= length dims0)%nat -> honours IB dims0 sz /\ honours OB dims0 sz).
Proof.
  intros HP HV HR. unfold default_sz.
  change (map _ dims0) with (map init_dim dims0).
  destruct (fill_kind_ok IB P dims0 (map init_dim dims0) HP HV) as (a & A1 & A2 & A3 & A4); [now rewrite map_map|auto|].
  rewrite A1. cbn [bind].
  destruct (fill_kind_ok OB P dims0 a HP HV) as (b & B1 & B2 & B3 & B4); [eapply kept_dn; eauto|exact A3|].
  rewrite B1. cbn [bind].
  cbn [other] in B3.
  assert (B5 : kept IB dims0 b).
  { eapply kept_change; [apply A2| |exact B3]. rewrite (kept_dn _ _ _ B2), (kept_dn _ _ _ A2); auto. }
  assert (N : nbs IB b = nbs IB a).
  { apply nbs_change; [rewrite (kept_dn _ _ _ B2), (kept_dn _ _ _ A2); auto|exact B3]. }
  pose proof (kept_good _ _ _ B5) as GI. pose proof (kept_good _ _ _ B2) as GO.
  pose proof (kept_dn _ _ _ B2) as DN.
  assert (Len : length b = length dims0) by (rewrite <- (map_length dn_ b), DN; apply map_length).
  assert (Gen : exists sz, dtensor_canonical b = Ret (Some sz) /\ sz_ok P dims0 sz /\
            (honours IB dims0 sz /\ honours OB dims0 sz)).
  { rewrite canonical_ok by auto. eexists. split; [reflexivity|]. split; [|split; now apply kept_honours].
    constructor; try (now apply good_canon).
    - rewrite map_map. exact DN.
    - rewrite nbs_canon by auto. rewrite N. auto.
    - rewrite nbs_canon by auto. auto. }
  destruct b as [|d [|d' b]]; cbn [bind].
  - destruct Gen as (sz & S1 & S2 & S3). exists sz. split; auto.
  - destruct dims0 as [|d0 [|? ?]]; try discriminate. cbn in HR. destruct HR as (M1 & M2 & M3).
    cbn in DN. injection DN as DN.
    destruct (is_prime_spec M (dn_ d) M1) as (p & Hp & _); [lia|now rewrite DN|].
    rewrite Hp. cbn [bind]. destruct p.
    + inversion GI as [|? ? [G1 G2] _]; subst.
      rewrite canonical_ok; [|constructor; [cbn; lia|constructor]|constructor; [cbn; lia|constructor]].
      eexists. split; [reflexivity|]. split; [|cbn; lia]. cbn [map].
      unfold canon. cbn [dn_ bI bO]. rewrite !nblk_self by lia. rewrite Z.eqb_refl.
      constructor.
      * cbn. congruence.
      * constructor; [cbn; lia|constructor].
      * constructor; [cbn; lia|constructor].
      * intros _. cbn. rewrite nblk_self by lia. lia.
      * intros _. cbn. rewrite nblk_self by lia. lia.
    + destruct Gen as (sz & S1 & S2 & S3). exists sz. split; auto.
  - destruct Gen as (sz & S1 & S2 & S3). exists sz. split; auto.
Qed.

(** ** The extra space computations never fail *)
Lemma local_after_ok k sz : good k sz -> exists b, is_local_after sz k = Ret b.
Proof.
  induction 1 as [|d t [H1 H2] H IH]; cbn [is_local_after]; [eauto|]. rewrite num_blocks_ok by lia. cbn [bind].
  destruct (1 <? _); eauto.
Qed.
Lemma block1d_ok k sz : good k sz -> forall i, exists b, is_block1d_loop sz k i = Ret b.
Proof.
  induction 1 as [|d t [H1 H2] H IH]; intros i; cbn [is_block1d_loop]; [eauto|].
  unfold num_blocks_kind. rewrite num_blocks_ok by lia. cbn [bind].
  destruct (_ =? 1); auto. destruct (_ <? 2); [|eauto]. now apply local_after_ok.
Qed.

Lemma extra_transposed_ok P w d0 d1 rest N : 1 <= P -> 0 <= w ->
  good IB (d0 :: d1 :: rest) -> good OB (d0 :: d1 :: rest) ->
  exists N', extra_transposed P w d0 d1 rest N = Ret N' /\ N <= N'.
Proof.
  intros HP Hw GI GO. inversion GI as [|? ? [A1 A2] GI1]; inversion GI1 as [|? ? [B1 B2] GR]; subst.
  inversion GO as [|? ? [C1 C2] GO1]; inversion GO1 as [|? ? [D1 D2] _]; subst. cbn [bk] in *.
  unfold extra_transposed.
  assert (T : forall di dj mk o, 1 <= dn_ di -> 1 <= bI di -> 1 <= bO di -> 1 <= dn_ dj ->
     (forall b, 1 <= b -> good IB (mk (setb IB b di) (setb IB (dn_ dj) dj))) ->
     (exists N', o = Ret N' /\ N <= N') ->
     exists N', (bi <- num_blocks (dn_ di) (bI di) ;;
      bo <- (if bi =? 1 then num_blocks (dn_ di) (bO di) else Ret 0) ;;
      if (bi =? 1) && (bo =? 1) then
      b <- default_block (dn_ di) P ;;
      l <- local_size w (mk (setb IB b di) (setb IB (dn_ dj) dj)) IB ;;
      Ret (Z.max N (prod (fst l)))
      else o) = Ret N' /\ N <= N').
  { intros di dj mk o E1 E2 E3 E4 E5 E6. rewrite (num_blocks_ok _ (bI di)) by lia. cbn [bind].
    destruct (nblk (dn_ di) (bI di) =? 1).
    - rewrite num_blocks_ok by lia. cbn [bind]. cbn [andb].
      destruct (_ =? 1); auto. rewrite default_block_ok by lia. cbn [bind].
      rewrite local_size_ok; [|apply E5; apply nblk_pos; lia|auto]. cbn [bind]. eexists; split; [reflexivity|]. lia.
    - cbn [bind andb]. auto. }
  apply (T d0 d1 (fun a b => a :: b :: rest)); auto.
  - intros b Hb. constructor; [cbn; lia|]. constructor; [cbn; lia|auto].
  - apply (T d1 d0 (fun a b => b :: a :: rest)); auto.
    + intros b Hb. constructor; [cbn; lia|]. constructor; [cbn; lia|auto].
    + exists N. split; [auto|lia].
Qed.

Lemma extra_geq2_ok P w h n Na N : 1 <= P -> 1 <= h -> 0 <= n -> 1 <= Na ->
  exists N', extra_geq2 P w h n Na N = Ret N' /\ N <= N'.
Proof.
  intros HP Hh Hn HN. unfold extra_geq2. rewrite default_block_ok by lia. cbn [bind].
  pose proof (nblk_pos Na P HN HP). pose proof (block_nonneg Na (nblk Na P) w ltac:(lia)).
  rewrite cdiv_pos by nia. cbn [bind]. eexists; split; [reflexivity|]. lia.
Qed.

Lemma fold_mul_pos l : forall a, 1 <= a -> Forall (fun x => 1 <= x) l -> 1 <= fold_left Z.mul l a.
Proof. induction l as [|x l IH]; intros a Ha H; cbn; auto. inversion H; subst. apply IH; auto. nia. Qed.

Lemma radix_loop_ok n : 1 <= n -> forall fuel r, 1 <= r <= n -> (Z.to_nat (n - r) < fuel)%nat ->
  exists r', radix_loop fuel n r = Ret r' /\ r <= r' <= n /\ (r' | n).
Proof.
  intros Hn. induction fuel as [|f IH]; intros r Hr Hf; [lia|]. cbn [radix_loop].
  rewrite crem_pos by lia. cbn [bind]. destruct (Z.eqb_spec (n mod r) 0) as [E|E].
  - exists r. split; auto. split; [lia|]. apply Z.mod_divide; lia.
  - assert (r <> n). { intros ->. apply E. apply Z_mod_same_full. }
    destruct (IH (r + 1)) as (r' & R1 & R2 & R3); [lia|lia|]. exists r'. split; auto. split; [lia|auto].
Qed.

Lemma choose_radix_mpi_ok M n P sign : 1 <= n < M -> 1 <= P ->
  exists o, choose_radix_mpi M n P sign = Ret o /\
   match o with None => True
   | Some (r, rb, mb) => exists m, n = r * m /\ 1 < r < n /\ 1 < m < n /\ rb = nblk r P /\ mb = nblk m P end.
Proof.
  intros Hn HP. unfold choose_radix_mpi. rewrite crem_pos, cdiv_pos by lia. cbn [bind].
  assert (R : exists r, (if (n mod P =? 0) && (P <=? n / P) then Ret (n / P)
        else s <- isqrt M n ;; radix_loop (Z.to_nat n) n s) = Ret r /\ 1 <= r <= n /\ (r | n)).
  { destruct ((n mod P =? 0) && (P <=? n / P)) eqn:E.
    - apply andb_prop in E as [E1 E2]. apply Z.eqb_eq in E1. apply Z.leb_le in E2.
      pose proof (Z.div_mod n P ltac:(lia)). exists (n / P). split; auto. split; [nia|]. exists P. lia.
    - destruct (isqrt_spec M n ltac:(lia)) as (s & S1 & S2 & S3). rewrite S1. cbn [bind].
      assert (1 <= s <= n) by nia. destruct (radix_loop_ok n ltac:(lia) (Z.to_nat n) s) as (r & R1 & R2 & R3); [auto|lia|].
      exists r. split; auto. split; [lia|auto]. }
  destruct R as (r & R1 & R2 & R3). rewrite R1. cbn [bind].
  destruct ((r =? 1) || (r =? n)) eqn:E; [exists None; auto|].
  apply orb_false_elim in E as [E1 E2]. apply Z.eqb_neq in E1, E2.
  assert (Hm : n = r * (n / r)). { destruct R3 as [q Hq]. rewrite Hq at 2. rewrite Z.div_mul by lia. lia. }
  set (m := n / r) in *. assert (1 < m < n) by nia.
  rewrite (cdiv_pos n r) by lia. fold m. cbn [bind].
  destruct (negb (sign =? -1)); cbn [bind].
  - rewrite !default_block_ok by lia. cbn [bind]. eexists; split; [reflexivity|]. exists r. repeat split; auto; lia.
  - rewrite !default_block_ok by lia. cbn [bind]. eexists; split; [reflexivity|]. exists m. repeat split; auto; lia.
Qed.

(** ** local_size_guru *)
Definition args_ok (M : Z) (dims0 : list ddim) (howmany P sign flags : Z) : Prop :=
  1 <= P /\ 1 <= howmany /\ valid dims0 /\ dims0 <> [] /\ rank1_ok M dims0 /\
  (length dims0 = 1%nat -> sign = -1 \/ sign = 1 \/ (P <= howmany /\ Z.shiftr flags 27 = 0)).

Lemma good1 k n b : 1 <= n -> 1 <= b -> good k [mkdd n b b].
Proof. intros. constructor; [destruct k; cbn; lia|constructor]. Qed.

Lemma guru_ok M dims0 howmany P sign flags : args_ok M dims0 howmany P sign flags ->
  exists sz, sz_ok P dims0 sz /\
    ((2 <= length dims0)%nat -> honours IB dims0 sz /\ honours OB dims0 sz) /\
    forall w, 0 <= w -> exists N, 
      local_size_guru M dims0 howmany P w sign flags = Ret (N, locw IB sz w, locw OB sz w) /\
      howmany <= N /\ howmany * prod (fst (locw IB sz w)) <= N /\ howmany * prod (fst (locw OB sz w)) <= N.
Proof.
  intros (HP & Hh & HV & Hne & HR & Hs).
  destruct (default_sz_ok M P dims0 HP HV HR) as (sz & S1 & S2 & S3).
  unfold local_size_guru. rewrite S1. cbn [bind].
  assert (L : length sz = length dims0) by (rewrite <- (map_length dn_), (so_dn _ _ _ S2); apply map_length).
  (* once sz and N are determined *)
  assert (Fin : forall sz' w N, sz_ok P dims0 sz' -> 0 <= w -> 1 <= N -> exists N',
     (i <- local_size w sz' IB ;; u <- local_size w sz' OB ;;
      Ret (Z.max N (Z.max (prod (fst i)) (prod (fst u))) * howmany, i, u)) = Ret (N', locw IB sz' w, locw OB sz' w) /\
      howmany <= N' /\ howmany * prod (fst (locw IB sz' w)) <= N' /\ howmany * prod (fst (locw OB sz' w)) <= N').
  { intros sz' w N Hsz Hw HN. rewrite (local_size_ok IB) by (auto; apply (so_gI _ _ _ Hsz)). cbn [bind].
    rewrite (local_size_ok OB) by (auto; apply (so_gO _ _ _ Hsz)). cbn [bind].
    eexists. split; [reflexivity|]. nia. }
  destruct dims0 as [|d0 dims0]; [congruence|].
  pose proof (so_gI _ _ _ S2) as GI. pose proof (so_gO _ _ _ S2) as GO.
  destruct sz as [|e0 sz]; [discriminate|]. destruct sz as [|e1 sz].
  - destruct dims0 as [|? ?]; [|discriminate]. clear L S3.
    assert (DE : dn_ e0 = dn_ d0) by (pose proof (so_dn _ _ _ S2) as D; cbn in D; congruence).
    inversion GI as [|? ? [A1 A2] _]; subst. inversion GO as [|? ? [B1 B2] _]; subst. cbn [bk] in *.
    destruct ((P <=? howmany) && (MPI_FLAGS flags =? 0)) eqn:E.
    + exists [e0]. split; auto. split; [cbn; lia|]. intros w Hw.
      rewrite default_block_ok by lia. cbn [bind].
      assert (G : good IB [mkdd (dn_ e0) (dn_ e0) (bO e0); mkdd howmany (nblk howmany P) howmany]).
      { constructor; [cbn; lia|]. constructor; [cbn|constructor]. pose proof (nblk_pos howmany P ltac:(lia) ltac:(lia)). lia. }
      rewrite local_size_ok by auto. cbn [bind].
      unfold cdiv. destruct (Z.eqb_spec howmany 0); [lia|]. cbn [bind]. apply Fin; auto. lia.
    + assert (Hs' : sign = -1 \/ sign = 1).
      { destruct (Hs eq_refl) as [?|[?|[C1 C2]]]; auto. exfalso. apply andb_false_iff in E as [E|E]; [apply Z.leb_gt in E; lia|].
        apply Z.eqb_neq in E. apply E. exact C2. }
      replace (negb ((sign =? -1) || (sign =? 1))) with false
        by (destruct Hs' as [-> | ->]; reflexivity).
      cbn in HR. destruct HR as (M1 & M2 & M3).
      destruct (choose_radix_mpi_ok M (dn_ e0) P sign ltac:(lia) HP) as (o & O1 & O2). rewrite O1. cbn [bind].
      destruct o as [[[r rb] mb]|].
      * destruct O2 as (m & N1 & N2 & N3 & -> & ->).
        exists [mkdd (dn_ e0) (if has flags SCRAMBLED_IN then nblk r P * m else r * nblk m P)
                             (if has flags SCRAMBLED_OUT then r * nblk m P else nblk r P * m)].
        pose proof (nblk_bounds r P ltac:(lia) HP) as Q1. pose proof (nblk_bounds m P ltac:(lia) HP) as Q2.
        assert (QA : dn_ e0 <= P * (nblk r P * m)) by (rewrite N1; nia).
        assert (QB : dn_ e0 <= P * (r * nblk m P)) by (rewrite N1; nia).
        assert (QC : 1 <= nblk r P * m) by (pose proof (nblk_pos r P ltac:(lia) HP); nia).
        assert (QD : 1 <= r * nblk m P) by (pose proof (nblk_pos m P ltac:(lia) HP); nia).
        assert (SZ : sz_ok P [d0] [mkdd (dn_ e0) (if has flags SCRAMBLED_IN then nblk r P * m else r * nblk m P)
                             (if has flags SCRAMBLED_OUT then r * nblk m P else nblk r P * m)]).
        { constructor.
          - cbn. congruence.
          - constructor; [|constructor]. cbn [dn_ bk bI bO]. destruct (has flags SCRAMBLED_IN); lia.
          - constructor; [|constructor]. cbn [dn_ bk bI bO]. destruct (has flags SCRAMBLED_OUT); lia.
          - intros _. cbn [nbs map zprod dn_ bk bI bO]. rewrite Z.mul_1_r. destruct (has flags SCRAMBLED_IN); apply nblk_le; lia.
          - intros _. cbn [nbs map zprod dn_ bk bI bO]. rewrite Z.mul_1_r. destruct (has flags SCRAMBLED_OUT); apply nblk_le; lia. }
        split; auto. split; [cbn; lia|]. intros w Hw.
        replace (cdiv (dn_ e0) r) with (Ret m).
        2:{ rewrite cdiv_pos by lia. rewrite N1, Z.mul_comm, Z.div_mul by lia. reflexivity. }
        cbn [bind]. destruct (has flags SCRAMBLED_IN), (has flags SCRAMBLED_OUT); cbn [bind]; apply Fin; auto; lia.
      * exists [e0]. split; auto. split; [cbn; lia|]. intros w Hw. cbn [bind]. apply Fin; auto. lia.
  - exists (e0 :: e1 :: sz). split; auto. split; auto. intros w Hw.
    inversion GI as [|? ? [A1 A2] GI1]; subst. inversion GI1 as [|? ? [B1 B2] GI2]; subst.
    destruct (block1d_ok IB _ GI 0) as (p & Hp). destruct (block1d_ok OB _ GO 0) as (q & Hq).
    unfold is_block1d. rewrite Hp. cbn [bind].
    replace (if p then is_block1d_loop (e0 :: e1 :: sz) OB 0 else Ret false) with (Ret (p && q)) by (rewrite Hq; now destruct p).
    cbn [bind]. destruct (p && (p && q)).
    + assert (FP : Forall (fun x => 1 <= x) (map dn_ sz)).
      { apply Forall_forall. intros x Hx. apply in_map_iff in Hx as (e & <- & He). eapply Forall_forall in GI2; [|apply He]. tauto. }
      destruct (extra_transposed_ok P w e0 e1 sz 1 HP Hw GI GO) as (N1 & E1 & L1). rewrite E1. cbn [bind].
      destruct (extra_geq2_ok P w howmany (dn_ e0) (fold_left Z.mul (map dn_ (e1 :: sz)) howmany) N1) as (N2 & E2 & L2); try lia.
      { apply fold_mul_pos; auto. constructor; auto. }
      rewrite E2. cbn [bind].
      destruct (extra_geq2_ok P w howmany (dn_ e1) (fold_left Z.mul (map dn_ sz) (howmany * dn_ e0)) N2) as (N3 & E3 & L3); try lia.
      { apply fold_mul_pos; auto. nia. }
      rewrite E3. cbn [bind]. apply Fin; auto. lia.
    + cbn [bind]. apply Fin; auto. lia.
Qed.
