(** * MpiSched: the schedule is a round-robin tournament *)
From Coq Require Import ZArith List Lia Bool Znumtheory.
From Verif Require Import Base NumTheory Offs MpiModel MpiProofs MpiTransModel.
Import ListNotations.
Open Scope Z_scope.
Ltac Zify.zify_post_hook ::= idtac.

(** opponent of process [w] in round [pe], [M] odd *)
Definition opp (M w pe : Z) : Z := (2 * pe - w) mod M.
(** even number of processes M + 1 *)
Definition oppE (M w pe : Z) : Z := if pe =? w then M else if w =? M then pe else opp M w pe.

Lemma ofold_app {A} (g : Z -> list A) f l : forall a, (forall x a, In x l -> f x a = Ret (a ++ g x)) ->
  ofold f l a = Ret (a ++ flat_map g l).
Proof.
  induction l as [|x l IH]; intros a H; cbn [ofold flat_map]; [now rewrite app_nil_r|].
  rewrite H by now left. cbn [bind]. rewrite IH by (intros; apply H; now right). now rewrite app_assoc.
Qed.
Lemma flat_map_single {A B} (g : A -> B) l : flat_map (fun x => [g x]) l = map g l.
Proof. induction l; cbn; congruence. Qed.

Lemma half_odd n : Z.odd n = false -> 0 <= n -> Z.quot n 2 = n / 2 /\ n = 2 * (n / 2).
Proof.
  intros H Hn. split; [apply Z.quot_div_nonneg; lia|]. rewrite <- Z.negb_even in H. apply negb_false_iff in H.
  apply Z.even_spec in H as [k ->]. rewrite Z.mul_comm, Z.div_mul by lia. lia.
Qed.

(** the second half of the loop body, for pe <> which_pe *)
Lemma fill_pair w n pe (acc : list Z) : Z.odd n = false -> 2 <= n -> 0 <= w < n - 1 -> 0 <= pe < n - 1 -> pe <> w ->
  (i <- crem (pe - w + (n - 1)) (n - 1) ;;
   acc <- (if i <? Z.quot n 2 then v <- crem (pe + i) (n - 1) ;; Ret (acc ++ [v]) else Ret acc) ;;
   i <- crem (w - pe + (n - 1)) (n - 1) ;;
   (if i <? Z.quot n 2 then v <- crem (pe - i + (n - 1)) (n - 1) ;; Ret (acc ++ [v]) else Ret acc))
  = Ret (acc ++ [opp (n - 1) w pe]).
Proof.
  intros Ho Hn Hw Hpe Hne. destruct (half_odd n Ho ltac:(lia)) as [-> E].
  set (h := n / 2) in *. set (M := n - 1) in *. assert (M = 2 * h - 1) by (unfold M; lia).
  rewrite crem_pos by lia. cbn [bind].
  assert (I1 : (pe - w + M) mod M = if w <? pe then pe - w else pe - w + M).
  { destruct (Z.ltb_spec w pe).
    - rewrite <- (Z.mod_small (pe - w) M) at 2 by lia. rewrite <- (Z.mod_add (pe - w) 1 M) by lia. f_equal; lia.
    - apply Z.mod_small; lia. }
  assert (I2 : (w - pe + M) mod M = if w <? pe then w - pe + M else w - pe).
  { destruct (Z.ltb_spec w pe).
    - apply Z.mod_small; lia.
    - rewrite <- (Z.mod_small (w - pe) M) at 2 by lia. rewrite <- (Z.mod_add (w - pe) 1 M) by lia. f_equal; lia. }
  rewrite I1. set (i := if w <? pe then pe - w else pe - w + M).
  assert (Hi : 1 <= i < M) by (unfold i; destruct (Z.ltb_spec w pe); lia).
  assert (Oi : (pe + i) mod M = opp M w pe).
  { unfold opp, i. destruct (Z.ltb_spec w pe); [f_equal; lia|].
    replace (pe + (pe - w + M)) with (2 * pe - w + 1 * M) by lia. apply Z.mod_add; lia. }
  destruct (Z.ltb_spec i h) as [L|L].
  - rewrite crem_pos by lia. cbn [bind]. rewrite crem_pos by lia. cbn [bind]. rewrite I2.
    replace (if w <? pe then w - pe + M else w - pe) with (M - i) by (unfold i; destruct (w <? pe); lia).
    destruct (Z.ltb_spec (M - i) h); [lia|]. now rewrite Oi.
  - cbn [bind]. rewrite crem_pos by lia. cbn [bind]. rewrite I2.
    replace (if w <? pe then w - pe + M else w - pe) with (M - i) by (unfold i; destruct (w <? pe); lia).
    destruct (Z.ltb_spec (M - i) h); [|lia]. rewrite crem_pos by lia. cbn [bind].
    replace (pe - (M - i) + M) with (pe + i) by lia. now rewrite Oi.
Qed.

Lemma rem2_odd n : 0 <= n -> (Z.rem n 2 =? 0) = negb (Z.odd n).
Proof.
  intros Hn. rewrite Z.rem_mod_nonneg by lia. rewrite Zmod_odd. destruct (Z.odd n); reflexivity.
Qed.

Definition sched_of (P w : Z) : list Z :=
  if Z.odd P then map (opp P w) (zr P) else w :: map (oppE (P - 1) w) (zr (P - 1)).

Lemma length_zr n : 0 <= n -> Z.of_nat (length (zr n)) = n.
Proof. intros. unfold zr. rewrite length_zrange. lia. Qed.

Lemma length_sched_of P w : 1 <= P -> Z.of_nat (length (sched_of P w)) = P.
Proof.
  intros HP. unfold sched_of. destruct (Z.odd P); [rewrite map_length; apply length_zr; lia|].
  cbn [length]. rewrite map_length. pose proof (length_zr (P - 1) ltac:(lia)). lia.
Qed.

Lemma fill1_ok P w : 0 <= w < P -> fill1_comm_sched w P = Ret (sched_of P w).
Proof.
  intros Hw. unfold fill1_comm_sched.
  replace ((0 <=? w) && (w <? P)) with true by (symmetry; apply andb_true_intro; split; [apply Z.leb_le|apply Z.ltb_lt]; lia).
  cbn [assert_ bind]. rewrite rem2_odd by lia.
  pose proof (length_sched_of P w ltac:(lia)) as L.
  unfold sched_of in *. destruct (Z.odd P) eqn:Odd; cbn [negb].
  - replace (P + 1 - 1) with P by lia.
    rewrite (ofold_app (fun pe => [opp P w pe])).
    + cbn [bind app]. rewrite flat_map_single, L. now rewrite Z.eqb_refl.
    + intros pe acc Hpe. apply in_zr in Hpe. unfold fill1_body. rewrite rem2_odd, Odd by lia. cbn [negb].
      destruct (Z.eqb_spec pe w) as [->|Ne]; cbn [negb andb].
      * unfold opp. replace (2 * w - w) with w by lia. now rewrite Z.mod_small by lia.
      * destruct (Z.ltb_spec w (P + 1 - 1)); [|lia]. replace (P + 1 - 1) with P by lia.
        pose proof (fill_pair w (P + 1) pe acc) as F. replace (P + 1 - 1) with P in F by lia. apply F; try lia.
        rewrite Z.add_1_r, Z.odd_succ, <- Z.negb_odd, Odd. reflexivity.
  - rewrite (ofold_app (fun pe => [oppE (P - 1) w pe])).
    + cbn [bind app]. rewrite flat_map_single, L. now rewrite Z.eqb_refl.
    + intros pe acc Hpe. assert (2 <= P). { destruct (Z.eq_dec P 1) as [->|]; [discriminate|lia]. } apply in_zr in Hpe. unfold fill1_body. rewrite rem2_odd, Odd by lia. cbn [negb].
      unfold oppE. destruct (Z.eqb_spec pe w) as [->|Ne]; cbn [negb andb]; auto.
      rewrite (Z.eqb_sym (P - 1) w). destruct (Z.eqb_spec w (P - 1)) as [E|E].
      * destruct (Z.ltb_spec w (P - 1)); [lia|]. reflexivity.
      * destruct (Z.ltb_spec w (P - 1)); [|lia]. apply fill_pair; auto; lia.
Qed.

(** ** The tournament properties *)
Lemma opp_range M w pe : 1 <= M -> 0 <= opp M w pe < M.
Proof. intros. apply Z.mod_pos_bound; lia. Qed.
Lemma opp_sym M w pe : 1 <= M -> 0 <= w < M -> opp M (opp M w pe) pe = w.
Proof.
  intros HM Hw. unfold opp. rewrite Zminus_mod_idemp_r. replace (2 * pe - (2 * pe - w)) with w by lia. now apply Z.mod_small.
Qed.
Lemma odd_cancel M d : Z.odd M = true -> (M | 2 * d) -> (M | d).
Proof.
  intros HM H. apply Gauss with 2; auto. apply rel_prime_sym, prime_rel_prime; [apply prime_2|].
  intros [k Hk]. rewrite Hk, Z.mul_comm, Z.odd_mul in HM. discriminate.
Qed.
Lemma mod_eq_divide a b M : 1 <= M -> a mod M = b mod M -> (M | a - b).
Proof.
  intros HM E. exists (a / M - b / M). pose proof (Z.div_mod a M ltac:(lia)). pose proof (Z.div_mod b M ltac:(lia)). lia.
Qed.
Lemma divide_small M d : (M | d) -> - M < d < M -> d = 0.
Proof. intros [k ->] H. assert (k = 0) by nia. subst; lia. Qed.
Lemma opp_inj M w pe pe' : Z.odd M = true -> 1 <= M -> 0 <= pe < M -> 0 <= pe' < M -> opp M w pe = opp M w pe' -> pe = pe'.
Proof.
  intros Ho HM H1 H2 E. apply mod_eq_divide in E; auto.
  replace (2 * pe - w - (2 * pe' - w)) with (2 * (pe - pe')) in E by lia. apply odd_cancel in E; auto.
  apply divide_small in E; lia.
Qed.
Lemma opp_self M w pe : Z.odd M = true -> 0 <= w < M -> 0 <= pe < M -> (opp M w pe = w <-> pe = w).
Proof.
  intros Ho Hw Hp. split.
  - intros E. apply (opp_inj M w); auto; [lia|]. rewrite E. unfold opp. replace (2 * w - w) with w by lia. symmetry. now apply Z.mod_small.
  - intros ->. unfold opp. replace (2 * w - w) with w by lia. now apply Z.mod_small.
Qed.
Lemma opp_pe M w pe : Z.odd M = true -> 0 <= w < M -> 0 <= pe < M -> (opp M w pe = pe <-> pe = w).
Proof.
  intros Ho Hw Hp. unfold opp. split.
  - intros E0. assert (E : (2 * pe - w) mod M = pe mod M) by (rewrite E0; symmetry; apply Z.mod_small; lia). apply mod_eq_divide in E; [|lia].
    apply divide_small in E; lia.
  - intros ->. replace (2 * w - w) with w by lia. now apply Z.mod_small.
Qed.

Lemma nth_error_map' {A B} (f : A -> B) l k : nth_error (map f l) k = option_map f (nth_error l k).
Proof. revert k; induction l as [|x l IH]; intros [|k]; cbn; auto. Qed.
Lemma nth_seq m : forall a k, nth_error (seq a m) k = if (k <? m)%nat then Some (a + k)%nat else None.
Proof.
  induction m as [|m IH]; intros a [|k]; cbn [seq nth_error]; auto.
  - rewrite Nat.add_0_r. reflexivity.
  - rewrite IH. destruct (Nat.ltb_spec k m), (Nat.ltb_spec (S k) (S m)); try lia; auto. f_equal; lia.
Qed.
Lemma nth_zrange m a k : nth_error (zrange a m) k = if (k <? m)%nat then Some (a + Z.of_nat k) else None.
Proof. unfold zrange. rewrite nth_error_map', nth_seq. now destruct (k <? m)%nat. Qed.
Lemma nth_zr n k : nth_error (zr n) k = if Z.of_nat k <? n then Some (Z.of_nat k) else None.
Proof.
  unfold zr. rewrite nth_zrange. destruct (Nat.ltb_spec k (Z.to_nat n)), (Z.ltb_spec (Z.of_nat k) n); try lia; auto.
Qed.

(** [Tournament P S]: the schedules [S w] of the processes 0..P-1 pair them up
    in every round. *)
Record Tournament (P : Z) (S : Z -> list Z) : Prop := {
  tm_len : forall w, 0 <= w < P -> Z.of_nat (length (S w)) = P;
  tm_range : forall w b, 0 <= w < P -> In b (S w) -> 0 <= b < P;
  tm_nodup : forall w, 0 <= w < P -> NoDup (S w);
  tm_sym : forall w k b, 0 <= w < P -> nth_error (S w) k = Some b -> nth_error (S b) k = Some w
}.
Lemma tm_all P S : Tournament P S -> forall w b, 0 <= w < P -> 0 <= b < P -> In b (S w).
Proof.
  intros T w b Hw Hb.
  assert (I : incl (zr P) (S w)).
  { apply NoDup_length_incl; [apply (tm_nodup _ _ T); auto| |].
    - pose proof (tm_len _ _ T w Hw). pose proof (length_zr P ltac:(lia)). lia.
    - intros x Hx. apply in_zr. exact (tm_range _ _ T w x Hw Hx). }
  apply I. apply in_zr; lia.
Qed.

Lemma NoDup_map_in' {A B} (f : A -> B) l : (forall x y, In x l -> In y l -> f x = f y -> x = y) -> NoDup l -> NoDup (map f l).
Proof.
  intros H N. induction N as [|x l Hx N IH]; cbn; constructor.
  - intros Hin. apply in_map_iff in Hin as (y & E & Hy). apply Hx. rewrite <- (H y x); auto; [now right|now left].
  - apply IH. intros a b Ha Hb. apply H; now right.
Qed.

Lemma tournament P : 1 <= P -> Tournament P (sched_of P).
Proof.
  intros HP. constructor.
  - intros w Hw. apply length_sched_of; lia.
  - intros w b Hw. unfold sched_of. destruct (Z.odd P) eqn:Odd.
    + intros Hin. apply in_map_iff in Hin as (pe & <- & _). apply opp_range; lia.
    + intros [<-|Hin]; [lia|]. assert (2 <= P) by (destruct (Z.eq_dec P 1) as [->|]; [discriminate|lia]).
      apply in_map_iff in Hin as (pe & <- & Hpe). apply in_zr in Hpe.
      unfold oppE. destruct (pe =? w); [lia|]. destruct (w =? P - 1); [lia|]. pose proof (opp_range (P - 1) w pe ltac:(lia)). lia.
  - intros w Hw. unfold sched_of. destruct (Z.odd P) eqn:Odd.
    + apply NoDup_map_in'; [|apply NoDup_zr]. intros x y Hx Hy. apply in_zr in Hx, Hy. apply opp_inj; auto; lia.
    + assert (2 <= P) by (destruct (Z.eq_dec P 1) as [->|]; [discriminate|lia]).
      assert (Odd1 : Z.odd (P - 1) = true). { rewrite Z.odd_sub, Odd. reflexivity. }
      constructor.
      * intros Hin. apply in_map_iff in Hin as (pe & E & Hpe). apply in_zr in Hpe. unfold oppE in E.
        destruct (Z.eqb_spec pe w) as [Epe|Ne]; [lia|]. destruct (Z.eqb_spec w (P - 1)); [lia|].
        apply opp_self in E; auto; lia.
      * apply NoDup_map_in'; [|apply NoDup_zr]. intros x y Hx Hy. apply in_zr in Hx, Hy. unfold oppE.
        destruct (Z.eqb_spec w (P - 1)) as [Ew|Ew].
        -- destruct (Z.eqb_spec x w), (Z.eqb_spec y w); lia.
        -- pose proof (opp_range (P - 1) w x ltac:(lia)). pose proof (opp_range (P - 1) w y ltac:(lia)).
           destruct (Z.eqb_spec x w), (Z.eqb_spec y w); try lia. apply opp_inj; auto; lia.
  - intros w k b Hw. unfold sched_of. destruct (Z.odd P) eqn:Odd.
    + rewrite !nth_error_map', !nth_zr. destruct (Z.ltb_spec (Z.of_nat k) P); [|discriminate]. cbn [option_map].
      intros E. injection E as <-. rewrite opp_sym by lia. reflexivity.
    + assert (2 <= P) by (destruct (Z.eq_dec P 1) as [->|]; [discriminate|lia]).
      assert (Odd1 : Z.odd (P - 1) = true). { rewrite Z.odd_sub, Odd. reflexivity. }
      destruct k as [|k]; cbn [nth_error]; [intros E; injection E as ->; auto|].
      rewrite !nth_error_map', !nth_zr. destruct (Z.ltb_spec (Z.of_nat k) (P - 1)); [|discriminate]. cbn [option_map].
      set (pe := Z.of_nat k) in *. assert (0 <= pe) by lia. intros E. injection E as <-. f_equal. unfold oppE.
      destruct (Z.eqb_spec pe w) as [Epw|Ne].
      * rewrite Epw. destruct (Z.eqb_spec w (P - 1)); [lia|]. now rewrite Z.eqb_refl.
      * destruct (Z.eqb_spec w (P - 1)) as [Ew|Ew].
        -- rewrite Z.eqb_refl. lia.
        -- pose proof (opp_range (P - 1) w pe ltac:(lia)).
           destruct (Z.eqb_spec pe (opp (P - 1) w pe)) as [E|E].
           ++ symmetry in E. apply opp_pe in E; auto; lia.
           ++ destruct (Z.eqb_spec (opp (P - 1) w pe) (P - 1)); [lia|]. apply opp_sym; lia.
Qed.

(** ** Sorting *)
Lemma ofold_snoc {A} (f : Z -> A -> out A) l x : forall a, ofold f (l ++ [x]) a = (a' <- ofold f l a ;; f x a').
Proof.
  induction l as [|y l IH]; intros a; cbn [app ofold].
  - cbn [bind]. destruct (f x a); reflexivity.
  - destruct (f y a); cbn [bind]; auto.
Qed.
Lemma length_lset {A} (l : list A) : forall i v, length (lset l i v) = length l.
Proof. induction l as [|x l IH]; intros [|i] v; cbn; auto. Qed.
Lemma nth_lset {A} (l : list A) : forall i v q, (i < length l)%nat ->
  nth_error (lset l i v) q = if Nat.eqb q i then Some v else nth_error l q.
Proof.
  induction l as [|x l IH]; intros i v q Hi; [cbn in Hi; lia|].
  destruct i as [|i], q as [|q]; cbn [lset nth_error Nat.eqb]; auto. apply IH. cbn in Hi. lia.
Qed.
Lemma aget_ok {A} (l : list A) i x : nth_error l i = Some x -> aget l (Z.of_nat i) = Ret x.
Proof.
  intros H. unfold aget. destruct (Z.ltb_spec (Z.of_nat i) 0); [lia|]. now rewrite Nat2Z.id, H.
Qed.
Lemma oseq_ok up : (forall q, (q < length up)%nat -> exists v, nth_error up q = Some (Some v)) ->
  exists l, oseq (map read_init up) = Ret l /\ length l = length up /\
    forall q v, nth_error up q = Some (Some v) -> nth_error l q = Some v.
Proof.
  induction up as [|o up IH]; intros H.
  - exists []. split; auto. split; auto. intros [|q] v; discriminate.
  - destruct (H 0%nat ltac:(cbn; lia)) as (v & E). cbn in E. injection E as ->.
    destruct IH as (l & L1 & L2 & L3). { intros q Hq. apply (H (S q)). cbn; lia. }
    exists (v :: l). cbn [map oseq read_init bind]. rewrite L1. cbn [bind]. split; auto. split; [cbn; lia|].
    intros [|q] u; cbn; [congruence|apply L3].
Qed.

Definition flip (P : Z) (asc : bool) (s : Z) : Z := if asc then s else P - 1 - s.
Lemma flip_range P asc s : 0 <= s < P -> 0 <= flip P asc s < P.
Proof. unfold flip. destruct asc; lia. Qed.
Lemma flip_flip P asc s : flip P asc (flip P asc s) = s.
Proof. unfold flip. destruct asc; lia. Qed.

Lemma sort1_ok P sp asc sched : 0 <= sp < P -> Z.of_nat (length sched) = P ->
  exists l, sort1_comm_sched sched P sp asc = Ret l /\ Z.of_nat (length l) = P /\
    forall j s v, nth_error (sched_of P sp) j = Some s -> nth_error sched j = Some v ->
      nth_error l (Z.to_nat (flip P asc s)) = Some v.
Proof.
  intros Hsp Hlen. unfold sort1_comm_sched. rewrite fill1_ok by auto. cbn [bind].
  pose proof (tournament P ltac:(lia)) as T.
  set (ss := sched_of P sp) in *.
  assert (Lss : Z.of_nat (length ss) = P) by (apply length_sched_of; lia).
  set (f := fun i up => si <- aget ss i ;; v <- aget sched i ;; aset up (if asc then si else P - 1 - si) (Some v)).
  assert (L : forall m, Z.of_nat m <= P -> exists up, ofold f (zr (Z.of_nat m)) (repeat None (Z.to_nat P)) = Ret up /\
     Z.of_nat (length up) = P /\
     forall j s v, (j < m)%nat -> nth_error ss j = Some s -> nth_error sched j = Some v ->
       nth_error up (Z.to_nat (flip P asc s)) = Some (Some v)).
  { induction m as [|m IH]; intros Hm.
    - exists (repeat None (Z.to_nat P)). split; [reflexivity|]. split; [rewrite repeat_length; lia|]. intros; lia.
    - destruct (IH ltac:(lia)) as (up & U1 & U2 & U3).
      replace (zr (Z.of_nat (S m))) with (zr (Z.of_nat m) ++ [Z.of_nat m]).
      2:{ replace (Z.of_nat (S m)) with (Z.of_nat m + 1) by lia. symmetry. apply zr_succ. lia. }
      rewrite ofold_snoc, U1. cbn [bind]. unfold f at 1.
      destruct (nth_error ss m) as [s|] eqn:Es; [|apply nth_error_None in Es; lia].
      destruct (nth_error sched m) as [v|] eqn:Ev; [|apply nth_error_None in Ev; lia].
      rewrite (aget_ok _ _ _ Es), (aget_ok _ _ _ Ev). cbn [bind]. fold (flip P asc s).
      assert (Rs : 0 <= s < P) by (apply (tm_range _ _ T sp); auto; eapply nth_error_In; eauto).
      pose proof (flip_range P asc s Rs) as Rf.
      unfold aset. replace ((0 <=? flip P asc s) && (flip P asc s <? Z.of_nat (length up))) with true
        by (symmetry; apply andb_true_intro; split; [apply Z.leb_le|apply Z.ltb_lt]; lia).
      eexists. split; [reflexivity|]. split; [rewrite length_lset; lia|].
      intros j s' v' Hj Hs' Hv'. rewrite nth_lset by lia.
      destruct (Nat.eqb_spec (Z.to_nat (flip P asc s')) (Z.to_nat (flip P asc s))) as [E|E].
      + assert (Rs' : 0 <= s' < P) by (apply (tm_range _ _ T sp); auto; eapply nth_error_In; eauto).
        pose proof (flip_range P asc s' Rs').
        assert (s' = s). { rewrite <- (flip_flip P asc s'), <- (flip_flip P asc s). f_equal. lia. } subst s'.
        assert (j = m). { pose proof (tm_nodup _ _ T sp Hsp) as N. apply (proj1 (NoDup_nth_error ss) N j m); [apply nth_error_Some; congruence|congruence]. }
        subst j. congruence.
      + apply (U3 j); auto. assert (j <> m) by (intros ->; apply E; congruence). lia. }
  destruct (L (Z.to_nat P) ltac:(lia)) as (up & U1 & U2 & U3). rewrite Z2Nat.id in U1 by lia.
  rewrite U1. cbn [bind].
  assert (Full : forall q, (q < length up)%nat -> exists v, nth_error up q = Some (Some v)).
  { intros q Hq. set (s := flip P asc (Z.of_nat q)). assert (Rs : 0 <= s < P) by (apply flip_range; lia).
    destruct (In_nth_error ss s (tm_all _ _ T sp s Hsp Rs)) as (j & Ej).
    assert (Hj : (j < length ss)%nat) by (apply nth_error_Some; congruence).
    destruct (nth_error sched j) as [v|] eqn:Ev; [|apply nth_error_None in Ev; lia].
    exists v. rewrite <- (U3 j s v); auto; [|lia]. f_equal. unfold s. rewrite flip_flip. lia. }
  destruct (oseq_ok up Full) as (l & L1 & L2 & L3). exists l. split; auto. split; [lia|].
  intros j s v Hs Hv. apply L3. apply (U3 j); auto.
  assert (j < length ss)%nat by (apply nth_error_Some; congruence). lia.
Qed.

(** Sorting all schedules by that of [sp] gives a tournament again, in which
    [sp] meets the others in ascending (descending) order. *)
Lemma sorted_tournament P sp asc (S' : Z -> list Z) : 0 <= sp < P ->
  (forall w, 0 <= w < P -> sort1_comm_sched (sched_of P w) P sp asc = Ret (S' w)) ->
  Tournament P S' /\ (forall k b, nth_error (S' sp) k = Some b -> Z.of_nat k = flip P asc b).
Proof.
  intros Hsp HS. pose proof (tournament P ltac:(lia)) as T.
  set (ss := sched_of P sp).
  assert (Lss : Z.of_nat (length ss) = P) by (apply length_sched_of; lia).
  assert (F : forall w, 0 <= w < P -> Z.of_nat (length (S' w)) = P /\
     forall j s v, nth_error ss j = Some s -> nth_error (sched_of P w) j = Some v -> nth_error (S' w) (Z.to_nat (flip P asc s)) = Some v).
  { intros w Hw. destruct (sort1_ok P sp asc (sched_of P w) Hsp) as (l & L1 & L2 & L3); [apply length_sched_of; lia|].
    rewrite HS in L1 by auto. injection L1 as <-. split; auto. }
  (* every position of S' w comes from a round j *)
  assert (R : forall q, Z.of_nat q < P -> exists j, nth_error ss j = Some (flip P asc (Z.of_nat q)) /\
      forall w, 0 <= w < P -> nth_error (S' w) q = nth_error (sched_of P w) j).
  { intros q Hq. set (s := flip P asc (Z.of_nat q)). assert (Rs : 0 <= s < P) by (apply flip_range; lia).
    destruct (In_nth_error ss s (tm_all _ _ T sp s Hsp Rs)) as (j & Ej). exists j. split; auto.
    intros w Hw. destruct (F w Hw) as [Lw Fw].
    assert (Hj : (j < length ss)%nat) by (apply nth_error_Some; congruence).
    destruct (nth_error (sched_of P w) j) as [v|] eqn:Ev.
    - rewrite <- (Fw j s v Ej Ev). f_equal. unfold s. rewrite flip_flip. lia.
    - apply nth_error_None in Ev. pose proof (length_sched_of P w ltac:(lia)). lia. }
  assert (Bound : forall w q b, 0 <= w < P -> nth_error (S' w) q = Some b -> Z.of_nat q < P).
  { intros w q b Hw E. destruct (F w Hw) as [Lw _]. assert (q < length (S' w))%nat by (apply nth_error_Some; congruence). lia. }
  split.
  - constructor.
    + intros w Hw. apply F; auto.
    + intros w b Hw Hin. apply In_nth_error in Hin as (q & Eq). destruct (R q (Bound w q b Hw Eq)) as (j & Ej & Rj).
      rewrite Rj in Eq by auto. apply (tm_range _ _ T w); auto. eapply nth_error_In; eauto.
    + intros w Hw. apply NoDup_nth_error. intros q q' Hq E.
      destruct (nth_error (S' w) q) as [b|] eqn:Eb; [|apply nth_error_None in Eb; lia]. symmetry in E.
      destruct (R q (Bound w q b Hw Eb)) as (j & Ej & Rj). destruct (R q' (Bound w q' b Hw E)) as (j' & Ej' & Rj').
      rewrite Rj in Eb by auto. rewrite Rj' in E by auto.
      assert (j = j'). { eapply NoDup_nth_error; [apply (tm_nodup _ _ T w Hw)|apply nth_error_Some; congruence|congruence]. }
      subst j'. assert (flip P asc (Z.of_nat q) = flip P asc (Z.of_nat q')) as E1 by congruence.
      apply (f_equal (flip P asc)) in E1. rewrite !flip_flip in E1. lia.
    + intros w k b Hw E. destruct (R k (Bound w k b Hw E)) as (j & Ej & Rj). rewrite Rj in E by auto.
      assert (Hb : 0 <= b < P) by (apply (tm_range _ _ T w); auto; eapply nth_error_In; eauto).
      rewrite Rj by auto. now apply (tm_sym _ _ T w).
  - intros k b E. destruct (R k (Bound sp k b Hsp E)) as (j & Ej & Rj). rewrite Rj in E by auto.
    fold ss in E. rewrite Ej in E. injection E as <-. now rewrite flip_flip.
Qed.

(** ** mksched *)
Lemma n_pes_ok p : 1 <= p_nx p -> 1 <= p_ny p -> 1 <= p_block p -> 1 <= p_tblock p ->
  n_pes_of p = Ret (Z.max (nblk (p_nx p) (p_block p)) (nblk (p_ny p) (p_tblock p))).
Proof. intros. unfold n_pes_of. rewrite !num_blocks_ok by lia. reflexivity. Qed.

(** process [pe] needs sorting *)
Definition unequal (p : problem_t) (pe : Z) : Prop :=
  0 < my_b p pe * my_bt p pe /\ my_b p pe * p_tblock p <> p_block p * my_bt p pe.
Lemma block_full n b w : 1 <= b -> 0 <= w -> (w + 1) * b <= n -> block n b w = b.
Proof. intros Hb Hw H. unfold block. destruct (Z.leb_spec (n - w * b) 0); [nia|]. destruct (Z.ltb_spec b (n - w * b)); lia. Qed.
Lemma block_zero n b w : n <= w * b -> block n b w = 0.
Proof. intros H. unfold block. destruct (Z.leb_spec (n - w * b) 0); lia. Qed.
Lemma unequal_unique p v w : 1 <= p_block p -> 1 <= p_tblock p -> 0 <= v < w -> unequal p v -> unequal p w -> False.
Proof.
  intros H1 H2 Hvw [Uv1 Uv2] [Uw1 Uw2]. unfold my_b, my_bt in *.
  assert (Pw1 : 0 < block (p_nx p) (p_block p) w) by (pose proof (block_nonneg (p_nx p) (p_block p) w H1); pose proof (block_nonneg (p_ny p) (p_tblock p) w H2); nia).
  assert (Pw2 : 0 < block (p_ny p) (p_tblock p) w) by (pose proof (block_nonneg (p_nx p) (p_block p) w H1); pose proof (block_nonneg (p_ny p) (p_tblock p) w H2); nia).
  pose proof (block_range _ _ _ Pw1). pose proof (block_range _ _ _ Pw2).
  apply Uv2. rewrite !block_full; try lia; nia.
Qed.

Lemma sort_pe_ok p n : 1 <= p_block p -> 1 <= p_tblock p -> 0 <= n ->
  exists r, find_sort_pe p n = Ret r /\
   ((fst r = -1 /\ forall pe, 0 <= pe < n -> ~ unequal p pe) \/
    (0 <= fst r < n /\ unequal p (fst r) /\ (forall pe, 0 <= pe < n -> unequal p pe -> pe = fst r) /\
     (snd r = true <-> p_block p * my_bt p (fst r) < my_b p (fst r) * p_tblock p))).
Proof.
  intros H1 H2 Hn. unfold find_sort_pe. rewrite <- (Z2Nat.id n) by auto. generalize (Z.to_nat n) as m.
  induction m as [|m (r & R1 & R2)].
  - exists (-1, true). split; [reflexivity|]. left. split; auto. lia.
  - replace (zr (Z.of_nat (S m))) with (zr (Z.of_nat m) ++ [Z.of_nat m]).
    2:{ replace (Z.of_nat (S m)) with (Z.of_nat m + 1) by lia. symmetry. apply zr_succ. lia. }
    rewrite ofold_snoc, R1. cbn [bind]. unfold sort_body. set (w := Z.of_nat m) in *.
    destruct ((0 <? my_b p w * my_bt p w) && negb (my_b p w * p_tblock p =? p_block p * my_bt p w)) eqn:E.
    + assert (U : unequal p w). { apply andb_prop in E as [E1 E2]. apply Z.ltb_lt in E1. apply negb_true_iff, Z.eqb_neq in E2. split; auto. }
      destruct R2 as [[Rm Rn]|(Rr & Ru & _)].
      * rewrite Rm. cbn [assert_ bind Z.eqb Pos.eqb]. eexists. split; [reflexivity|]. right. cbn [fst snd].
        split; [lia|]. split; auto. split; [|apply Z.ltb_lt]. intros pe Hpe Up. destruct (Z.eq_dec pe w); auto. exfalso. apply (Rn pe); auto. lia.
      * exfalso. apply (unequal_unique p (fst r) w); auto; lia.
    + assert (U : ~ unequal p w). { intros [U1 U2]. apply andb_false_iff in E as [E|E]; [apply Z.ltb_ge in E; lia|]. apply negb_false_iff, Z.eqb_eq in E. auto. }
      exists r. split; auto. destruct R2 as [[Rm Rn]|(Rr & Ru & Ruu & Ra)].
      * left. split; auto. intros pe Hpe. destruct (Z.eq_dec pe w) as [->|]; auto. apply Rn; lia.
      * right. split; [lia|]. split; auto. split; auto. intros pe Hpe Up. destruct (Z.eq_dec pe w) as [->|]; [contradiction|]. apply Ruu; auto. lia.
Qed.

Definition npes (p : problem_t) : Z := Z.max (nblk (p_nx p) (p_block p)) (nblk (p_ny p) (p_tblock p)).
Definition problem_ok (p : problem_t) : Prop := 1 <= p_nx p /\ 1 <= p_ny p /\ 0 <= p_vn p /\ 1 <= p_block p /\ 1 <= p_tblock p.

Lemma mksched_ok p : problem_ok p -> exists S, (forall w, 0 <= w < npes p -> mksched p w = Ret (Some (S w))) /\
  Tournament (npes p) S /\
  (forall w, npes p <= w -> mksched p w = Ret None) /\
  forall w, 0 <= w < npes p -> unequal p w ->
    forall i j a b, (i < j)%nat -> nth_error (S w) i = Some a -> nth_error (S w) j = Some b ->
      (p_block p * my_bt p w < my_b p w * p_tblock p -> a < b) /\ (my_b p w * p_tblock p < p_block p * my_bt p w -> b < a).
Proof.
  intros (H1 & H2 & Hv & H3 & H4).
  assert (HP : 1 <= npes p) by (unfold npes; pose proof (nblk_pos (p_nx p) (p_block p) H1 H3); lia).
  destruct (sort_pe_ok p (npes p) H3 H4 ltac:(lia)) as (r & R1 & R2).
  unfold mksched. rewrite n_pes_ok by auto. fold (npes p). cbn [bind]. rewrite R1. cbn [bind].
  destruct R2 as [[Rm Rn]|(Rr & Ru & Ruu & Ra)].
  - exists (sched_of (npes p)). split; [|split; [|split]].
    + intros w Hw. destruct (Z.leb_spec (npes p) w); [lia|]. rewrite fill1_ok by auto. cbn [bind]. rewrite Rm. reflexivity.
    + now apply tournament.
    + intros w Hw. destruct (Z.leb_spec (npes p) w); [auto|lia].
    + intros w Hw Hu. exfalso. exact (Rn w Hw Hu).
  - set (S' := fun w => match sort1_comm_sched (sched_of (npes p) w) (npes p) (fst r) (snd r) with Ret l => l | _ => [] end).
    assert (HS : forall w, 0 <= w < npes p -> sort1_comm_sched (sched_of (npes p) w) (npes p) (fst r) (snd r) = Ret (S' w)).
    { intros w Hw. destruct (sort1_ok (npes p) (fst r) (snd r) (sched_of (npes p) w) Rr) as (l & L1 & _); [apply length_sched_of; lia|].
      unfold S'. now rewrite L1. }
    destruct (sorted_tournament (npes p) (fst r) (snd r) S' Rr HS) as [T Srt].
    exists S'. split; [|split; [|split]].
    + intros w Hw. destruct (Z.leb_spec (npes p) w); [lia|]. rewrite fill1_ok by auto. cbn [bind].
      destruct (Z.leb_spec 0 (fst r)); [|lia]. rewrite HS by auto. reflexivity.
    + exact T.
    + intros w Hw. destruct (Z.leb_spec (npes p) w); [auto|lia].
    + intros w Hw Hu i j a b Hij Ea Eb. assert (w = fst r) by auto. subst w.
      apply Srt in Ea, Eb. unfold flip in Ea, Eb. destruct (snd r) eqn:Es.
      * split; [lia|]. destruct Ra as [Ra _]. specialize (Ra eq_refl). lia.
      * split; [|lia]. intros L. apply Ra in L. discriminate.
Qed.
