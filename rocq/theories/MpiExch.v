(** * MpiExch: every execution of the pairwise exchange terminates, without
    deadlock, with the blocks exchanged *)
From Coq Require Import ZArith List Lia Bool.
From Verif Require Import Base NumTheory Offs MpiModel MpiProofs MpiTransModel MpiSched.
Import ListNotations.
Open Scope Z_scope.

Section Exch.
Context {V : Type}.
Variables (P : Z) (A : Z -> targs) (eager : Z -> nat -> bool) (m0 : Z -> pmem V).
Notation Sch w := (ta_sched (A w)).
Definition reg (lo len x : Z) : Prop := lo <= x < lo + len.
Record exch_ok : Prop := {
  eo_T : Tournament P (fun w => Sch w);
  eo_n : forall w v, ta_npes (A w) = ta_npes (A v);
  eo_sz : forall a b, 0 <= a < P -> 0 <= b < P -> ta_sbs (A a) b = ta_rbs (A b) a /\ 0 <= ta_sbs (A a) b;
  eo_rec : forall w a b x, 0 <= w < P -> 0 <= a < P -> 0 <= b < P -> a <> b ->
     reg (ta_rbo (A w) a) (ta_rbs (A w) a) x -> reg (ta_rbo (A w) b) (ta_rbs (A w) b) x -> False;
  eo_inp : forall w i j a b x, 0 <= w < P -> ta_I (A w) = ta_O (A w) -> (i < j)%nat ->
     nth_error (Sch w) i = Some a -> nth_error (Sch w) j = Some b ->
     reg (ta_rbo (A w) a) (ta_rbs (A w) a) x -> reg (ta_sbo (A w) b) (ta_sbs (A w) b) x -> False;
  eo_buf : forall w pe, 0 <= w < P -> 0 <= pe < P -> ta_I (A w) = ta_O (A w) -> pe <> w -> ta_sbs (A w) pe <= ta_sbs (A w) 0
}.
Hypothesis H : exch_ok.

Definition sentb (p : pst V) (k : nat) : bool := (k <? ps_i p)%nat || (Nat.eqb k (ps_i p) && ps_posted p).
Definition rcvb (p : pst V) (k : nat) : bool := (k <? ps_i p)%nat || (Nat.eqb k (ps_i p) && ps_recvd p).
Definition dat (a b : Z) : list V := fetch (m0 a) (ta_I (A a)) (ta_sbo (A a) b) (ta_sbs (A a) b).

Definition meminv (w : Z) (p : pst V) : Prop := forall arr x,
  (forall k pe, rcvb p k = true -> nth_error (Sch w) k = Some pe -> arr = ta_O (A w) ->
     reg (ta_rbo (A w) pe) (ta_rbs (A w) pe) x ->
     ps_mem p arr x = m0 pe (ta_I (A pe)) (ta_sbo (A pe) w + (x - ta_rbo (A w) pe))) /\
  ((arr <> ta_O (A w) \/ forall k pe, rcvb p k = true -> nth_error (Sch w) k = Some pe -> ~ reg (ta_rbo (A w) pe) (ta_rbs (A w) pe) x) ->
     ps_mem p arr x = m0 w arr x).

Record Inv (s : gst V) : Prop := {
  iv_pc : forall w, 0 <= w < P -> (ps_i (procs s w) <= length (Sch w))%nat;
  iv_ph : forall w, 0 <= w < P -> (ps_recvd (procs s w) = true -> ps_posted (procs s w) = true) /\
     (ps_posted (procs s w) = true -> exists pe, nth_error (Sch w) (ps_i (procs s w)) = Some pe /\ pe <> w);
  iv_mem : forall w, 0 <= w < P -> meminv w (procs s w);
  iv_chan : forall a b k, 0 <= a < P -> a <> b -> nth_error (Sch a) k = Some b ->
     chan s a b = if sentb (procs s a) k && negb (rcvb (procs s b) k) then [(tag (ta_npes (A a)) a b, dat a b)] else [];
  iv_sync : forall a b k, 0 <= b < P -> a <> b -> nth_error (Sch b) k = Some a -> rcvb (procs s b) k = true -> sentb (procs s a) k = true
}.

Lemma Inv_start : Inv (start m0).
Proof.
  assert (R : forall m k, rcvb (mkps m 0 false false) k = false) by (intros m [|k]; reflexivity).
  constructor; cbn [start procs chan ps_i ps_posted ps_recvd].
  - intros; lia.
  - intros w Hw. split; discriminate.
  - intros w Hw arr x. rewrite ?R. split; [intros k pe Hk; rewrite R in Hk; discriminate|]. reflexivity.
  - intros a b k Ha Hab Hk. replace (sentb _ k) with false by (destruct k; reflexivity). reflexivity.
  - intros a b k Hb Hab Hk. rewrite R. discriminate.
Qed.

Lemma length_fetch (m : pmem V) arr lo len : 0 <= len -> Z.of_nat (length (fetch m arr lo len)) = len.
Proof. intros. unfold fetch. rewrite map_length. now apply length_zr. Qed.
Lemma nth_fetch (m : pmem V) arr lo len j d : 0 <= j < len -> nth (Z.to_nat j) (fetch m arr lo len) d = m arr (lo + j).
Proof.
  intros Hj. apply nth_error_nth. unfold fetch. rewrite nth_error_map', nth_zr.
  destruct (Z.ltb_spec (Z.of_nat (Z.to_nat j)) len); [|lia]. cbn. do 2 f_equal. lia.
Qed.
Lemma fetch_ext (m m' : pmem V) arr lo len : (forall x, reg lo len x -> m arr x = m' arr x) -> fetch m arr lo len = fetch m' arr lo len.
Proof. intros E. unfold fetch. apply map_ext_in. intros j Hj. apply in_zr in Hj. apply E. unfold reg. lia. Qed.

Lemma sched_range w k pe : 0 <= w < P -> nth_error (Sch w) k = Some pe -> 0 <= pe < P.
Proof. intros Hw E. eapply (tm_range _ _ (eo_T H) w); auto. eapply nth_error_In; eauto. Qed.
Lemma sched_inj w k k' pe : 0 <= w < P -> nth_error (Sch w) k = Some pe -> nth_error (Sch w) k' = Some pe -> k = k'.
Proof.
  intros Hw E E'. apply (proj1 (NoDup_nth_error _) (tm_nodup _ _ (eo_T H) w Hw)); [apply nth_error_Some; congruence|congruence].
Qed.
Lemma sched_sym w k pe : 0 <= w < P -> nth_error (Sch w) k = Some pe -> nth_error (Sch pe) k = Some w.
Proof. intros Hw E. exact (tm_sym _ _ (eo_T H) w k pe Hw E). Qed.

(** what a process sends is still the original data *)
Lemma send_fresh w p pe : 0 <= w < P -> meminv w p -> ps_recvd p = false -> nth_error (Sch w) (ps_i p) = Some pe ->
  forall x, reg (ta_sbo (A w) pe) (ta_sbs (A w) pe) x -> ps_mem p (ta_I (A w)) x = m0 w (ta_I (A w)) x.
Proof.
  intros Hw M Hr E x Hx. apply (M (ta_I (A w)) x). destruct (Nat.eq_dec (ta_I (A w)) (ta_O (A w))) as [EI|]; [right|now left].
  intros k a Hk Ea Hreg. unfold rcvb in Hk. rewrite Hr, andb_false_r, orb_false_r in Hk. apply Nat.ltb_lt in Hk.
  eapply (eo_inp H w k (ps_i p) a pe x); eauto.
Qed.

Lemma store_in (m : pmem V) arr lo d x : reg lo (Z.of_nat (length d)) x -> store m arr lo d arr x = nth (Z.to_nat (x - lo)) d (m arr x).
Proof.
  intros [R1 R2]. unfold store. rewrite Nat.eqb_refl. apply Z.leb_le in R1. apply Z.ltb_lt in R2. now rewrite R1, R2.
Qed.
Lemma store_out (m : pmem V) arr lo d a x : (a <> arr \/ ~ reg lo (Z.of_nat (length d)) x) -> store m arr lo d a x = m a x.
Proof.
  intros N. unfold store. destruct (Nat.eqb_spec a arr) as [->|]; [|reflexivity].
  destruct (Z.leb_spec lo x); [|reflexivity]. destruct (Z.ltb_spec x (lo + Z.of_nat (length d))); [|reflexivity].
  exfalso. destruct N as [N|N]; [congruence|]. apply N. unfold reg. lia.
Qed.

(** receiving block number [k] *)
Lemma recv_mem w p k pe q : 0 <= w < P -> meminv w p -> nth_error (Sch w) k = Some pe ->
  (forall j, rcvb q j = rcvb p j || Nat.eqb j k) ->
  (forall arr x, ps_mem q arr x = ps_mem p arr x \/ (arr = ta_O (A w) /\ reg (ta_rbo (A w) pe) (ta_rbs (A w) pe) x)) ->
  (forall x, reg (ta_rbo (A w) pe) (ta_rbs (A w) pe) x ->
     ps_mem q (ta_O (A w)) x = m0 pe (ta_I (A pe)) (ta_sbo (A pe) w + (x - ta_rbo (A w) pe))) ->
  meminv w q.
Proof.
  intros Hw M E HR HM HD arr x. split.
  - intros k' pe' Hk' E' -> Hx. destruct (Nat.eq_dec k' k) as [->|Ne].
    + assert (pe' = pe) by congruence. subst. auto.
    + assert (pe' <> pe). { intros ->. apply Ne. eapply sched_inj; eauto. }
      destruct (HM (ta_O (A w)) x) as [->|[_ Hx']].
      * apply (M (ta_O (A w)) x) with (k := k'); auto. rewrite HR in Hk'. apply orb_prop in Hk' as [?|Hk']; auto.
        apply Nat.eqb_eq in Hk'. contradiction.
      * exfalso. eapply (eo_rec H w pe' pe x); eauto; eapply sched_range; eauto.
  - intros N. destruct (HM arr x) as [->|[-> Hx']].
    + apply (M arr x). destruct N as [N|N]; [now left|right]. intros k' pe' Hk' E'. apply (N k'); auto. rewrite HR, Hk'. reflexivity.
    + exfalso. destruct N as [N|N]; [congruence|]. apply (N k pe); auto. rewrite HR, Nat.eqb_refl. apply orb_true_r.
Qed.
Lemma recv_store w p k pe q : 0 <= w < P -> meminv w p -> nth_error (Sch w) k = Some pe ->
  (forall j, rcvb q j = rcvb p j || Nat.eqb j k) ->
  ps_mem q = store (ps_mem p) (ta_O (A w)) (ta_rbo (A w) pe) (dat pe w) -> meminv w q.
Proof.
  intros Hw M E HR HM. assert (Hpe : 0 <= pe < P) by (eapply sched_range; eauto).
  destruct (eo_sz H pe w Hpe Hw) as [Sz S0].
  assert (L : Z.of_nat (length (dat pe w)) = ta_rbs (A w) pe) by (unfold dat; rewrite length_fetch; auto).
  apply (recv_mem w p k pe q Hw M E HR).
  - intros arr x. rewrite HM. destruct (Nat.eq_dec arr (ta_O (A w))) as [->|Na]; [|left; apply store_out; now left].
    assert (D : reg (ta_rbo (A w) pe) (ta_rbs (A w) pe) x \/ ~ reg (ta_rbo (A w) pe) (ta_rbs (A w) pe) x) by (unfold reg; lia).
    destruct D as [D|D]; [now right|left]. apply store_out. right. now rewrite L.
  - intros x Hx. rewrite HM. rewrite store_in by (now rewrite L). unfold dat. apply nth_fetch. unfold reg in Hx. lia.
Qed.

Lemma upd_same {B} (f : Z -> B) a v : upd f a v a = v.
Proof. unfold upd. now rewrite Z.eqb_refl. Qed.
Lemma upd_other {B} (f : Z -> B) a v x : x <> a -> upd f a v x = f x.
Proof. intros N. unfold upd. destruct (Z.eqb_spec x a); [contradiction|auto]. Qed.

Lemma meminv_ext w p q : ps_mem q = ps_mem p -> (forall j, rcvb q j = rcvb p j) -> meminv w p -> meminv w q.
Proof.
  intros E R M arr x. rewrite E. destruct (M arr x) as [M1 M2]. split.
  - intros k pe Hk. rewrite R in Hk. eauto.
  - intros [N|N]; apply M2; [now left|right]. intros k pe Hk. apply (N k). now rewrite R.
Qed.

Lemma rcvb_next (p q : pst V) j : ps_i q = S (ps_i p) -> ps_recvd q = false -> rcvb q j = (j <? ps_i p)%nat || Nat.eqb j (ps_i p).
Proof.
  intros E R. unfold rcvb. rewrite E, R, andb_false_r, orb_false_r.
  destruct (Nat.ltb_spec j (S (ps_i p))), (Nat.ltb_spec j (ps_i p)), (Nat.eqb_spec j (ps_i p)); auto; lia.
Qed.
Lemma sentb_next (p q : pst V) j : ps_i q = S (ps_i p) -> ps_posted q = false -> sentb q j = (j <? ps_i p)%nat || Nat.eqb j (ps_i p).
Proof.
  intros E R. unfold sentb. rewrite E, R, andb_false_r, orb_false_r.
  destruct (Nat.ltb_spec j (S (ps_i p))), (Nat.ltb_spec j (ps_i p)), (Nat.eqb_spec j (ps_i p)); auto; lia.
Qed.

Lemma Inv_step s t : Inv s -> step A P eager s t -> Inv t.
Proof.
  intros IV [w0 ST]. destruct ST as [s w p Hw Hp E Po T m'|s w p pe Hw Hp E Ne Po T msg|s w p pe l1 l2 d Hw Hp E Po Re T Ch L1|s w p pe Hw Hp E Po Re Sd].
  - (* self *)
    assert (Re : ps_recvd p = false). { destruct (ps_recvd p) eqn:R; auto. subst p. apply (iv_ph _ IV w Hw) in R. congruence. }
    set (q := mkps m' (S (ps_i p)) false false).
    assert (QR : forall j, rcvb q j = rcvb p j || Nat.eqb j (ps_i p)).
    { intros j. rewrite (rcvb_next p) by reflexivity. unfold rcvb. now rewrite Re, andb_false_r, orb_false_r. }
    assert (QS : forall j b, b <> w -> nth_error (Sch w) j = Some b -> sentb q j = sentb p j /\ rcvb q j = rcvb p j).
    { intros j b Nb Ej. assert (j <> ps_i p) by (intros ->; congruence).
      rewrite (rcvb_next p), (sentb_next p) by reflexivity. unfold sentb, rcvb. rewrite Po, Re, !andb_false_r.
      destruct (Nat.eqb_spec j (ps_i p)); [contradiction|]. auto. }
    constructor; cbn [procs chan].
    + intros v Hv. destruct (Z.eq_dec v w) as [->|N]; [rewrite upd_same|rewrite upd_other by auto; now apply (iv_pc _ IV)].
      cbn. apply nth_error_Some. congruence.
    + intros v Hv. destruct (Z.eq_dec v w) as [->|N]; [rewrite upd_same|rewrite upd_other by auto; now apply (iv_ph _ IV)].
      split; discriminate.
    + intros v Hv. destruct (Z.eq_dec v w) as [->|N]; [rewrite upd_same|rewrite upd_other by auto; now apply (iv_mem _ IV)].
      pose proof (iv_mem _ IV w Hw) as M. rewrite <- Hp in M.
      pose proof (send_fresh w p w Hw M Re E) as Fr.
      assert (FD : fetch (ps_mem p) (ta_I T) (ta_sbo T w) (ta_sbs T w) = dat w w) by (apply fetch_ext; auto).
      assert (HM' : ps_mem q = if Nat.eqb (ta_I T) (ta_O T) && (ta_rbo T w =? ta_sbo T w) then ps_mem p
              else store (ps_mem p) (ta_O T) (ta_rbo T w) (dat w w)).
      { unfold q, m'. cbn [ps_mem]. now rewrite FD. }
      fold q. destruct (Nat.eqb (ta_I T) (ta_O T) && (ta_rbo T w =? ta_sbo T w)) eqn:C.
      * apply andb_prop in C as [C1 C2]. apply Nat.eqb_eq in C1. apply Z.eqb_eq in C2.
        apply (recv_mem w p (ps_i p) w q Hw M E QR); [intros; left; now rewrite HM'|].
        intros x Hx. rewrite HM'. unfold T in *. rewrite <- C1. rewrite Fr.
        -- f_equal. lia.
        -- destruct (eo_sz H w w Hw Hw) as [Sz _]. rewrite Sz, <- C2. exact Hx.
      * apply (recv_store w p (ps_i p) w q Hw M E QR). exact HM'.
    + intros a b k Ha Nab Ek. assert (Hb : 0 <= b < P) by (eapply sched_range; eauto).
      rewrite (iv_chan _ IV a b k Ha Nab Ek). destruct (Z.eq_dec a w) as [->|Na].
      * rewrite upd_same, (upd_other _ w q b) by auto. rewrite <- Hp. destruct (QS k b ltac:(auto) Ek) as [-> _]. reflexivity.
      * rewrite (upd_other _ w q a) by auto. destruct (Z.eq_dec b w) as [->|Nb].
        -- rewrite upd_same, <- Hp. destruct (QS k a Na (sched_sym _ _ _ Ha Ek)) as [_ ->]. reflexivity.
        -- now rewrite upd_other.
    + intros a b k Hb Nab Ek. assert (Ha : 0 <= a < P) by (eapply sched_range; eauto).
      pose proof (iv_sync _ IV a b k Hb Nab Ek) as Y.
      destruct (Z.eq_dec a w) as [->|Na].
      * rewrite upd_same, (upd_other _ w q b) by auto. rewrite <- Hp in Y. destruct (QS k b ltac:(auto) (sched_sym _ _ _ Hb Ek)) as [-> _]. auto.
      * rewrite (upd_other _ w q a) by auto. destruct (Z.eq_dec b w) as [->|Nb].
        -- rewrite upd_same. rewrite <- Hp in Y. destruct (QS k a Na Ek) as [_ ->]. auto.
        -- now rewrite upd_other.
  - (* post *)
    assert (Re : ps_recvd p = false). { destruct (ps_recvd p) eqn:R; auto. subst p. apply (iv_ph _ IV w Hw) in R. congruence. }
    set (q := mkps (ps_mem p) (ps_i p) true false).
    assert (Hpe : 0 <= pe < P) by (eapply sched_range; eauto).
    assert (QR : forall j, rcvb q j = rcvb p j) by (intros j; unfold rcvb; cbn; now rewrite Re).
    assert (QS : forall j, sentb q j = sentb p j || Nat.eqb j (ps_i p)).
    { intros j. unfold sentb. cbn. rewrite Po, andb_true_r, andb_false_r, orb_false_r. reflexivity. }
    pose proof (iv_mem _ IV w Hw) as M. rewrite <- Hp in M.
    assert (FD : fetch (ps_mem p) (ta_I T) (ta_sbo T pe) (ta_sbs T pe) = dat w pe).
    { apply fetch_ext. exact (send_fresh w p pe Hw M Re E). }
    assert (NS : sentb p (ps_i p) = false).
    { unfold sentb. rewrite Po, andb_false_r, orb_false_r. apply Nat.ltb_irrefl. }
    assert (NR : rcvb (procs s pe) (ps_i p) = false).
    { destruct (rcvb (procs s pe) (ps_i p)) eqn:R; auto. apply (iv_sync _ IV w pe (ps_i p)) in R; auto; [|apply sched_sym; auto]. rewrite <- Hp in R. congruence. }
    constructor; cbn [procs chan].
    + intros v Hv. destruct (Z.eq_dec v w) as [->|N]; [rewrite upd_same|rewrite upd_other by auto; now apply (iv_pc _ IV)].
      cbn. rewrite Hp. now apply (iv_pc _ IV).
    + intros v Hv. destruct (Z.eq_dec v w) as [->|N]; [rewrite upd_same|rewrite upd_other by auto; now apply (iv_ph _ IV)].
      cbn. split; [discriminate|]. intros _. exists pe. auto.
    + intros v Hv. destruct (Z.eq_dec v w) as [->|N]; [rewrite upd_same|rewrite upd_other by auto; now apply (iv_mem _ IV)].
      apply (meminv_ext w p q); auto.
    + intros a b k Ha Nab Ek. assert (Hb : 0 <= b < P) by (eapply sched_range; eauto). unfold upd2.
      destruct ((a =? w) && (b =? pe)) eqn:C.
      * apply andb_prop in C as [C1 C2]. apply Z.eqb_eq in C1, C2. subst a b.
        assert (k = ps_i p) by (apply (sched_inj w k (ps_i p) pe); auto). subst k.
        rewrite (iv_chan _ IV w pe (ps_i p)) by auto. rewrite <- Hp, NS. cbn [andb app].
        rewrite upd_same, (upd_other _ w q pe) by auto. rewrite QS, Nat.eqb_refl, orb_true_r, NR. cbn. unfold msg. now rewrite FD.
      * rewrite (iv_chan _ IV a b k Ha Nab Ek). destruct (Z.eq_dec a w) as [->|Na].
        -- rewrite upd_same, (upd_other _ w q b) by auto. rewrite <- Hp, QS.
           destruct (Nat.eqb_spec k (ps_i p)) as [->|Nk]; [|now rewrite orb_false_r].
           exfalso. assert (b = pe) by congruence. subst. rewrite !Z.eqb_refl in C. discriminate.
        -- rewrite (upd_other _ w q a) by auto. destruct (Z.eq_dec b w) as [->|Nb].
           ++ rewrite upd_same, <- Hp, QR. reflexivity.
           ++ now rewrite upd_other.
    + intros a b k Hb Nab Ek R. pose proof (iv_sync _ IV a b k Hb Nab Ek) as Y.
      destruct (Z.eq_dec a w) as [->|Na].
      * rewrite (upd_other _ w q b) in R by auto. rewrite upd_same, QS. rewrite <- Hp in Y. now rewrite Y.
      * rewrite (upd_other _ w q a) by auto. destruct (Z.eq_dec b w) as [->|Nb].
        -- rewrite upd_same, QR in R. rewrite <- Hp in Y. auto.
        -- rewrite upd_other in R by auto. auto.
  - (* deliver *)
    set (q := mkps (store (ps_mem p) (ta_O T) (ta_rbo T pe) d) (ps_i p) true true).
    assert (Hpe : 0 <= pe < P) by (eapply sched_range; eauto).
    assert (Ne : pe <> w). { pose proof (proj2 (iv_ph _ IV w Hw)) as Y. rewrite <- Hp in Y. destruct (Y Po) as (pe' & Y1 & Y2). congruence. }
    assert (Ek0 : nth_error (Sch pe) (ps_i p) = Some w) by (apply sched_sym; auto).
    assert (NR : rcvb p (ps_i p) = false).
    { unfold rcvb. rewrite Re, andb_false_r, orb_false_r. apply Nat.ltb_irrefl. }
    pose proof (iv_chan _ IV pe w (ps_i p) Hpe Ne Ek0) as CH. rewrite <- Hp, NR in CH. cbn [negb] in CH. rewrite andb_true_r in CH.
    destruct (sentb (procs s pe) (ps_i p)) eqn:SE; [|rewrite Ch in CH; destruct l1; discriminate].
    assert (l1 = [] /\ l2 = [] /\ d = dat pe w) as (-> & -> & ->).
    { rewrite Ch in CH. destruct l1 as [|m l1]; [injection CH as _ -> ->; auto|]. exfalso. destruct l1; discriminate. }
    assert (QR : forall j, rcvb q j = rcvb p j || Nat.eqb j (ps_i p)).
    { intros j. unfold rcvb. cbn. rewrite Re, andb_true_r, andb_false_r, orb_false_r. reflexivity. }
    assert (QS : forall j, sentb q j = sentb p j) by (intros j; unfold sentb; cbn; now rewrite Po).
    constructor; cbn [procs chan app].
    + intros v Hv. destruct (Z.eq_dec v w) as [->|N]; [rewrite upd_same|rewrite upd_other by auto; now apply (iv_pc _ IV)].
      cbn. rewrite Hp. now apply (iv_pc _ IV).
    + intros v Hv. destruct (Z.eq_dec v w) as [->|N]; [rewrite upd_same|rewrite upd_other by auto; now apply (iv_ph _ IV)].
      cbn. split; auto. intros _. exists pe. auto.
    + intros v Hv. destruct (Z.eq_dec v w) as [->|N]; [rewrite upd_same|rewrite upd_other by auto; now apply (iv_mem _ IV)].
      pose proof (iv_mem _ IV w Hw) as M. rewrite <- Hp in M. apply (recv_store w p (ps_i p) pe q Hw M E QR). reflexivity.
    + intros a b k Ha Nab Ek. assert (Hb : 0 <= b < P) by (eapply sched_range; eauto). unfold upd2.
      destruct ((a =? pe) && (b =? w)) eqn:C.
      * apply andb_prop in C as [C1 C2]. apply Z.eqb_eq in C1, C2. subst a b.
        assert (k = ps_i p) by (apply (sched_inj pe k (ps_i p) w); auto). subst k.
        rewrite upd_same, (upd_other _ w q pe) by auto. rewrite QR, Nat.eqb_refl, orb_true_r. cbn. now rewrite andb_false_r.
      * rewrite (iv_chan _ IV a b k Ha Nab Ek). destruct (Z.eq_dec a w) as [->|Na].
        -- rewrite upd_same, (upd_other _ w q b) by auto. rewrite <- Hp, QS. reflexivity.
        -- rewrite (upd_other _ w q a) by auto. destruct (Z.eq_dec b w) as [->|Nb].
           ++ rewrite upd_same, <- Hp, QR. destruct (Nat.eqb_spec k (ps_i p)) as [->|Nk]; [|now rewrite orb_false_r].
              exfalso. pose proof (sched_sym _ _ _ Ha Ek). assert (a = pe) by congruence. subst. rewrite !Z.eqb_refl in C. discriminate.
           ++ now rewrite upd_other.
    + intros a b k Hb Nab Ek R. pose proof (iv_sync _ IV a b k Hb Nab Ek) as Y.
      destruct (Z.eq_dec a w) as [->|Na].
      * rewrite (upd_other _ w q b) in R by auto. rewrite upd_same, QS. rewrite <- Hp in Y. auto.
      * rewrite (upd_other _ w q a) by auto. destruct (Z.eq_dec b w) as [->|Nb].
        -- rewrite upd_same, QR in R. rewrite <- Hp in Y. apply orb_prop in R as [R|R]; auto.
           apply Nat.eqb_eq in R. subst k. assert (a = pe) by congruence. subst. auto.
        -- rewrite upd_other in R by auto. auto.
  - (* done *)
    set (q := mkps (ps_mem p) (S (ps_i p)) false false).
    assert (QR : forall j, rcvb q j = rcvb p j) by (intros j; rewrite (rcvb_next p) by reflexivity; unfold rcvb; now rewrite Re, andb_true_r).
    assert (QS : forall j, sentb q j = sentb p j) by (intros j; rewrite (sentb_next p) by reflexivity; unfold sentb; now rewrite Po, andb_true_r).
    assert (PR : forall v j, rcvb (upd (procs s) w q v) j = rcvb (procs s v) j).
    { intros v j. destruct (Z.eq_dec v w) as [->|N]; [rewrite upd_same, QR; now rewrite Hp|now rewrite upd_other]. }
    assert (PS : forall v j, sentb (upd (procs s) w q v) j = sentb (procs s v) j).
    { intros v j. destruct (Z.eq_dec v w) as [->|N]; [rewrite upd_same, QS; now rewrite Hp|now rewrite upd_other]. }
    constructor; cbn [procs chan].
    + intros v Hv. destruct (Z.eq_dec v w) as [->|N]; [rewrite upd_same|rewrite upd_other by auto; now apply (iv_pc _ IV)].
      cbn. apply nth_error_Some. congruence.
    + intros v Hv. destruct (Z.eq_dec v w) as [->|N]; [rewrite upd_same|rewrite upd_other by auto; now apply (iv_ph _ IV)].
      split; discriminate.
    + intros v Hv. destruct (Z.eq_dec v w) as [->|N]; [rewrite upd_same|rewrite upd_other by auto; now apply (iv_mem _ IV)].
      apply (meminv_ext w p q); auto. rewrite Hp. now apply (iv_mem _ IV).
    + intros a b k Ha Nab Ek. rewrite PS, PR. now apply (iv_chan _ IV).
    + intros a b k Hb Nab Ek. rewrite PS, PR. now apply (iv_sync _ IV).
Qed.

Lemma Inv_steps n s t : steps A P eager n s t -> Inv s -> Inv t.
Proof. induction 1 as [s|n s t u ST IH St]; auto. intros. apply (Inv_step t u); auto. Qed.

(** ** No deadlock *)
Lemma min_pc (f : Z -> nat) (n : nat) : (exists w, 0 <= w < Z.of_nat n) ->
  exists w, 0 <= w < Z.of_nat n /\ forall v, 0 <= v < Z.of_nat n -> (f w <= f v)%nat.
Proof.
  induction n as [|n IH]; intros [w Hw]; [lia|].
  destruct n as [|n]; [exists 0; split; [lia|]; intros v Hv; replace v with 0 by lia; lia|].
  destruct IH as (u & Hu & Mu); [exists 0; lia|].
  destruct (le_lt_dec (f u) (f (Z.of_nat (S n)))).
  - exists u. split; [lia|]. intros v Hv. destruct (Z.eq_dec v (Z.of_nat (S n))) as [->|]; auto. apply Mu; lia.
  - exists (Z.of_nat (S n)). split; [lia|]. intros v Hv. destruct (Z.eq_dec v (Z.of_nat (S n))) as [->|]; [lia|].
    assert (f u <= f v)%nat by (apply Mu; lia). lia.
Qed.

Lemma progress s : Inv s -> 1 <= P -> ~ finished A P s -> exists t, step A P eager s t.
Proof.
  intros IV HP NF.
  destruct (min_pc (fun w => ps_i (procs s w)) (Z.to_nat P)) as (w & Hw & Mn); [exists 0; lia|]. rewrite Z2Nat.id in Hw, Mn by lia.
  set (p := procs s w) in *. set (k := ps_i p) in *.
  assert (Lk : (k < length (Sch w))%nat).
  { destruct (le_lt_dec (length (Sch w)) k) as [L|L]; auto. exfalso. apply NF. intros v Hv.
    pose proof (iv_pc _ IV v Hv). specialize (Mn v Hv). cbn in Mn. fold p in Mn. fold k in Mn.
    pose proof (tm_len _ _ (eo_T H) v Hv). pose proof (tm_len _ _ (eo_T H) w Hw). cbn in *. lia. }
  destruct (nth_error (Sch w) k) as [b|] eqn:E; [|apply nth_error_None in E; lia].
  destruct (Z.eq_dec b w) as [->|Nb].
  - destruct (ps_posted p) eqn:Po.
    + exfalso. destruct (proj2 (iv_ph _ IV w Hw) Po) as (pe & Y1 & Y2). fold p in Y1. fold k in Y1. congruence.
    + eexists; eexists. eapply st_self with (w := w); eauto.
  - assert (Hb : 0 <= b < P) by (eapply sched_range; eauto).
    pose proof (sched_sym w k b Hw E) as E'.
    destruct (ps_posted p) eqn:Po.
    2:{ eexists; eexists. eapply st_post with (w := w) (pe := b); eauto. }
    assert (SW : sentb p k = true) by (unfold sentb; fold k; rewrite Nat.eqb_refl, Po; apply orb_true_r).
    specialize (Mn b Hb). cbn in Mn. fold p in Mn. fold k in Mn.
    destruct (ps_recvd p) eqn:Re.
    + (* received: either complete or let the partner receive *)
      pose proof (iv_chan _ IV w b k Hw ltac:(auto) E) as CH. fold p in CH. rewrite SW in CH. cbn [andb] in CH.
      destruct (rcvb (procs s b) k) eqn:RB; cbn [negb] in CH.
      * eexists; eexists. eapply st_done with (w := w) (pe := b); eauto.
      * assert (RW : rcvb p k = true) by (unfold rcvb; fold k; rewrite Nat.eqb_refl, Re; apply orb_true_r).
        pose proof (iv_sync _ IV b w k Hw Nb E RW) as SB.
        unfold sentb in SB. unfold rcvb in RB. apply orb_false_iff in RB as [RB1 RB2]. rewrite RB1 in SB. cbn [orb] in SB.
        apply andb_prop in SB as [SB1 SB2]. rewrite SB1 in RB2. cbn [andb] in RB2. apply Nat.eqb_eq in SB1.
        eexists; eexists. apply (st_deliver A P eager s b (procs s b) w [] [] (dat w b)); auto.
        -- rewrite <- SB1. exact E'.
        -- rewrite CH. cbn [app]. rewrite (eo_n H b w). reflexivity.
    + assert (RW : rcvb p k = false) by (unfold rcvb; fold k; rewrite Re, andb_false_r, orb_false_r; apply Nat.ltb_irrefl).
      destruct (sentb (procs s b) k) eqn:SB.
      * pose proof (iv_chan _ IV b w k Hb Nb E') as CH. fold p in CH. rewrite SB, RW in CH. cbn in CH.
        eexists; eexists. apply (st_deliver A P eager s w p b [] [] (dat b w)); auto.
        rewrite CH. cbn [app]. rewrite (eo_n H w b). reflexivity.
      * unfold sentb in SB. apply orb_false_iff in SB as [SB1 SB2]. apply Nat.ltb_ge in SB1.
        assert (EK : ps_i (procs s b) = k) by lia. rewrite EK, Nat.eqb_refl in SB2. cbn [andb] in SB2.
        eexists; eexists. eapply st_post with (w := b) (pe := w); eauto. rewrite EK. exact E'.
Qed.

Lemma not_wrong s : Inv s -> ~ wrong A P s.
Proof.
  intros IV (w & Hw & pe & E & Ne & [(W1 & W2 & W3)|(W1 & W2 & t & d & W3 & W4)]).
  - pose proof (eo_buf H w pe Hw ltac:(eapply sched_range; eauto) W2 Ne). lia.
  - assert (Hpe : 0 <= pe < P) by (eapply sched_range; eauto).
    rewrite (iv_chan _ IV pe w (ps_i (procs s w)) Hpe Ne (sched_sym _ _ _ Hw E)) in W3.
    destruct (_ && _); [|destruct W3]. destruct W3 as [W3|[]]. injection W3 as _ <-.
    unfold dat in W4. destruct (eo_sz H pe w Hpe Hw) as [Sz S0]. rewrite length_fetch in W4 by auto. lia.
Qed.

(** ** Termination *)
Definition left_of (w : Z) (p : pst V) : Z :=
  3 * (Z.of_nat (length (Sch w)) - Z.of_nat (ps_i p)) - (if ps_posted p then 1 else 0) - (if ps_recvd p then 1 else 0).
Definition sumz (f : Z -> Z) (l : list Z) : Z := fold_right (fun w a => f w + a) 0 l.
Lemma sumz_upd (f g : Z -> Z) l w d : NoDup l -> In w l -> (forall v, v <> w -> g v = f v) -> g w = f w - d -> sumz g l = sumz f l - d.
Proof.
  intros N. induction N as [|x l Hx N IH]; intros Hin E D; [destruct Hin|]. cbn [sumz fold_right]. fold (sumz f l). fold (sumz g l).
  destruct (Z.eq_dec x w) as [->|Nx].
  - replace (sumz g l) with (sumz f l); [lia|]. clear - Hx E. induction l as [|y l IH]; auto. cbn [sumz fold_right]. fold (sumz f l) (sumz g l).
    rewrite IH by (intros Hl; apply Hx; now right). rewrite E; auto. intros ->. apply Hx. now left.
  - destruct Hin as [->|Hin]; [contradiction|]. rewrite IH, (E x) by auto. lia.
Qed.
Definition work (s : gst V) : Z := sumz (fun w => left_of w (procs s w)) (zr P).

Lemma step_work s t : Inv s -> step A P eager s t -> work t <= work s - 1.
Proof.
  intros IV [w0 ST]. destruct ST as [s w p Hw Hp E Po T m'|s w p pe Hw Hp E Ne Po T msg|s w p pe l1 l2 d Hw Hp E Po Re T Ch L1|s w p pe Hw Hp E Po Re Sd];
    unfold work; cbn [procs]; subst p.
  - assert (Re : ps_recvd (procs s w) = false). { destruct (ps_recvd (procs s w)) eqn:R; auto. apply (iv_ph _ IV w Hw) in R. congruence. }
    rewrite (sumz_upd (fun v => left_of v (procs s v)) _ (zr P) w 3); [lia|apply NoDup_zr|now apply in_zr| |].
    + intros v Nv. now rewrite upd_other.
    + rewrite upd_same. unfold left_of. rewrite Po, Re. cbn [ps_i ps_posted ps_recvd]. lia.
  - assert (Re : ps_recvd (procs s w) = false). { destruct (ps_recvd (procs s w)) eqn:R; auto. apply (iv_ph _ IV w Hw) in R. congruence. }
    rewrite (sumz_upd (fun v => left_of v (procs s v)) _ (zr P) w 1); [lia|apply NoDup_zr|now apply in_zr| |].
    + intros v Nv. now rewrite upd_other.
    + rewrite upd_same. unfold left_of. rewrite Po, Re. cbn [ps_i ps_posted ps_recvd]. lia.
  - rewrite (sumz_upd (fun v => left_of v (procs s v)) _ (zr P) w 1); [lia|apply NoDup_zr|now apply in_zr| |].
    + intros v Nv. now rewrite upd_other.
    + rewrite upd_same. unfold left_of. rewrite Po, Re. cbn [ps_i ps_posted ps_recvd]. lia.
  - rewrite (sumz_upd (fun v => left_of v (procs s v)) _ (zr P) w 1); [lia|apply NoDup_zr|now apply in_zr| |].
    + intros v Nv. now rewrite upd_other.
    + rewrite upd_same. unfold left_of. rewrite Po, Re. cbn [ps_i ps_posted ps_recvd]. lia.
Qed.
Lemma work_nonneg s : Inv s -> 0 <= work s.
Proof.
  intros IV. unfold work. assert (G : forall l, incl l (zr P) -> 0 <= sumz (fun w => left_of w (procs s w)) l).
  { induction l as [|w l IH]; intros Hi; cbn [sumz fold_right]; [lia|].
    assert (Hw : 0 <= w < P) by (apply in_zr, Hi; now left).
    assert (0 <= sumz (fun w => left_of w (procs s w)) l) by (apply IH; intros x Hx; apply Hi; now right).
    fold (sumz (fun w => left_of w (procs s w)) l).
    unfold left_of at 1. pose proof (iv_pc _ IV w Hw). destruct (iv_ph _ IV w Hw) as [Y1 Y2].
    destruct (ps_posted (procs s w)) eqn:Po.
    - destruct (Y2 eq_refl) as (pe & Y3 & _). assert (ps_i (procs s w) < length (Sch w))%nat by (apply nth_error_Some; congruence).
      destruct (ps_recvd (procs s w)); lia.
    - destruct (ps_recvd (procs s w)) eqn:R; [specialize (Y1 eq_refl); discriminate|]. lia. }
  apply G. apply incl_refl.
Qed.
Lemma steps_work n s t : Inv s -> steps A P eager n s t -> Z.of_nat n + work t <= work s.
Proof.
  intros IV ST. induction ST as [s|n s t u ST IH St]; [lia|]. specialize (IH IV). pose proof (step_work t u (Inv_steps _ _ _ ST IV) St). lia.
Qed.
Lemma work_start : 0 <= P -> work (start m0) = 3 * P * P.
Proof.
  intros HP. unfold work, start. cbn [procs].
  assert (G : forall l, incl l (zr P) -> sumz (fun w => left_of w (mkps (m0 w) 0 false false)) l = 3 * P * Z.of_nat (length l)).
  { induction l as [|w l IH]; intros Hi; cbn [sumz fold_right length]; [lia|]. fold (sumz (fun w => left_of w (mkps (m0 w) 0 false false)) l).
    rewrite IH by (intros x Hx; apply Hi; now right). unfold left_of. cbn [ps_i ps_posted ps_recvd].
    assert (Hw : 0 <= w < P) by (apply in_zr, Hi; now left). pose proof (tm_len _ _ (eo_T H) w Hw) as L. cbn in L. rewrite L. lia. }
  rewrite G by apply incl_refl. rewrite length_zr by auto. reflexivity.
Qed.

(** ** The result *)
Lemma finished_result s : Inv s -> finished A P s -> forall w, 0 <= w < P ->
  (forall pe x, 0 <= pe < P -> reg (ta_rbo (A w) pe) (ta_rbs (A w) pe) x ->
     ps_mem (procs s w) (ta_O (A w)) x = m0 pe (ta_I (A pe)) (ta_sbo (A pe) w + (x - ta_rbo (A w) pe))) /\
  (forall arr x, (arr <> ta_O (A w) \/ forall pe, 0 <= pe < P -> ~ reg (ta_rbo (A w) pe) (ta_rbs (A w) pe) x) ->
     ps_mem (procs s w) arr x = m0 w arr x).
Proof.
  intros IV F w Hw. pose proof (iv_mem _ IV w Hw) as M. specialize (F w Hw).
  split.
  - intros pe x Hpe Hx. destruct (In_nth_error _ _ (tm_all _ _ (eo_T H) w pe Hw Hpe)) as (k & Ek). cbn in Ek.
    apply (M (ta_O (A w)) x) with (k := k); auto. unfold rcvb. rewrite F.
    replace (k <? length (Sch w))%nat with true; auto. symmetry. apply Nat.ltb_lt. apply nth_error_Some. congruence.
  - intros arr x [N|N]; apply (M arr x); [now left|right]. intros k pe _ Ek. apply N. eapply sched_range; eauto.
Qed.
End Exch.
