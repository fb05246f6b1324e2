(** * Race-free programs are deterministic (proofs) *)
From Coq Require Import Reals ZArith List Bool Lia Permutation FunctionalExtensionality.
From Verif Require Import Cplx Spec SpecThreads SpecParallel.
Import ListNotations.
Open Scope Z_scope.

(** ** Memory *)
Lemma store_same m l v : store m l v l = v.
Proof. unfold store. now rewrite Nat.eqb_refl, Z.eqb_refl. Qed.
Lemma store_other m l v x : l <> x -> store m l v x = m x.
Proof.
  intros H. unfold store. destruct (Nat.eqb_spec (fst l) (fst x)); [|auto]. destruct (Z.eqb_spec (snd l) (snd x)); [|auto].
  exfalso. apply H. destruct l, x; cbn in *; congruence.
Qed.
Lemma loc_dec (l x : loc) : {l = x} + {l <> x}.
Proof. destruct l, x. destruct (Nat.eq_dec n n0), (Z.eq_dec z z0); [left|right|right|right]; congruence. Qed.
Lemma map_store m l v s : ~ In l s -> map (store m l v) s = map m s.
Proof. intros H. apply map_ext_in. intros x Hx. apply store_other. intros ->. auto. Qed.
Lemma do_access_comm a b m : ~ conflict a b -> do_access a (do_access b m) = do_access b (do_access a m).
Proof.
  intros H. unfold do_access.
  rewrite (map_store m (ac_dst b)) by (intros C; apply H; right; right; auto).
  rewrite (map_store m (ac_dst a)) by (intros C; apply H; right; left; auto).
  apply functional_extensionality. intros x. destruct (loc_dec (ac_dst a) x) as [<-|E1].
  - rewrite store_same, store_other by (intros E; apply H; left; auto). now rewrite store_same.
  - rewrite (store_other _ (ac_dst a)) by auto. destruct (loc_dec (ac_dst b) x) as [<-|E2].
    + now rewrite !store_same.
    + now rewrite !store_other by auto.
Qed.

(** ** Induction on programs *)
Section Ind.
Variable P : prog access -> Prop.
Hypothesis H1 : P PEnd.
Hypothesis H2 : forall a k, P k -> P (PAct a k).
Hypothesis H3 : forall bs k, Forall P bs -> P k -> P (PSpawn bs k).
Fixpoint prog_nind (p : prog access) : P p :=
  match p with
  | PEnd => H1
  | PAct a k => H2 a k (prog_nind k)
  | PSpawn bs k => H3 bs k ((fix go l : Forall P l := match l with [] => Forall_nil _ | t :: l' => Forall_cons _ (prog_nind t) (go l') end) bs) (prog_nind k)
  end.
End Ind.

Lemma run_seq_comm a p : (forall b, In b (actions p) -> ~ conflict a b) -> forall m, run_seq p (do_access a m) = do_access a (run_seq p m).
Proof.
  induction p as [|b k IH|bs k Hb IH] using prog_nind; intros H m; cbn [run_seq].
  - reflexivity.
  - rewrite <- (do_access_comm a b) by (apply H; now left). apply IH. intros c Hc. apply H. now right.
  - rewrite <- IH by (intros c Hc; apply H; cbn; apply in_app_iff; auto). f_equal.
    assert (G : forall c, In c (flat_map actions bs) -> ~ conflict a c) by (intros c Hc; apply H; cbn; apply in_app_iff; auto).
    clear H IH. revert m. induction Hb as [|x l Hx Hl IHl]; intros m; cbn [fold_left]; auto.
    rewrite Hx by (intros c Hc; apply G; cbn; apply in_app_iff; auto). apply IHl.
    intros c Hc. apply G. cbn. apply in_app_iff. auto.
Qed.
Lemma run_seq_frame p m l : (forall a, In a (actions p) -> ac_dst a <> l) -> run_seq p m l = m l.
Proof.
  revert m. induction p as [|a k IH|bs k Hb IH] using prog_nind; intros m H; cbn [run_seq].
  - reflexivity.
  - rewrite IH by (intros c Hc; apply H; now right). apply store_other. apply H. now left.
  - rewrite IH by (intros c Hc; apply H; cbn; apply in_app_iff; auto).
    assert (G : forall c, In c (flat_map actions bs) -> ac_dst c <> l) by (intros c Hc; apply H; cbn; apply in_app_iff; auto).
    clear H IH. revert m. induction Hb as [|x t Hx Ht IHt]; intros m; cbn [fold_left]; auto.
    rewrite IHt by (intros c Hc; apply G; cbn; apply in_app_iff; auto).
    apply Hx. intros c Hc. apply G. cbn. apply in_app_iff. auto.
Qed.

(** ** Running programs *)
Fixpoint tact (t : tree access) : list access :=
  match t with TSeq p => actions p | TPar ts k => flat_map tact ts ++ actions k end.
Fixpoint trun (t : tree access) (m : mem) : mem :=
  match t with TSeq p => run_seq p m | TPar ts k => run_seq k (fold_left (fun m t => trun t m) ts m) end.
Definition tindep (t u : tree access) : Prop := forall a b, In a (tact t) -> In b (tact u) -> ~ conflict a b.
Inductive trf : tree access -> Prop :=
| trf_seq p : race_free p -> trf (TSeq p)
| trf_par ts k : Forall trf ts -> ForallOrdPairs tindep ts -> race_free k -> trf (TPar ts k).

Lemma tact_map bs : flat_map tact (map TSeq bs) = flat_map actions bs.
Proof. induction bs as [|b l IH]; cbn; auto. now rewrite IH. Qed.
Lemma trun_map bs m : fold_left (fun m t => trun t m) (map TSeq bs) m = fold_left (fun m p => run_seq p m) bs m.
Proof. revert m. induction bs as [|b l IH]; intros m; cbn; auto. Qed.
Lemma FOP_map bs : ForallOrdPairs independent bs -> ForallOrdPairs tindep (map TSeq bs).
Proof.
  induction 1 as [|p l H1 H2 IH]; cbn; constructor; auto. rewrite Forall_map. eapply Forall_impl; [|exact H1].
  intros q Hq a b Ha Hb. apply Hq; auto.
Qed.
Section TInd.
Variable P : tree access -> Prop.
Hypothesis H1 : forall p, P (TSeq p).
Hypothesis H2 : forall ts k, Forall P ts -> P (TPar ts k).
Fixpoint tree_ind' (T : tree access) : P T :=
  match T with
  | TSeq p => H1 p
  | TPar ts k => H2 ts k ((fix go l : Forall P l := match l with [] => Forall_nil _ | t :: l' => Forall_cons _ (tree_ind' t) (go l') end) ts)
  end.
End TInd.
Lemma trun_comm a t : (forall b, In b (tact t) -> ~ conflict a b) -> forall m, trun t (do_access a m) = do_access a (trun t m).
Proof.
  induction t as [p|ts k Hts] using tree_ind'; intros H m; cbn [trun].
  - now apply run_seq_comm.
  - rewrite <- run_seq_comm by (intros c Hc; apply H; cbn; apply in_app_iff; auto). f_equal.
    assert (G : forall c, In c (flat_map tact ts) -> ~ conflict a c) by (intros c Hc; apply H; cbn; apply in_app_iff; auto).
    clear H. revert m. induction Hts as [|x l Hx Hl IHl]; intros m; cbn [fold_left]; auto.
    rewrite Hx by (intros c Hc; apply G; cbn; apply in_app_iff; auto). apply IHl.
    intros c Hc. apply G. cbn. apply in_app_iff. auto.
Qed.
Lemma fold_comm a ts : (forall t b, In t ts -> In b (tact t) -> ~ conflict a b) -> forall m,
  fold_left (fun m t => trun t m) ts (do_access a m) = do_access a (fold_left (fun m t => trun t m) ts m).
Proof.
  induction ts as [|t ts IH]; intros H m; cbn [fold_left]; auto.
  rewrite trun_comm by (intros b Hb; apply (H t); auto; now left). apply IH. intros u b Hu. apply (H u). now right.
Qed.

Lemma FOP_split {A} (R : A -> A -> Prop) l1 x l2 : ForallOrdPairs R (l1 ++ x :: l2) <->
  ForallOrdPairs R (l1 ++ l2) /\ Forall (fun y => R y x) l1 /\ Forall (fun y => R x y) l2.
Proof.
  induction l1 as [|y l1 IH]; cbn [app].
  - split.
    + intros H. inversion H; subst. auto.
    + intros (H1 & _ & H3). now constructor.
  - split.
    + intros H. inversion H as [|? ? Hy Ht]; subst. apply IH in Ht as (T1 & T2 & T3). apply Forall_app in Hy as [Y1 Y2].
      inversion Y2; subst. split; [|split]; auto.
      constructor; auto. apply Forall_app. auto.
    + intros (H1 & H2 & H3). inversion H1 as [|? ? Y1 Y2]; inversion H2 as [|? ? Z1 Z2]; subst.
      apply Forall_app in Y1 as [Y11 Y12]. constructor.
      * apply Forall_app. split; auto.
      * apply IH. auto.
Qed.
Lemma conflict_sym a b : conflict a b -> conflict b a.
Proof. unfold conflict. intuition. Qed.

(** one step of a race-free program commutes with everything in front of it *)
Lemma tstep_run t m t' m' : tstep do_access t m t' m' -> trf t ->
  trf t' /\ incl (tact t') (tact t) /\
  ((exists a, In a (tact t) /\ m' = do_access a m /\ forall M, trun t' (do_access a M) = trun t M) \/
   (m' = m /\ forall M, trun t' M = trun t M)).
Proof.
  induction 1 as [a k m|bs k m|ts1 t t' ts2 k m m' Hs IH|ts k m Hf]; intros HF.
  - inversion HF as [? R|]; subst. inversion R; subst. split; [now constructor|]. split; [intros x Hx; now right|].
    left. exists a. split; [now left|]. split; auto.
  - inversion HF as [? R|]; subst. inversion R as [| |? ? R1 R2 R3]; subst. split; [constructor; auto|].
    + rewrite Forall_map. eapply Forall_impl; [|exact R1]. intros; now constructor.
    + now apply FOP_map.
    + split; [cbn; rewrite tact_map; apply incl_refl|]. right. split; auto. intros M. cbn [trun run_seq]. now rewrite trun_map.
  - inversion HF as [|? ? F1 F2 F3]; subst. apply Forall_app in F1 as [G1 G2]. inversion G2 as [|? ? G3 G4]; subst.
    destruct (IH G3) as (K1 & K2 & K3). apply FOP_split in F2 as (O1 & O2 & O3).
    split; [constructor|split].
    + apply Forall_app. split; auto.
    + apply FOP_split. split; [auto|]. split.
      * eapply Forall_impl; [|exact O2]. intros u Hu a b Ha Hb. apply Hu; auto.
      * eapply Forall_impl; [|exact O3]. intros u Hu a b Ha Hb. apply Hu; auto.
    + auto.
    + cbn. rewrite !flat_map_app. cbn. intros x Hx. rewrite !in_app_iff in *. intuition.
    + destruct K3 as [(a & Ha & -> & E)|[-> E]].
      * left. exists a. split; [cbn; rewrite flat_map_app; cbn; rewrite !in_app_iff; auto|]. split; auto.
        intros M. cbn [trun]. f_equal. rewrite !fold_left_app. cbn [fold_left]. f_equal.
        rewrite fold_comm; [apply E|]. intros u b Hu Hb C. rewrite Forall_forall in O2. apply (O2 u Hu b a Hb Ha). now apply conflict_sym.
      * right. split; auto. intros M. cbn [trun]. f_equal. rewrite !fold_left_app. cbn [fold_left]. f_equal. apply E.
  - inversion HF as [|? ? F1 F2 F3]; subst. split; [now constructor|]. split; [cbn; intros x Hx; apply in_app_iff; auto|].
    right. split; auto. intros M. cbn [trun]. f_equal. clear - Hf. revert M. induction Hf as [|x l -> Hl IHl]; intros M; cbn; auto.
Qed.
Lemma tsteps_run t m t' m' : tsteps do_access t m t' m' -> trf t -> trf t' /\ trun t' m' = trun t m.
Proof.
  induction 1 as [|t m t1 m1 t2 m2 H IH S]; intros HF; auto.
  destruct (IH HF) as [F1 E1]. destruct (tstep_run _ _ _ _ S F1) as (F2 & _ & [(a & _ & -> & E)|[-> E]]); (split; [auto|]); rewrite <- E1; apply E.
Qed.

(** every complete execution of race-free threads is the sequential one *)
Lemma race_free_unique ps m m' : race_free (PSpawn ps PEnd) ->
  tsteps do_access (TPar (map TSeq ps) PEnd) m (TPar (map (fun _ => TSeq PEnd) ps) PEnd) m' ->
  m' = run_seq (PSpawn ps PEnd) m.
Proof.
  intros R S. inversion R as [| |? ? R1 R2 R3]; subst.
  destruct (tsteps_run _ _ _ _ S) as [_ E].
  - constructor; [|now apply FOP_map|constructor]. rewrite Forall_map. eapply Forall_impl; [|exact R1]. intros; now constructor.
  - cbn [trun run_seq] in *. rewrite trun_map in E. rewrite <- E. clear. revert m'. induction ps as [|p l IH]; intros m'; cbn; auto.
Qed.

(** ** Sequencing *)
Lemma papp_run p q m : run_seq (papp p q) m = run_seq q (run_seq p m).
Proof. revert m. induction p as [|a k IH|bs k Hb IH] using prog_nind; intros m; cbn; auto. Qed.
Lemma papp_act p q : actions (papp p q) = actions p ++ actions q.
Proof. induction p as [|a k IH|bs k Hb IH] using prog_nind; cbn; auto; rewrite IH; auto. now rewrite app_assoc. Qed.
Lemma papp_rf p q : race_free p -> race_free q -> race_free (papp p q).
Proof.
  induction p as [|a k IH|bs k Hb IH] using prog_nind; intros H1 H2; cbn; auto; inversion H1; subst; constructor; auto.
Qed.
