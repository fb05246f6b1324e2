(** * Wisdom storage: properties C10 - C13 at the level of one table *)
From Coq Require Import ZArith List Lia Bool Permutation.
From Verif Require Import Base SpecWisdom HashModel HashProofs.
Import ListNotations.
Open Scope Z_scope.

(** ** specification of bits and of the C predicates *)
Lemma LEQ_subset x y : LEQ x y = true <-> subset x y.
Proof.
  unfold LEQ, subset. rewrite Z.eqb_eq. split.
  - intros E i H. rewrite <- E in H. rewrite Z.land_spec in H. now apply andb_true_iff in H as [_ H].
  - intros H. apply Z.bits_inj'. intros i _. rewrite Z.land_spec. specialize (H i). destruct (Z.testbit x i); [|reflexivity]. now rewrite H.
Qed.
Lemma subsumes_licenses s f n g : subsumes f n g = true <-> licenses (mkrec s (fl f) (fu f) (ftl f) n) (fl g) (fu g) (ftl g).
Proof.
  unfold subsumes, licenses, infeasible, INFEASIBLE_SLVNDX. cbn [rndx rl ru rtl].
  destruct (Z.eqb_spec n 4095) as [->|N]; cbn [negb].
  - rewrite andb_true_iff, LEQ_subset, Z.leb_le. split; [intros; right; auto|intros [[H _]|H]; [contradiction|apply H]].
  - rewrite andb_true_iff, !LEQ_subset. split; [intros; left; auto|intros [H|[H _]]; [apply H|contradiction]].
Qed.
Lemma matches_spec s f r : matches s f r = true <-> rkey r = s /\ licenses r (fl f) (fu f) (ftl f).
Proof.
  unfold matches. rewrite andb_true_iff, md5eq_iff. rewrite (subsumes_licenses (rkey r)). destruct r as [k a b c d]; cbn [rkey rndx rflags fl fu ftl rl ru rtl].
  split; intros [H1 H2]; auto.
Qed.
Lemma killed_spec s f n r : killed_by s f n r = true <-> supersedes (mkrec s (fl f) (fu f) (ftl f) n) r.
Proof.
  unfold killed_by, supersedes. rewrite andb_true_iff, md5eq_iff. rewrite (subsumes_licenses s). reflexivity.
Qed.

(** ** histories *)
Definition flags_of (r : record) : flags_t := mkfl (rl r) (ru r) (rtl r) false.
Definition step_op (o : wop) (ht : hashtab) : out hashtab :=
  match o with
  | Ins r => htab_insert ht (rkey r) (flags_of r) (rndx r)
  | Forget => mkhashtab
  end.
Fixpoint history (ops : list wop) (ht : hashtab) : out hashtab :=
  match ops with [] => Ret ht | o :: ops' => ht' <- step_op o ht;; history ops' ht' end.
Definition from_scratch (ops : list wop) : out hashtab := ht <- mkhashtab;; history ops ht.

Lemma history_app a : forall b ht, history (a ++ b) ht = (ht' <- history a ht;; history b ht').
Proof.
  induction a as [|o a IH]; intros b ht; cbn [history app]; [reflexivity|].
  destruct (step_op o ht); cbn [bind]; auto.
Qed.

Definition ndx_ok (ops : list wop) : Prop := forall r, In (Ins r) ops -> 0 <= rndx r < 4096.
Definition tab_spec (ops : list wop) (ht : hashtab) : Prop :=
  WF ht /\ (forall r, In r (records ht) <-> Holds ops r) /\ nelem ht <= Z.of_nat (length ops).

Lemma Holds_nil r : ~ Holds [] r.
Proof. intros H. inversion H; destruct ops; discriminate. Qed.
Lemma Holds_snoc ops o r : Holds (ops ++ [o]) r <-> match o with Ins r' => r = r' \/ (Holds ops r /\ ~ supersedes r' r) | Forget => False end.
Proof.
  split.
  - intros H. inversion H as [ops' r' E|ops' r1 r2 H1 H2 E].
    + apply app_inj_tail in E as [E1 E2]. subst. now left.
    + apply app_inj_tail in E as [E1 E2]. subst. now right.
  - destruct o as [r'|]; [|tauto]. intros [->|[H1 H2]]; [constructor|now constructor].
Qed.
Lemma filter_len {A} (f : A -> bool) l : (length (filter f l) <= length l)%nat.
Proof. induction l as [|x l IH]; cbn; auto. destruct (f x); cbn; lia. Qed.

Lemma history_spec ops : ndx_ok ops -> Z.of_nat (length ops) < 2 ^ 30 -> exists ht, from_scratch ops = Ret ht /\ tab_spec ops ht.
Proof.
  unfold from_scratch. destruct mkhashtab_ok as (ht0 & E0 & W0 & R0). rewrite E0. cbn [bind].
  induction ops as [|o ops IH] using rev_ind; intros Hn Hl.
  - exists ht0. split; [reflexivity|]. split; auto. split; [|rewrite (wf_nelem _ W0), R0; cbn; lia].
    intros r. rewrite R0. split; [intros []|intros H; now apply Holds_nil in H].
  - rewrite app_length in Hl. cbn [length] in Hl. destruct IH as (ht & E & W & R & N); [|lia|].
    + intros r Hr. apply Hn. apply in_or_app. now left.
    + rewrite history_app, E. cbn [bind history]. destruct o as [r|]; cbn [step_op].
      * destruct (htab_insert_ok ht (rkey r) (flags_of r) (rndx r) W) as (ht' & E' & W' & P'); [lia| |].
        { apply Hn. apply in_or_app. right. now left. }
        rewrite E'. cbn [bind]. exists ht'. split; [reflexivity|]. split; auto. split.
        -- intros x. rewrite Holds_snoc. rewrite (Permutation_in' eq_refl P'). cbn [In]. rewrite filter_In, negb_true_iff, R.
           replace (mkrec (rkey r) (fl (flags_of r)) (fu (flags_of r)) (ftl (flags_of r)) (rndx r)) with r by (destruct r; reflexivity).
           split; intros [H|[H1 H2]]; auto; right; split; auto.
           ++ intros S. assert (killed_by (rkey r) (flags_of r) (rndx r) x = true) as K.
              { apply killed_spec. destruct r; exact S. }
              congruence.
           ++ destruct (killed_by (rkey r) (flags_of r) (rndx r) x) eqn:K; auto. exfalso. apply H2. apply killed_spec in K. destruct r; exact K.
        -- rewrite (wf_nelem _ W'), (Permutation_length P'). cbn [length]. rewrite app_length. cbn [length].
           pose proof (filter_len (fun r0 => negb (killed_by (rkey r) (flags_of r) (rndx r) r0)) (records ht)). rewrite (wf_nelem _ W) in N. lia.
      * rewrite E0. cbn [bind]. exists ht0. split; [reflexivity|]. split; auto. split.
        -- intros x. rewrite Holds_snoc, R0. split; [intros []|intros []].
        -- rewrite (wf_nelem _ W0), R0. cbn [length]. lia.
Qed.

(** C12: whatever is stored and forgotten, in any order and however the
    signatures collide, every operation terminates without leaving the table,
    the element count is the number of live entries, there is always a free
    slot, and the table holds exactly the records its history says. *)
Theorem C12_table_holds_history : forall ops, ndx_ok ops -> Z.of_nat (length ops) < 2 ^ 30 ->
  exists ht, from_scratch ops = Ret ht /\
    (forall r, In r (records ht) <-> Holds ops r) /\
    nelem ht = Z.of_nat (length (records ht)) /\ nelem ht < hashsiz ht /\
    forall s f, exists r, htab_lookup ht s f = Ret r.
Proof.
  intros ops Hn Hl. destruct (history_spec ops Hn Hl) as (ht & E & W & R & N). exists ht. split; auto. split; auto.
  split; [apply (wf_nelem _ W)|]. split; [apply (wf_room _ W)|]. intros s f. destruct (htab_lookup_ok ht s f W) as (r & H & _). eauto.
Qed.

(** C10: a lookup answers only with a record of the history that was stored
    under exactly this signature, has not been superseded or forgotten, and
    licenses this use; among the usable ones none has strictly less impatience. *)
Theorem C10_lookup_sound : forall ops ht s f g l, ndx_ok ops -> Z.of_nat (length ops) < 2 ^ 30 -> from_scratch ops = Ret ht ->
  htab_lookup ht s f = Ret (Some (g, l)) ->
  let r := mkrec (skey l) (fl (sflags l)) (fu (sflags l)) (ftl (sflags l)) (sndx l) in
  In (Ins r) ops /\ Holds ops r /\ rkey r = s /\ licenses r (fl f) (fu f) (ftl f) /\
  forall r', Holds ops r' -> rkey r' = s -> licenses r' (fl f) (fu f) (ftl f) -> subset (ru r') (ru r) -> ru r' = ru r.
Proof.
  intros ops ht s f g l Hn Hl E H r. destruct (history_spec ops Hn Hl) as (ht' & E' & W & R & _). assert (ht' = ht) by congruence. subst ht'.
  destruct (htab_lookup_ok ht s f W) as (x & Hx & S). rewrite H in Hx. injection Hx as <-. destruct S as (Hg & El & Hi & M & Mn).
  change (rec_of l) with r in *. apply R in Hi as Hh. apply matches_spec in M as [M1 M2]. split; [|split; [|split; [|split]]]; auto.
  - clear -Hh. induction Hh as [ops r|ops r r' _ IH _]; apply in_or_app; [right; now left|now left].
  - intros r' H1 H2 H3 H4. apply Mn; [now apply R|now apply matches_spec|now apply LEQ_subset].
Qed.
(** ... and it answers when there is one *)
Theorem C10_lookup_complete : forall ops ht s f r, ndx_ok ops -> Z.of_nat (length ops) < 2 ^ 30 -> from_scratch ops = Ret ht ->
  Holds ops r -> rkey r = s -> licenses r (fl f) (fu f) (ftl f) ->
  exists g l, htab_lookup ht s f = Ret (Some (g, l)).
Proof.
  intros ops ht s f r Hn Hl E H Hk HL. destruct (history_spec ops Hn Hl) as (ht' & E' & W & R & _). assert (ht' = ht) by congruence. subst ht'.
  destruct (htab_lookup_ok ht s f W) as (x & Hx & S). destruct x as [[g l]|]; [eauto|]. exfalso.
  assert (matches s f r = true) as M by now apply matches_spec. rewrite S in M by now apply R. discriminate.
Qed.

(** ** C11 *)
Lemma licenses_self r : licenses r (rl r) (ru r) (rtl r).
Proof. unfold licenses, infeasible, subset. destruct (Z.eq_dec (rndx r) 4095); [right|left]; repeat split; auto. lia. Qed.
Lemma licenses_trans r r' l u tl : ~ infeasible r' -> licenses r' (rl r) (ru r) (rtl r) -> ~ infeasible r -> licenses r l u tl -> licenses r' l u tl.
Proof.
  intros F' [(_ & A & B)|(I & _)] F H; [|contradiction]. destruct H as [(_ & C & D)|(I & _)]; [|contradiction].
  left. split; auto. split; intros i Hi; auto.
Qed.
(** a record stays until superseded *)
Theorem C11_kept : forall ops1 r ops2,
  (forall r', In (Ins r') ops2 -> ~ supersedes r' r) -> ~ In Forget ops2 -> Holds (ops1 ++ Ins r :: ops2) r.
Proof.
  intros ops1 r ops2. induction ops2 as [|o ops2 IH] using rev_ind; intros H HF.
  - constructor.
  - replace (ops1 ++ Ins r :: ops2 ++ [o]) with ((ops1 ++ Ins r :: ops2) ++ [o]) by now rewrite <- app_assoc.
    destruct o as [r'|]; [|exfalso; apply HF, in_or_app; right; now left].
    constructor; [apply IH|].
    + intros x Hx. apply H, in_or_app. now left.
    + intros Hx. apply HF, in_or_app. now left.
    + apply H, in_or_app. right. now left.
Qed.
(** after a record has been stored, a lookup with its signature and its flags
    succeeds with a record that licenses the use, whatever plans are stored
    afterwards for any signatures, and whatever failures are stored for other
    signatures *)
Theorem C11_found_again : forall ops1 r ops2 ht,
  (forall r', In (Ins r') ops2 -> rkey r' = rkey r -> ~ infeasible r') -> ~ In Forget ops2 ->
  let ops := ops1 ++ Ins r :: ops2 in
  ndx_ok ops -> Z.of_nat (length ops) < 2 ^ 30 -> from_scratch ops = Ret ht ->
  exists g l, htab_lookup ht (rkey r) (flags_of r) = Ret (Some (g, l)) /\ skey l = rkey r /\
    licenses (rec_of l) (rl r) (ru r) (rtl r).
Proof.
  intros ops1 r ops2 ht Hf HF ops Hn Hl E.
  assert (exists x, Holds ops x /\ rkey x = rkey r /\ licenses x (rl r) (ru r) (rtl r) /\ (x = r \/ ~ infeasible x)) as (x & H1 & H2 & H3 & _).
  { subst ops. clear E Hn Hl. induction ops2 as [|o ops2 IH] using rev_ind.
    - exists r. split; [constructor|]. split; auto. split; [apply licenses_self|now left].
    - destruct IH as (x & H1 & H2 & H3 & H4).
      + intros y Hy. apply Hf, in_or_app. now left.
      + intros Hy. apply HF, in_or_app. now left.
      + replace (ops1 ++ Ins r :: ops2 ++ [o]) with ((ops1 ++ Ins r :: ops2) ++ [o]) by now rewrite <- app_assoc.
        destruct o as [r'|]; [|exfalso; apply HF, in_or_app; right; now left].
        destruct (killed_by (rkey r') (flags_of r') (rndx r') x) eqn:K.
        * apply killed_spec in K. assert (S : supersedes r' x) by (destruct r'; exact K).
          assert (F' : ~ infeasible r') by (apply Hf; [apply in_or_app; right; now left|destruct S as [Q _]; congruence]).
          exists r'. split; [constructor|]. destruct S as [Q S]. split; [congruence|]. split; [|now right].
          destruct H4 as [->|H4]; auto. eapply licenses_trans; eauto.
        * exists x. split; [constructor; auto|auto]. intros S. assert (killed_by (rkey r') (flags_of r') (rndx r') x = true) as Q.
          { apply killed_spec. destruct r'; exact S. } congruence. }
  destruct (C10_lookup_complete ops ht (rkey r) (flags_of r) x Hn Hl E H1 H2 H3) as (g & l & L).
  exists g, l. destruct (C10_lookup_sound ops ht (rkey r) (flags_of r) g l Hn Hl E L) as (_ & _ & Q1 & Q2 & _). auto.
Qed.
(** (the restriction on failures is needed: a later failure can supersede a
    plan that itself superseded the record) *)
Example C11_restriction_needed :
  let r := mkrec (mksig 1 2 3 4) 0 1 0 7 in let r' := mkrec (mksig 1 2 3 4) 1 1 0 8 in let r'' := mkrec (mksig 1 2 3 4) 1 1 0 4095 in
  (ht <- from_scratch [Ins r; Ins r'; Ins r''];; x <- htab_lookup ht (rkey r) (flags_of r);;
   Ret (match x with None => true | Some _ => false end)) = Ret true.
Proof. vm_compute. reflexivity. Qed.

(** C13 (table part): forgetting leaves nothing behind *)
Theorem C13_forget_all : forall ops ht s f, ndx_ok ops -> Z.of_nat (length ops) + 1 < 2 ^ 30 ->
  from_scratch (ops ++ [Forget]) = Ret ht -> records ht = [] /\ htab_lookup ht s f = Ret None.
Proof.
  intros ops ht s f Hn Hl E. destruct (history_spec (ops ++ [Forget])) as (ht' & E' & W & R & _).
  - intros r Hr. apply Hn. apply in_app_or in Hr as [Hr|[Hr|[]]]; auto. discriminate.
  - rewrite app_length. cbn [length]. lia.
  - assert (ht' = ht) by congruence. subst ht'.
    assert (Z0 : records ht = []). { destruct (records ht) as [|r l]; auto. exfalso. apply (Holds_snoc ops Forget r). apply R. now left. }
    split; auto. destruct (htab_lookup_ok ht s f W) as (x & Hx & S). destruct x as [[g l]|]; auto. destruct S as (_ & _ & Hi & _). rewrite Z0 in Hi. destruct Hi.
Qed.

(** non-vacuity: a history with a collision in the first hash word, a growth, a
    superseded record *)
Example C12_case :
  (ht <- from_scratch
    [Ins (mkrec (mksig 5 1 0 0) 0 3 0 1); Ins (mkrec (mksig 5 1 1 0) 0 3 0 2); Ins (mkrec (mksig 7 1 1 0) 0 3 0 3);
     Ins (mkrec (mksig 5 1 0 0) 1 1 0 4); Ins (mkrec (mksig 9 1 0 0) 1 1 0 4095)];;
   x <- htab_lookup ht (mksig 5 1 0 0) (mkfl 0 3 0 false);;
   Ret (length (records ht), match x with Some (_, l) => sndx l | None => -1 end)) = Ret (4%nat, 4).
Proof. vm_compute. reflexivity. Qed.

Print Assumptions C12_table_holds_history.
Print Assumptions C10_lookup_sound.
Print Assumptions C10_lookup_complete.
Print Assumptions C11_kept.
Print Assumptions C11_found_again.
Print Assumptions C13_forget_all.
