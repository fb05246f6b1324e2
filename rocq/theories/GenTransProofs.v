(** * Proofs about the network transposition *)
From Coq Require Import Reals ZArith List Bool Lia Permutation.
From Verif Require Import Cplx GenExpr GenCplx GenAlg GenAlgVars GenTrans.
Import ListNotations.
Open Scope nat_scope.

(** ** Linear expressions *)
(** does the expression load a variable that is not a constant (of the twiddle table)? *)
Fixpoint nonconst (e : expr) : bool :=
  match e with
  | Num _ | NaNI => false
  | Plus l => existsb nonconst l
  | Times a b | CTimes a b | CTimesJ a b => nonconst a || nonconst b
  | Uminus a => nonconst a
  | ELoad v => negb (var_is_constant v)
  | EStore _ _ => true
  end.
(** linear functions of the loaded values, written such that in each product the first factor is
    constant *)
Fixpoint lin (e : expr) : Prop :=
  match e with
  | Num a => a = 0%R
  | NaNI => False
  | Plus l => (fix go (l : list expr) : Prop := match l with [] => True | x :: r => lin x /\ go r end) l
  | Times a b | CTimes a b | CTimesJ a b => nonconst a = false /\ lin b
  | Uminus a => lin a
  | ELoad v => var_is_constant v = false
  | EStore _ _ => False
  end.
Lemma lin_Plus l : lin (Plus l) <-> forall x, In x l -> lin x.
Proof.
  cbn [lin]. induction l as [|a l IH]; [split; [intros _ x []|easy]|]. rewrite IH. split.
  - intros [A B] x [<-|Hx]; auto.
  - intros F. split; [apply F; now left|intros x Hx; apply F; now right].
Qed.
Section ExprInd.
  Variable P : expr -> Prop.
  Hypothesis HN : forall a, P (Num a).
  Hypothesis HI : P NaNI.
  Hypothesis HP : forall l, (forall x, In x l -> P x) -> P (Plus l).
  Hypothesis HT : forall a b, P a -> P b -> P (Times a b).
  Hypothesis HC : forall a b, P a -> P b -> P (CTimes a b).
  Hypothesis HJ : forall a b, P a -> P b -> P (CTimesJ a b).
  Hypothesis HU : forall a, P a -> P (Uminus a).
  Hypothesis HL : forall v, P (ELoad v).
  Hypothesis HS : forall v a, P a -> P (EStore v a).
  Fixpoint expr_indl (e : expr) : P e :=
    match e with
    | Num a => HN a
    | NaNI => HI
    | Plus l => HP l ((fix go (l : list expr) : forall x, In x l -> P x :=
        match l with
        | [] => fun x H => match H with end
        | a :: r => fun x H => match H with or_introl E => eq_ind a P (expr_indl a) x E | or_intror H => go r x H end
        end) l)
    | Times a b => HT a b (expr_indl a) (expr_indl b)
    | CTimes a b => HC a b (expr_indl a) (expr_indl b)
    | CTimesJ a b => HJ a b (expr_indl a) (expr_indl b)
    | Uminus a => HU a (expr_indl a)
    | ELoad v => HL v
    | EStore v a => HS v a (expr_indl a)
    end.
End ExprInd.
Lemma lsumE_lsum env l : lsumE env l = lsum l (eval env).
Proof. reflexivity. Qed.
Lemma lsum_zero {A} (l : list A) f : (forall x, In x l -> f x = C0) -> lsum l f = C0.
Proof. intros F. induction l as [|a l IH]; [reflexivity|]. unfold lsum in *. cbn. rewrite F by now left. rewrite IH by (intros; apply F; now right). ring. Qed.
Lemma lsum_cons {A} (a : A) l f : lsum (a :: l) f = (f a + lsum l f)%C. Proof. reflexivity. Qed.
Lemma lsum_add {A} (l : list A) f g : lsum l (fun x => f x + g x)%C = (lsum l f + lsum l g)%C.
Proof. induction l as [|a l IH]; [unfold lsum; cbn; ring|]. rewrite !lsum_cons, IH. ring. Qed.
Lemma lsum_scale {A} (l : list A) c f : lsum l (fun x => c * f x)%C = (c * lsum l f)%C.
Proof. induction l as [|a l IH]; [unfold lsum; cbn; ring|]. rewrite !lsum_cons, IH. ring. Qed.
Lemma lin_const_zero e : lin e -> nonconst e = false -> forall env, eval env e = C0.
Proof.
  induction e as [a| |l IH|a b _ IH|a b _ IH|a b _ IH|a IH|v|v a _] using expr_indl; intros L N env.
  - cbn in *. subst. reflexivity.
  - destruct L.
  - rewrite eval_Plus, lsumE_lsum. apply lsum_zero. intros x Hx. rewrite lin_Plus in L. apply IH; auto.
    cbn in N. destruct (nonconst x) eqn:E; auto. rewrite <- N. symmetry. apply existsb_exists. eauto.
  - cbn in *. destruct L as [_ L]. apply orb_false_iff in N. rewrite IH by tauto. ring.
  - cbn in *. destruct L as [_ L]. apply orb_false_iff in N. rewrite IH by tauto. ring.
  - cbn in *. destruct L as [_ L]. apply orb_false_iff in N. rewrite IH by tauto. ring.
  - cbn in *. rewrite IH by auto. ring.
  - cbn in *. rewrite L in N. discriminate.
  - destruct L.
Qed.
Definition same_consts (e1 e2 : variable -> C) : Prop := forall v, var_is_constant v = true -> e1 v = e2 v.
Lemma const_eval e1 e2 : same_consts e1 e2 -> forall e, nonconst e = false -> eval e1 e = eval e2 e.
Proof.
  intros S. induction e as [a| |l IH|a b IHa IHb|a b IHa IHb|a b IHa IHb|a IH|v|v a _] using expr_indl; intros N; try reflexivity.
  - rewrite !eval_Plus, !lsumE_lsum. apply lsum_ext. intros x Hx. apply IH; auto.
    cbn in N. destruct (nonconst x) eqn:E; auto. rewrite <- N. symmetry. apply existsb_exists. eauto.
  - cbn in *. apply orb_false_iff in N. rewrite IHa, IHb by tauto. reflexivity.
  - cbn in *. apply orb_false_iff in N. rewrite IHa, IHb by tauto. reflexivity.
  - cbn in *. apply orb_false_iff in N. rewrite IHa, IHb by tauto. reflexivity.
  - cbn in *. rewrite IH by auto. reflexivity.
  - cbn in *. apply S. now destruct (var_is_constant v).
  - discriminate N.
Qed.

(** ** Trees *)
Definition acyclic (H : heap) : Prop := forall i c, In c (children (H i)) -> c < i.
Section Heap.
  Variable H : heap.
  Hypothesis AC : acyclic H.
  Lemma treeF_eq f : forall i g, i < f -> i < g -> treeF H f i = treeF H g i.
  Proof.
    induction f as [|f IH]; intros i g Hf Hg; [lia|]. destruct g as [|g]; [lia|]. cbn [treeF].
    assert (K : forall c, In c (children (H i)) -> treeF H f c = treeF H g c).
    { intros c Hc. assert (c < i) by (apply AC; exact Hc). apply IH; lia. }
    destruct (H i) as [a| |l|a b|a b|a b|a|v|v a]; cbn in K; try reflexivity; try (rewrite !K by auto; reflexivity).
    f_equal. apply map_ext_in. exact K.
  Qed.
  Lemma tree_eq i : tree H i =
    match H i with
    | NNum a => Num a
    | NNaN => NaNI
    | NPlus l => Plus (map (tree H) l)
    | NTimes a b => Times (tree H a) (tree H b)
    | NCTimes a b => CTimes (tree H a) (tree H b)
    | NCTimesJ a b => CTimesJ (tree H a) (tree H b)
    | NUminus a => Uminus (tree H a)
    | NLoad v => ELoad v
    | NStore v a => EStore v (tree H a)
    end.
  Proof.
    unfold tree at 1. cbn [treeF].
    assert (K : forall c, In c (children (H i)) -> treeF H i c = tree H c).
    { intros c Hc. assert (c < i) by (apply AC; exact Hc). apply treeF_eq; lia. }
    destruct (H i) as [a| |l|a b|a b|a b|a|v|v a]; cbn in K; try reflexivity; try (rewrite !K by auto; reflexivity).
    f_equal. apply map_ext_in. exact K.
  Qed.

  (** ** visit *)
  Lemma mem_In n l : mem n l = true <-> In n l.
  Proof.
    unfold mem. rewrite existsb_exists. split.
    - intros (x & Hx & E). apply Nat.eqb_eq in E. now subst.
    - intros Hn. exists n. split; auto. apply Nat.eqb_refl.
  Qed.
  Lemma loop_spec n cs : forall t (T : list nat) (g : nat -> nat -> C), NoDup T -> incl cs T ->
    lsum T (fun c => lsum (loop n t cs c) (fun q => g q c)) = (lsum T (fun c => lsum (t c) (fun q => g q c)) + lsum cs (g n))%C.
  Proof.
    induction cs as [|a cs IH]; intros t T g ND I; cbn [loop fold_left].
    - replace (lsum [] (g n)) with C0 by reflexivity. ring.
    - change (fold_left (add_parent n) cs (add_parent n t a)) with (loop n (add_parent n t a) cs).
      rewrite IH; [|exact ND|intros x Hx; apply I; now right]. rewrite lsum_cons.
      enough (E : lsum T (fun c => lsum (add_parent n t a c) (fun q => g q c)) = (lsum T (fun c => lsum (t c) (fun q => g q c)) + g n a)%C) by (rewrite E; ring).
      assert (Ha : In a T) by (apply I; now left). clear IH I cs.
      induction T as [|b T IHT]; [destruct Ha|]. rewrite !lsum_cons. inversion ND as [|? ? N1 N2]; subst.
      destruct (Nat.eq_dec b a) as [->|Ne].
      + unfold add_parent at 1. rewrite Nat.eqb_refl, lsum_cons.
        rewrite (lsum_ext T _ (fun c => lsum (t c) (fun q => g q c))).
        * ring.
        * intros c Hc. unfold add_parent. replace (c =? a) with false; auto. symmetry. apply Nat.eqb_neq. congruence.
      + rewrite IHT; [|auto|destruct Ha; [congruence|auto]]. unfold add_parent at 1. replace (b =? a) with false by (symmetry; apply Nat.eqb_neq; auto). ring.
  Qed.
  Lemma loop_in n cs : forall t c q, In q (loop n t cs c) <-> In q (t c) \/ (q = n /\ In c cs).
  Proof.
    induction cs as [|a cs IH]; intros t c q; cbn [loop fold_left].
    - cbn. tauto.
    - change (fold_left (add_parent n) cs (add_parent n t a)) with (loop n (add_parent n t a) cs). rewrite IH. unfold add_parent. cbn [In].
      destruct (c =? a) eqn:E.
      + apply Nat.eqb_eq in E. subst. cbn. intuition congruence.
      + apply Nat.eqb_neq in E. intuition congruence.
  Qed.
  Inductive reach (roots : list nat) : nat -> Prop :=
  | reach_root r : In r roots -> reach roots r
  | reach_child p c : reach roots p -> In c (children (H p)) -> reach roots c.
  (** what a complete visit returns *)
  Record visited_ok (roots S : list nat) (pt : ptable) : Prop := {
    vo_nd : NoDup S;
    vo_reach : forall n, In n S <-> reach roots n;
    vo_pt : forall c q, In q (pt c) <-> In q S /\ In c (children (H q));
    vo_sum : forall T (g : nat -> nat -> C), NoDup T -> (forall p c, In p S -> In c (children (H p)) -> In c T) ->
      lsum S (fun p => lsum (children (H p)) (g p)) = lsum T (fun c => lsum (pt c) (fun q => g q c))
  }.
  Lemma visit_ok roots f : forall S pt work S' pt',
    visit H f S pt work = Some (S', pt') ->
    NoDup S -> (forall n, In n S -> reach roots n) -> (forall n, In n work -> reach roots n) ->
    (forall p c, In p S -> In c (children (H p)) -> In c S \/ In c work) ->
    (forall r, In r roots -> In r S \/ In r work) ->
    (forall c q, In q (pt c) <-> In q S /\ In c (children (H q))) ->
    (forall T (g : nat -> nat -> C), NoDup T -> (forall p c, In p S -> In c (children (H p)) -> In c T) ->
      lsum S (fun p => lsum (children (H p)) (g p)) = lsum T (fun c => lsum (pt c) (fun q => g q c))) ->
    visited_ok roots S' pt'.
  Proof.
    induction f as [|f IH]; intros S pt work S' pt' E ND R1 R2 CL RT PT SU.
    - destruct work as [|n work]; [|discriminate]. injection E as <- <-.
      constructor; auto. intros n. split; [auto|]. induction 1 as [r Hr|p c Hp IHp Hc].
      + destruct (RT r Hr) as [|[]]; auto.
      + destruct (CL p c IHp Hc) as [|[]]; auto.
    - destruct work as [|n work]; cbn [visit] in E.
      { injection E as <- <-.
        constructor; auto. intros n. split; [auto|]. induction 1 as [r Hr|p c Hp IHp Hc].
        + destruct (RT r Hr) as [|[]]; auto.
        + destruct (CL p c IHp Hc) as [|[]]; auto. }
      destruct (mem n S) eqn:M.
      + apply mem_In in M. refine (IH _ _ _ _ _ E ND R1 _ _ _ PT SU).
        * intros m Hm. apply R2. now right.
        * intros p c Hp Hc. destruct (CL p c Hp Hc) as [|[<-|]]; auto.
        * intros r Hr. destruct (RT r Hr) as [|[<-|]]; auto.
      + assert (M' : ~ In n S) by (rewrite <- mem_In, M; discriminate).
        refine (IH _ _ _ _ _ E _ _ _ _ _ _ _).
        * constructor; auto.
        * intros m [<-|Hm]; auto. apply R2. now left.
        * intros m Hm. apply in_app_iff in Hm. destruct Hm as [Hm|Hm]; [|apply R2; now right].
          apply reach_child with n; auto. apply R2. now left.
        * intros p c [<-|Hp] Hc; [right; apply in_app_iff; now left|].
          destruct (CL p c Hp Hc) as [|[<-|]]; [left; now right|left; now left|right; apply in_app_iff; now right].
        * intros r Hr. destruct (RT r Hr) as [|[<-|]]; [left; now right|left; now left|right; apply in_app_iff; now right].
        * intros c q. rewrite loop_in, PT. cbn [In]. split; [intros [[A B]|[-> B]]|intros [[<-|A] B]]; auto.
        * intros T g NT IT. rewrite loop_spec; [|exact NT|intros c Hc; apply (IT n); [now left|exact Hc]].
          rewrite lsum_cons, <- (SU T g NT); [ring|]. intros p c Hp. apply IT. now right.
  Qed.
  Lemma visit_roots roots f S pt : visit H f [] (fun _ => []) roots = Some (S, pt) -> visited_ok roots S pt.
  Proof.
    intros E. refine (visit_ok roots f _ _ _ _ _ E _ _ _ _ _ _ _).
    - constructor.
    - intros n [].
    - intros n Hn. now apply reach_root.
    - intros p c [].
    - auto.
    - cbn. tauto.
    - intros T g _ _. cbn. symmetry. apply lsum_zero. reflexivity.
  Qed.
  (** the visit ends *)
  Fixpoint unvisited (N : nat) (S : list nat) : nat :=
    match N with
    | O => O
    | Datatypes.S i => (if mem i S then 0 else length (children (H i))) + unvisited i S
    end.
  Lemma unvisited_out N n S : N <= n -> unvisited N (n :: S) = unvisited N S.
  Proof.
    induction N as [|i IH]; intros L; [reflexivity|]. cbn [unvisited]. rewrite IH by lia. cbn [mem existsb].
    replace (i =? n) with false by (symmetry; apply Nat.eqb_neq; lia). reflexivity.
  Qed.
  Lemma unvisited_step N n S : n < N -> mem n S = false -> unvisited N S = length (children (H n)) + unvisited N (n :: S).
  Proof.
    induction N as [|i IH]; intros L M; [lia|]. cbn [unvisited]. destruct (Nat.eq_dec n i) as [->|Ne].
    - rewrite M, unvisited_out by lia. cbn [mem existsb]. rewrite Nat.eqb_refl. cbn. reflexivity.
    - rewrite IH by (auto; lia). cbn [mem existsb]. replace (i =? n) with false by (symmetry; apply Nat.eqb_neq; auto).
      cbn [orb]. unfold mem. lia.
  Qed.
  Lemma visit_ends N f : forall S pt work, (forall n, In n work -> n < N) -> unvisited N S + length work <= f ->
    exists r, visit H f S pt work = Some r.
  Proof.
    induction f as [|f IH]; intros S pt [|n work] B L; cbn [visit]; try (eexists; reflexivity).
    - cbn in L. lia.
    - destruct (mem n S) eqn:M.
      + apply IH; [intros m Hm; apply B; now right|cbn in L; lia].
      + assert (n < N) by (apply B; now left). apply IH.
        * intros m Hm. apply in_app_iff in Hm. destruct Hm as [Hm|Hm]; [|apply B; now right]. apply AC in Hm. lia.
        * rewrite app_length. rewrite (unvisited_step N n S) in L by auto. cbn [length] in L. lia.
  Qed.
End Heap.

(** ** The duals *)
Section Dual.
  Variable pheq : expr -> expr -> bool.
  Hypothesis pheq_eq : forall a b, pheq a b = true -> a = b.
  Variable H : heap.
  Hypothesis AC : acyclic H.
  Variable pt : ptable.

  Definition ob (o : option expr) (f : expr -> expr) : option (list expr) := match o with Some x => Some [f x] | None => None end.
  Definition termD (d : nat -> option expr) (this p : nat) : option (list expr) :=
    match H p with
    | NStore _ n => if n =? this then ob (d p) (fun x => x) else Some []
    | NPlus l => if mem this l then ob (d p) (fun x => x) else Some []
    | NTimes a b => if b =? this then ob (d p) (makeTimes (tree H a)) else Some []
    | NCTimes a b => if b =? this then ob (d p) (CTimes (tree H a)) else Some []
    | NCTimesJ a b => if b =? this then ob (d p) (CTimesJ (tree H a)) else Some []
    | NUminus n => if n =? this then ob (d p) makeUminus else Some []
    | _ => Some []
    end.
  Definition exprD (d : nat -> option expr) (this : nat) : option expr :=
    match pt this with
    | [] => None
    | ps => match omapM (termD d this) ps with Some l => Some (makePlus pheq (concat l)) | None => None end
    end.
  Definition stepD (d : nat -> option expr) (this : nat) : option expr :=
    match H this with
    | NLoad v => if var_is_constant v then Some (ELoad v) else match exprD d this with Some x => Some (EStore v x) | None => None end
    | NStore v _ => Some (ELoad v)
    | _ => exprD d this
    end.
  Lemma dualM_step f n : dualM pheq H pt (S f) n = stepD (dualM pheq H pt f) n.
  Proof. reflexivity. Qed.
  Lemma omapM_ext {A B} (f g : A -> option B) l : (forall x, In x l -> f x = g x) -> omapM f l = omapM g l.
  Proof. induction l as [|a l IH]; intros E; [reflexivity|]. cbn. rewrite E by now left. rewrite IH by (intros; apply E; now right). reflexivity. Qed.
  Lemma omapM_some {A B} (f : A -> option B) l : (forall x, In x l -> exists y, f x = Some y) -> exists r, omapM f l = Some r.
  Proof.
    induction l as [|a l IH]; intros E; [now eexists|]. destruct (E a) as (y & Ey); [now left|]. destruct IH as (r & Er); [intros; apply E; now right|].
    exists (y :: r). cbn. now rewrite Ey, Er.
  Qed.
  Lemma termD_ext d d' this p : d p = d' p -> termD d this p = termD d' this p.
  Proof. intros E. unfold termD. rewrite E. reflexivity. Qed.

  Variable roots : list nat.
  Variable Sv : list nat.
  Hypothesis VO : visited_ok H roots Sv pt.
  (** the roots are different stores of linear functions *)
  Hypothesis RN : NoDup roots.
  Hypothesis RL : forall r, In r roots -> exists v x, H r = NStore v x /\ lin (tree H x).
  Variable N : nat.
  Hypothesis BN : forall r, In r roots -> r < N.

  Lemma reach_lt n : reach H roots n -> n < N.
  Proof. induction 1 as [r Hr|p c Hp IHp Hc]; [auto|]. apply AC in Hc. lia. Qed.
  Lemma pt_gt c p : In p (pt c) -> c < p /\ p < N /\ In p Sv /\ In c (children (H p)).
  Proof.
    intros Hp. apply (vo_pt _ _ _ _ VO) in Hp. destruct Hp as [A B]. split; [apply AC; exact B|]. split; [|auto].
    apply reach_lt. now apply (vo_reach _ _ _ _ VO).
  Qed.
  Lemma dual_irrel f : forall g n, n < N -> N - n <= f -> N - n <= g -> dualM pheq H pt f n = dualM pheq H pt g n.
  Proof.
    induction f as [|f IH]; intros g n L Hf Hg; [lia|]. destruct g as [|g]; [lia|]. rewrite !dualM_step.
    assert (K : exprD (dualM pheq H pt f) n = exprD (dualM pheq H pt g) n).
    { unfold exprD. destruct (pt n) as [|p ps] eqn:E; [reflexivity|]. rewrite (omapM_ext _ (termD (dualM pheq H pt g) n)); [reflexivity|].
      intros q Hq. apply termD_ext. rewrite <- E in Hq. apply pt_gt in Hq. apply IH; lia. }
    unfold stepD. rewrite K. reflexivity.
  Qed.
  Definition dual (n : nat) : option expr := dualM pheq H pt N n.
  Lemma dual_eq n : n < N -> dual n = stepD dual n.
  Proof.
    intros L. unfold dual. rewrite (dual_irrel N (S N) n) by lia. rewrite dualM_step.
    assert (K : exprD (dualM pheq H pt N) n = exprD dual n).
    { unfold exprD. destruct (pt n) as [|p ps] eqn:E; [reflexivity|]. rewrite (omapM_ext _ (termD dual n)); reflexivity. }
    reflexivity.
  Qed.

  (** *** the kinds of nodes *)
  Definition isst (n : nat) : bool := match H n with NStore _ _ => true | _ => false end.
  Definition nc (n : nat) : bool := nonconst (tree H n).
  Lemma const_child p c : nc p = false -> In c (children (H p)) -> nc c = false.
  Proof.
    unfold nc. rewrite (tree_eq H AC p). destruct (H p) as [a| |l|a b|a b|a b|a|v|v a]; cbn [nonconst children In]; intros F Hc; try contradiction; try discriminate.
    - destruct (nonconst (tree H c)) eqn:E; auto. rewrite <- F. symmetry. apply existsb_exists. exists (tree H c). split; auto. now apply in_map.
    - apply orb_false_iff in F. destruct Hc as [<-|[<-|[]]]; tauto.
    - apply orb_false_iff in F. destruct Hc as [<-|[<-|[]]]; tauto.
    - apply orb_false_iff in F. destruct Hc as [<-|[<-|[]]]; tauto.
    - destruct Hc as [<-|[]]; tauto.
  Qed.
  Lemma lin_child p c : lin (tree H p) -> In c (children (H p)) -> lin (tree H c) \/ nc c = false.
  Proof.
    unfold nc. rewrite (tree_eq H AC p). destruct (H p) as [a| |l|a b|a b|a b|a|v|v a]; intros F Hc; try contradiction.
    - left. rewrite lin_Plus in F. apply F. now apply in_map.
    - cbn [lin children In] in F, Hc. destruct Hc as [<-|[<-|[]]]; tauto.
    - cbn [lin children In] in F, Hc. destruct Hc as [<-|[<-|[]]]; tauto.
    - cbn [lin children In] in F, Hc. destruct Hc as [<-|[<-|[]]]; tauto.
    - cbn [lin children In] in F, Hc. destruct Hc as [<-|[]]; tauto.
  Qed.
  Lemma kind n : reach H roots n -> In n roots \/ lin (tree H n) \/ nc n = false.
  Proof.
    induction 1 as [r Hr|p c Hp IHp Hc]; [auto|]. destruct IHp as [Hr|[L|C]].
    - destruct (RL p Hr) as (v & x & E & L). rewrite E in Hc. destruct Hc as [<-|[]]. auto.
    - right. eapply lin_child; eauto.
    - right. right. eapply const_child; eauto.
  Qed.
  Lemma child_kind p c : reach H roots p -> In c (children (H p)) -> lin (tree H c) \/ nc c = false.
  Proof.
    intros Hp Hc. destruct (kind p Hp) as [Hr|[L|C]].
    - destruct (RL p Hr) as (v & x & E & L). rewrite E in Hc. destruct Hc as [<-|[]]. auto.
    - eapply lin_child; eauto.
    - right. eapply const_child; eauto.
  Qed.
  Lemma store_root n : reach H roots n -> isst n = true -> In n roots.
  Proof.
    intros R I. destruct (kind n R) as [Hr|[L|C]]; auto; exfalso; unfold isst, nc in *; rewrite (tree_eq H AC n) in *;
     destruct (H n); try discriminate; cbn in *; try discriminate; contradiction.
  Qed.
  Lemma root_store n : In n roots -> isst n = true.
  Proof. intros Hr. destruct (RL n Hr) as (v & x & E & L). unfold isst. now rewrite E. Qed.
  Lemma store_pt n : isst n = true -> pt n = [].
  Proof.
    intros I. destruct (pt n) as [|p ps] eqn:E; auto. assert (Hp : In p (pt n)) by (rewrite E; now left). apply pt_gt in Hp.
    destruct Hp as (_ & _ & Hs & Hc). apply (vo_reach _ _ _ _ VO) in Hs. destruct (child_kind _ _ Hs Hc) as [L|C]; exfalso; unfold isst, nc in *; rewrite (tree_eq H AC n) in *;
     destruct (H n); try discriminate; cbn in *; try discriminate; contradiction.
  Qed.
  Lemma nonstore_pt n : In n Sv -> isst n = false -> pt n <> [].
  Proof.
    intros Hn I. assert (R := proj1 (vo_reach _ _ _ _ VO n) Hn). destruct R as [r Hr|p c Hp Hc].
    - rewrite (root_store r Hr) in I. discriminate.
    - intros E. assert (Q : In p (pt c)) by (apply (vo_pt _ _ _ _ VO); split; [now apply (vo_reach _ _ _ _ VO)|auto]). rewrite E in Q. destruct Q.
  Qed.
  (** *** all duals exist *)
  Lemma dual_some k : forall n, In n Sv -> N - n <= k -> exists e, dual n = Some e.
  Proof.
    induction k as [|k IH]; intros n Hn Hk; assert (L : n < N) by (apply reach_lt; now apply (vo_reach _ _ _ _ VO)); [lia|].
    rewrite dual_eq by exact L.
    assert (K : isst n = false -> exists e, exprD dual n = Some e).
    { intros I. apply nonstore_pt in I; auto. unfold exprD.
      assert (O : exists l, omapM (termD dual n) (pt n) = Some l).
      { apply omapM_some. intros p Hp. apply pt_gt in Hp. destruct Hp as (A & B & C & D). destruct (IH p C) as (e & Ee); [lia|].
        unfold termD. destruct (H p); try (eexists; reflexivity); match goal with |- context [if ?b then _ else _] => destruct b end; try (eexists; reflexivity); rewrite Ee; eexists; reflexivity. }
      destruct (pt n) as [|q qs]; [congruence|]. destruct O as (l & ->). eexists; reflexivity. }
    unfold stepD, isst in *. destruct (H n); try (apply K; reflexivity).
    - destruct (var_is_constant v); [eexists; reflexivity|]. destruct K as (e & ->); [reflexivity|]. eexists; reflexivity.
    - eexists; reflexivity.
  Qed.
  Lemma dual_ex n : In n Sv -> exists e, dual n = Some e.
  Proof. intros Hn. apply (dual_some (N - n)); auto. Qed.

  (** *** values *)
  Variables e1 e2 : variable -> C.
  Hypothesis SC : same_consts e1 e2.
  Definition D (n : nat) : C := match dual n with Some e => eval e2 e | None => C0 end.
  Definition V (n : nat) : C := eval e1 (tree H n).
  Definition wt (p c : nat) : C :=
    match H p with
    | NStore _ n => if n =? c then C1 else C0
    | NPlus l => if mem c l then C1 else C0
    | NTimes a b => if b =? c then eval e2 (tree H a) else C0
    | NCTimes a b => if b =? c then eval e2 (tree H a) else C0
    | NCTimesJ a b => if b =? c then Cplx.conj (eval e2 (tree H a)) else C0
    | NUminus n => if n =? c then (- C1)%C else C0
    | _ => C0
    end.
  Lemma lsumE_nil env : lsumE env [] = C0. Proof. reflexivity. Qed.
  Lemma lsumE_one env x : lsumE env [x] = eval env x. Proof. cbn. ring. Qed.
  Lemma lsumE_app env a b : lsumE env (a ++ b) = (lsumE env a + lsumE env b)%C.
  Proof. rewrite !lsumE_lsum. apply lsum_app. Qed.
  Lemma termD_val this p l : In p Sv -> termD dual this p = Some l -> lsumE e2 l = (wt p this * D p)%C.
  Proof.
    intros Hp. destruct (dual_ex p Hp) as (e & Ee). unfold termD, wt, D. rewrite Ee. unfold ob.
    destruct (H p); intros E; try (injection E as <-; rewrite lsumE_nil; ring);
     match type of E with context [if ?b then _ else _] => destruct b end; injection E as <-; try (rewrite lsumE_nil; ring); rewrite lsumE_one; cbn [eval]; try ring.
    - rewrite eval_makeTimes. ring.
    - rewrite eval_makeUminus. ring.
  Qed.
  Lemma exprD_val n e : exprD dual n = Some e -> eval e2 e = lsum (pt n) (fun p => wt p n * D p)%C.
  Proof.
    unfold exprD. assert (In' : forall p, In p (pt n) -> In p Sv) by (intros p Hp; now apply pt_gt in Hp). intros E.
    assert (E' : match omapM (termD dual n) (pt n) with Some l => Some (makePlus pheq (concat l)) | None => None end = Some e) by (destruct (pt n); [discriminate|exact E]).
    clear E. revert E'. destruct (omapM (termD dual n) (pt n)) as [l|] eqn:O; [|discriminate]. intros E. injection E as <-. rewrite eval_makePlus by exact pheq_eq.
    revert l O. induction (pt n) as [|p ps IH]; intros l O; cbn [omapM] in O.
    - injection O as <-. reflexivity.
    - destruct (termD dual n p) as [lp|] eqn:T; [|discriminate]. destruct (omapM (termD dual n) ps) as [r|] eqn:Q; [|discriminate]. injection O as <-.
      cbn [concat]. rewrite lsumE_app, lsum_cons, (IH (fun q Hq => In' q (or_intror Hq)) r eq_refl), (termD_val n p lp) by (auto; apply In'; now left). reflexivity.
  Qed.
  Lemma dual_val n : In n Sv -> isst n = false -> nc n = true -> D n = lsum (pt n) (fun p => wt p n * D p)%C.
  Proof.
    intros Hn I C. unfold D at 1. destruct (dual_ex n Hn) as (e & Ee). rewrite Ee. rewrite dual_eq in Ee by (apply reach_lt; now apply (vo_reach _ _ _ _ VO)).
    unfold stepD, isst, nc in *. rewrite (tree_eq H AC n) in C. destruct (H n) eqn:Hh; try (now apply exprD_val); try discriminate.
    cbn in C. destruct (var_is_constant v); [discriminate|]. destruct (exprD dual n) as [x|] eqn:X; [|discriminate]. injection Ee as <-. cbn [eval]. now apply exprD_val.
  Qed.
  Lemma V_val p : reach H roots p -> (isst p = true \/ nc p = true) -> children (H p) <> [] ->
    V p = lsum (children (H p)) (fun c => if nc c then wt p c * V c else C0)%C.
  Proof.
    intros R K NE. unfold V at 1.
    assert (LK : lin (tree H p) \/ In p roots).
    { destruct (kind p R) as [?|[?|C]]; auto. destruct K as [I|K]; [|congruence]. right. now apply store_root. }
    assert (Z : forall c, lin (tree H c) -> nc c = false -> V c = C0) by (intros c A B; unfold V; now apply lin_const_zero).
    unfold wt. destruct LK as [L|Hr].
    - rewrite (tree_eq H AC p) in *. destruct (H p) as [a| |l|a b|a b|a b|a|v|v a]; cbn [children] in *; try congruence.
      + rewrite eval_Plus, lsumE_lsum, lsum_map. apply lsum_ext. intros c Hc. rewrite lin_Plus in L.
        replace (mem c l) with true by (symmetry; now apply mem_In). destruct (nc c) eqn:Nc; [unfold V; ring|]. apply Z; auto. apply L. now apply in_map.
      + destruct L as [A L]. rewrite !lsum_cons. replace (nc a) with false by (symmetry; exact A). rewrite Nat.eqb_refl. cbn [eval lsum fold_right]. fold (V b). rewrite (const_eval e1 e2 SC _ A).
        destruct (nc b) eqn:Nc; [ring|]. rewrite (Z b) by auto. ring.
      + destruct L as [A L]. rewrite !lsum_cons. replace (nc a) with false by (symmetry; exact A). rewrite Nat.eqb_refl. cbn [eval lsum fold_right]. fold (V b). rewrite (const_eval e1 e2 SC _ A).
        destruct (nc b) eqn:Nc; [ring|]. rewrite (Z b) by auto. ring.
      + destruct L as [A L]. rewrite !lsum_cons. replace (nc a) with false by (symmetry; exact A). rewrite Nat.eqb_refl. cbn [eval lsum fold_right]. fold (V b). rewrite (const_eval e1 e2 SC _ A).
        destruct (nc b) eqn:Nc; [ring|]. rewrite (Z b) by auto. ring.
      + rewrite !lsum_cons, Nat.eqb_refl. cbn [eval lsum fold_right]. fold (V a). cbn [lin] in L. destruct (nc a) eqn:Nc; [ring|]. rewrite (Z a) by auto. ring.
      + destruct L.
    - destruct (RL p Hr) as (v & x & E & L). rewrite (tree_eq H AC p), E in *. cbn [children eval]. rewrite lsum_cons, Nat.eqb_refl. fold (V x). cbn [lsum fold_right].
      destruct (nc x) eqn:Nc; [ring|]. rewrite (Z x) by auto. ring.
  Qed.
  Definition isld (n : nat) : bool := match H n with NLoad v => negb (var_is_constant v) | _ => false end.
  Lemma kids_in c : forall p, In p Sv -> In c (children (H p)) -> In c Sv.
  Proof. intros p Hp Hc. apply (vo_reach _ _ _ _ VO). apply reach_child with p; auto. now apply (vo_reach _ _ _ _ VO). Qed.
  (** the heart: exchanging the order of summation over the edges *)
  Lemma balance : lsum Sv (fun n => if isst n then D n * V n else C0)%C = lsum Sv (fun n => if isld n then D n * V n else C0)%C.
  Proof.
    assert (Q := vo_sum _ _ _ _ VO Sv (fun p c => if nc c then D p * wt p c * V c else C0)%C (vo_nd _ _ _ _ VO) (fun p c Hp Hc => kids_in c p Hp Hc)).
    assert (QL : lsum Sv (fun p => lsum (children (H p)) (fun c => if nc c then D p * wt p c * V c else C0)%C) =
       lsum Sv (fun n => (if isst n then D n * V n else C0) + (if nc n && negb (isst n) && negb (isld n) then D n * V n else C0))%C).
    { apply lsum_ext. intros p Hp. assert (R : reach H roots p) by now apply (vo_reach _ _ _ _ VO).
      assert (S1 : lsum (children (H p)) (fun c => if nc c then D p * wt p c * V c else C0)%C = (D p * lsum (children (H p)) (fun c => if nc c then wt p c * V c else C0))%C).
      { rewrite <- lsum_scale. apply lsum_ext. intros c _. destruct (nc c); ring. }
      rewrite S1. destruct (isst p) eqn:I.
      - replace (nc p && negb true && negb (isld p)) with false by (destruct (nc p); reflexivity). rewrite <- V_val; [ring|auto|auto|]. unfold isst in I. destruct (H p); discriminate.
      - destruct (nc p) eqn:C.
        + cbn [negb andb]. destruct (isld p) eqn:Ld.
          * unfold isld in Ld. destruct (H p); try discriminate. cbn. ring.
          * cbn [negb]. destruct (children (H p)) as [|c cs] eqn:Ch; [|rewrite <- Ch, <- V_val; [ring|auto|auto|rewrite Ch; discriminate]].
            assert (VP : V p = C0).
            { unfold V. unfold isst, isld, nc in *. rewrite (tree_eq H AC p) in *. destruct (H p); cbn in *; try discriminate.
              - subst. reflexivity.
              - rewrite C in Ld. discriminate. }
            rewrite VP. unfold lsum. cbn [fold_right andb negb]. ring.
        + cbn [andb]. rewrite lsum_zero; [ring|]. intros c Hc. now rewrite (const_child p c C Hc). }
    assert (QR : lsum Sv (fun c => lsum (pt c) (fun q => if nc c then D q * wt q c * V c else C0)%C) =
       lsum Sv (fun n => (if isld n then D n * V n else C0) + (if nc n && negb (isst n) && negb (isld n) then D n * V n else C0))%C).
    { apply lsum_ext. intros c Hc. destruct (isst c) eqn:I.
      - rewrite store_pt by exact I. replace (isld c) with false by (unfold isld, isst in *; destruct (H c); auto; discriminate). rewrite andb_false_r. cbn. ring.
      - destruct (nc c) eqn:C.
        + assert (S1 : lsum (pt c) (fun q => D q * wt q c * V c)%C = (V c * D c)%C).
          { rewrite (dual_val c) by auto. rewrite <- lsum_scale. apply lsum_ext. intros q _. ring. }
          rewrite S1. cbn [negb andb]. destruct (isld c); cbn [negb]; ring.
        + replace (isld c) with false.
          * cbn. rewrite lsum_zero by reflexivity. ring.
          * unfold nc, isld in *. rewrite (tree_eq H AC c) in C. destruct (H c); auto. }
    cbv beta in Q. rewrite QL, QR, !lsum_add in Q.
    set (m := lsum Sv (fun n => if nc n && negb (isst n) && negb (isld n) then D n * V n else C0)%C) in Q.
    apply (f_equal (fun z => z - m)%C) in Q.
    match type of Q with (?a + m - m = ?b + m - m)%C => transitivity (a + m - m)%C; [ring|]; rewrite Q; ring end.
  Qed.
End Dual.

(** ** The result *)
Lemma dualM_mono pheq H pt f : forall g n e, f <= g -> dualM pheq H pt f n = Some e -> dualM pheq H pt g n = Some e.
Proof.
  induction f as [|f IH]; intros g n e L E; [discriminate|]. destruct g as [|g]; [lia|]. rewrite dualM_step in *.
  assert (T : forall p l, termD H (dualM pheq H pt f) n p = Some l -> termD H (dualM pheq H pt g) n p = Some l).
  { intros p l. unfold termD, ob. destruct (H p); auto; match goal with |- context [if ?b then _ else _] => destruct b end; auto;
     destruct (dualM pheq H pt f p) as [y|] eqn:Y; try discriminate; rewrite (IH g p y) by (auto; lia); auto. }
  assert (O : forall ps l, omapM (termD H (dualM pheq H pt f) n) ps = Some l -> omapM (termD H (dualM pheq H pt g) n) ps = Some l).
  { induction ps as [|p ps IHp]; intros l; cbn [omapM]; auto. destruct (termD H (dualM pheq H pt f) n p) as [y|] eqn:Y; [|discriminate]. rewrite (T p y Y).
    destruct (omapM (termD H (dualM pheq H pt f) n) ps) as [r|]; [|discriminate]. rewrite (IHp r eq_refl). auto. }
  assert (X : forall x, exprD pheq H pt (dualM pheq H pt f) n = Some x -> exprD pheq H pt (dualM pheq H pt g) n = Some x).
  { intros x. unfold exprD. destruct (pt n) as [|p ps]; [discriminate|]. destruct (omapM (termD H (dualM pheq H pt f) n) (p :: ps)) as [r|] eqn:Y; [|discriminate]. rewrite (O _ _ Y). auto. }
  revert E. unfold stepD. destruct (H n); auto. destruct (var_is_constant v); auto.
  destruct (exprD pheq H pt (dualM pheq H pt f) n) as [x|] eqn:Y; [|discriminate]. rewrite (X x eq_refl). auto.
Qed.
Lemma omapM_In {A B} (f : A -> option B) l : forall r, omapM f l = Some r -> forall x, In x l -> exists y, f x = Some y.
Proof.
  induction l as [|a l IH]; intros r E x Hx; [destruct Hx|]. cbn in E. destruct (f a) as [b|] eqn:Fa; [|discriminate]. destruct (omapM f l) as [s|]; [|discriminate].
  destruct Hx as [<-|Hx]; eauto.
Qed.
Lemma omapM_mono {A B} (f g : A -> option B) l r : (forall x y, f x = Some y -> g x = Some y) -> omapM f l = Some r -> omapM g l = Some r.
Proof.
  intros M. revert r. induction l as [|a l IH]; intros r; cbn; auto. destruct (f a) as [b|] eqn:Fa; [|discriminate]. rewrite (M a b Fa).
  destruct (omapM f l) as [s|]; [|discriminate]. rewrite (IH s eq_refl). auto.
Qed.
(** the transposition makes no stores inside expressions *)
Lemma not_store_makeUminus e : is_store e = false -> (forall a, e = Uminus a -> is_store a = false) -> is_store (makeUminus e) = false.
Proof. intros A B. destruct e; cbn in *; auto. Qed.
(** no store below the root *)
Fixpoint nostore (e : expr) : bool :=
  match e with
  | Num _ | NaNI | ELoad _ => true
  | Plus l => forallb nostore l
  | Times a b | CTimes a b | CTimesJ a b => nostore a && nostore b
  | Uminus a => nostore a
  | EStore _ _ => false
  end.
Lemma ns_makeUminus e : nostore e = true -> nostore (makeUminus e) = true.
Proof. destruct e; cbn; auto. Qed.
Lemma ns_makeTimesN y : forall a, nostore y = true -> nostore (makeTimesN a y) = true.
Proof.
  induction y as [b| |l _|x1 x2 IH1 IH2|x1 x2 _ _|x1 x2 _ _|x IH|v|v x _] using expr_indl; intros a E;
   cbn [makeTimesN]; try reflexivity; try (destruct (is_zero a); [reflexivity|]; destruct (is_one a); [exact E|]; destruct (is_mone a); [now apply ns_makeUminus|]; cbn in *; auto; fail).
  destruct x1; try (destruct (is_zero a); [reflexivity|]; destruct (is_one a); [exact E|]; destruct (is_mone a); [now apply ns_makeUminus|]; cbn in *; auto; fail).
  apply IH2. exact E.
Qed.
Lemma ns_makeTimes x y : nostore x = true -> nostore y = true -> nostore (makeTimes x y) = true.
Proof.
  intros A B. unfold makeTimes. assert (T : nostore (Times x y) = true) by (cbn; now rewrite A, B).
  destruct x; try (now apply ns_makeTimesN); destruct y; try exact T; now apply ns_makeTimesN.
Qed.
Lemma ns_reduceSumN l : forall a, forallb nostore l = true -> forallb nostore (reduceSumN a l) = true.
Proof.
  induction l as [|x l IH]; intros a E; cbn [reduceSumN]; [destruct (is_zero a); reflexivity|]. cbn [forallb] in E. apply andb_prop in E. destruct E as [A B].
  destruct x; try (cbn [forallb]; rewrite IH by auto; now rewrite A). now apply IH.
Qed.
Lemma ns_reduceSum l : forallb nostore l = true -> forallb nostore (reduceSum l) = true.
Proof.
  induction l as [|x l IH]; intros E; cbn [reduceSum]; [reflexivity|]. cbn [forallb] in E. apply andb_prop in E. destruct E as [A B].
  destruct x; try (cbn [forallb]; rewrite IH by auto; now rewrite A). now apply ns_reduceSumN.
Qed.
Lemma ns_makePlus pheq l : forallb nostore l = true -> nostore (makePlus pheq l) = true.
Proof.
  intros E. apply ns_reduceSum in E. unfold makePlus. destruct (reduceSum l) as [|a [|b [|c r]]].
  - reflexivity.
  - cbn in E. now rewrite andb_true_r in E.
  - assert (P : nostore (Plus [a; b]) = true) by exact E. cbn [forallb] in E. rewrite andb_true_r in E. apply andb_prop in E. destruct E as [A B]. destruct (pheq a b); [now apply ns_makeTimes|].
    destruct a as [| | |a1 a2| | | | |]; auto. destruct a1; auto. destruct b as [| | |b1 b2| | | | |]; auto. destruct b1; auto. destruct (pheq a2 b2); auto.
    apply ns_makeTimes; auto. unfold makePlusNN. assert (Z := ns_reduceSum [Num a; Num a0] eq_refl). destruct (reduceSum [Num a; Num a0]); auto. cbn in Z. now apply andb_prop in Z.
  - exact E.
Qed.
Lemma const_nostore e : nonconst e = false -> nostore e = true.
Proof.
  induction e as [b| |l IH|x1 x2 IH1 IH2|x1 x2 IH1 IH2|x1 x2 IH1 IH2|x IH|v|v x _] using expr_indl; cbn [nonconst nostore]; intros E; auto.
  - apply forallb_forall. intros x Hx. apply IH; auto. destruct (nonconst x) eqn:X; auto. rewrite <- E. symmetry. apply existsb_exists. eauto.
  - apply orb_false_iff in E. now rewrite IH1, IH2.
  - apply orb_false_iff in E. now rewrite IH1, IH2.
  - apply orb_false_iff in E. now rewrite IH1, IH2.
Qed.
(** the little simplifier introduces no loads *)
Section Gd.
  Variable W : variable -> Prop.
  Notation gd := (gd W).
  Lemma gd_makeUminus e : gd e -> gd (makeUminus e).
  Proof. destruct e; cbn; auto using gd_Num. Qed.
  Lemma gd_makeTimesN y : forall a, gd y -> gd (makeTimesN a y).
  Proof.
    induction y as [b| |l _|x1 x2 IH1 IH2|x1 x2 _ _|x1 x2 _ _|x IH|v|v x _] using expr_indl; intros a E;
     cbn [makeTimesN]; auto using gd_Num; try (destruct (is_zero a); [apply gd_Num|]; destruct (is_one a); [exact E|]; destruct (is_mone a); [now apply gd_makeUminus|]; apply gd_Times; split; auto using gd_Num, gd_makeUminus; fail).
    destruct x1; try (destruct (is_zero a); [apply gd_Num|]; destruct (is_one a); [exact E|]; destruct (is_mone a); [now apply gd_makeUminus|]; apply gd_Times; split; auto using gd_Num; fail).
    apply IH2. now apply gd_Times in E.
  Qed.
  Lemma gd_makeTimes x y : gd x -> gd y -> gd (makeTimes x y).
  Proof.
    intros A B. unfold makeTimes. assert (T : gd (Times x y)) by (apply gd_Times; auto).
    destruct x; try (now apply gd_makeTimesN); destruct y; try exact T; now apply gd_makeTimesN.
  Qed.
  Lemma gd_reduceSumN l : forall a, Forall gd l -> Forall gd (reduceSumN a l).
  Proof.
    induction l as [|x l IH]; intros a E; cbn [reduceSumN]; [destruct (is_zero a); auto using gd_Num|]. inversion E as [|? ? A B]; subst.
    destruct x; try (constructor; auto). now apply IH.
  Qed.
  Lemma gd_reduceSum l : Forall gd l -> Forall gd (reduceSum l).
  Proof.
    induction l as [|x l IH]; intros E; cbn [reduceSum]; [auto|]. inversion E as [|? ? A B]; subst.
    destruct x; try (constructor; auto). now apply gd_reduceSumN.
  Qed.
  Lemma gd_makePlus pheq l : Forall gd l -> gd (makePlus pheq l).
  Proof.
    intros E. apply gd_reduceSum in E. unfold makePlus. destruct (reduceSum l) as [|a [|b [|c r]]].
    - apply gd_Num.
    - now inversion E.
    - assert (P : gd (Plus [a; b])) by now apply gd_Plus. assert (A : gd a) by now inversion E. assert (B : gd b) by (inversion E as [|? ? _ E']; now inversion E').
      destruct (pheq a b); [apply gd_makeTimes; auto using gd_Num|].
      destruct a as [| | |a1 a2| | | | |]; auto. destruct a1; auto. destruct b as [| | |b1 b2| | | | |]; auto. destruct b1; auto. destruct (pheq a2 b2); auto.
      apply gd_makeTimes; [|now apply gd_Times in A]. unfold makePlusNN. assert (Z := gd_reduceSum [Num a; Num a0] ltac:(auto using gd_Num)). destruct (reduceSum [Num a; Num a0]); [apply gd_Num|]. now inversion Z.
    - now apply gd_Plus.
  Qed.
End Gd.
Lemma const_occurs e v : nonconst e = false -> occurs v e -> var_is_constant v = true.
Proof.
  induction e as [b| |l IH|x1 x2 IH1 IH2|x1 x2 IH1 IH2|x1 x2 IH1 IH2|x IH|u|u x _] using expr_indl; intros E O.
  - destruct O. - destruct O.
  - apply occurs_Plus in O. destruct O as (x & Hx & O). apply (IH x Hx); auto. cbn in E. destruct (nonconst x) eqn:X; auto. rewrite <- E. symmetry. apply existsb_exists. eauto.
  - cbn in E, O. apply orb_false_iff in E. destruct O; tauto.
  - cbn in E, O. apply orb_false_iff in E. destruct O; tauto.
  - cbn in E, O. apply orb_false_iff in E. destruct O; tauto.
  - cbn in E, O. auto.
  - cbn in E, O. subst. now destruct (var_is_constant v).
  - discriminate E.
Qed.
(** the bilinear form of a list of stores *)
Definition form (w x : variable -> C) (dag : list expr) : C :=
  lsum dag (fun e => match e with EStore v d => w v * eval x d | _ => C0 end)%C.
Definition place (e : expr) : list variable := match e with EStore v _ => [v] | _ => [] end.
Definition places (dag : list expr) : list variable := flat_map place dag.
Lemma lsum_filter {A} (p : A -> bool) (f : A -> C) l : lsum (filter p l) f = lsum l (fun x => if p x then f x else C0).
Proof. induction l as [|a l IH]; [reflexivity|]. cbn [filter]. destruct (p a) eqn:E; rewrite ?lsum_cons, IH, E; [reflexivity|ring]. Qed.

Section Result.
  Variable pheq : expr -> expr -> bool.
  Hypothesis pheq_eq : forall a b, pheq a b = true -> a = b.
  Variable H : heap.
  Hypothesis AC : acyclic H.
  Variable roots : list nat.
  Hypothesis RN : NoDup roots.
  Hypothesis RL : forall r, In r roots -> exists v x, H r = NStore v x /\ lin (tree H x).

  Section WithS.
  Variables (Sv : list nat) (pt : ptable) (N : nat).
  Hypothesis VO : visited_ok H roots Sv pt.
  Hypothesis BN : forall r, In r roots -> r < N.
  Let dl := dual pheq H pt N.
  Lemma lin_nonconst_first p a b : reach H roots p -> In p roots \/ lin (tree H p) \/ nc H p = false -> (H p = NTimes a b \/ H p = NCTimes a b \/ H p = NCTimesJ a b) ->
    nonconst (tree H a) = false.
  Proof.
    intros R K E. destruct K as [K|[K|K]].
    - destruct (RL p K) as (v & x & E' & _). destruct E as [E|[E|E]]; congruence.
    - rewrite (tree_eq H AC p) in K. destruct E as [E|[E|E]]; rewrite E in K; apply K.
    - unfold nc in K. rewrite (tree_eq H AC p) in K. destruct E as [E|[E|E]]; rewrite E in K; cbn [nonconst] in K; now apply orb_false_iff in K.
  Qed.
  (** the dual of a load is a store, all others are expressions without a store *)
  Lemma dual_shape k : forall n e, In n Sv -> N - n <= k -> dl n = Some e ->
    match H n with
    | NLoad v => if var_is_constant v then e = ELoad v else exists d, e = EStore v d /\ nostore d = true
    | _ => nostore e = true
    end.
  Proof.
    induction k as [|k IH]; intros n e Hn Hk E; assert (L : n < N) by (apply (reach_lt H AC roots N BN); now apply (vo_reach _ _ _ _ VO)); [lia|].
    unfold dl in E. rewrite (dual_eq pheq H AC pt roots Sv VO N BN) in E by exact L.
    assert (X : forall x, exprD pheq H pt dl n = Some x -> nostore x = true).
    { intros x. unfold exprD. assert (In' : forall p, In p (pt n) -> n < p /\ p < N /\ In p Sv /\ In n (children (H p))) by (intros p Hp; now apply (pt_gt H AC pt roots Sv VO N BN)).
      revert In'. intros In' X.
      assert (X' : match omapM (termD H dl n) (pt n) with Some l => Some (makePlus pheq (concat l)) | None => None end = Some x) by (destruct (pt n); [discriminate|exact X]).
      clear X. destruct (omapM (termD H dl n) (pt n)) as [l|] eqn:O; [|discriminate]. injection X' as <-. apply ns_makePlus.
      revert l O In'. induction (pt n) as [|p ps IHp]; intros l O In'; cbn [omapM] in O; [injection O as <-; reflexivity|].
      destruct (termD H dl n p) as [lp|] eqn:T; [|discriminate]. destruct (omapM (termD H dl n) ps) as [r|]; [|discriminate]. injection O as <-.
      cbn [concat]. rewrite forallb_app, (IHp r eq_refl) by (intros; apply In'; now right). rewrite andb_true_r.
      destruct (In' p) as (P1 & P2 & P3 & P4); [now left|]. assert (Rp : reach H roots p) by now apply (vo_reach _ _ _ _ VO).
      assert (F := lin_nonconst_first p).
      assert (G : forall y, dl p = Some y -> (forall v, H p <> NLoad v) -> nostore y = true).
      { intros y Y NL. assert (Q := IH p y P3 ltac:(lia) Y). destruct (H p); auto; now destruct (NL v). }
      revert T. unfold termD, ob. destruct (H p) eqn:Hp; intros T; try (injection T as <-; reflexivity);
       match type of T with context [if ?b then _ else _] => destruct b end; try (injection T as <-; reflexivity);
       destruct (dl p) as [y|] eqn:Y; try discriminate; injection T as <-; assert (Ny : nostore y = true) by (apply G; [reflexivity|congruence]);
       cbn [forallb nostore]; rewrite ?Ny, ?andb_true_r; auto.
      - apply ns_makeTimes; auto. apply const_nostore. eapply F; eauto using kind.
      - apply const_nostore. eapply F; eauto using kind.
      - apply const_nostore. eapply F; eauto using kind.
      - now apply ns_makeUminus. }
    unfold stepD in E. fold dl in E. destruct (H n); auto.
    - destruct (var_is_constant v); [congruence|]. destruct (exprD pheq H pt dl n) as [x|] eqn:Y; [|discriminate]. injection E as <-. eauto.
    - injection E as <-. reflexivity.
  Qed.
  (** what the dual of a node loads: constants, and the places of the stores that depend on the node *)
  Definition dep (v : variable) : Prop := var_is_constant v = true \/ exists r x, In r roots /\ H r = NStore v x /\ nc H x = true.
  Definition ncs (n : nat) : bool := match H n with NStore _ x => nc H x | _ => nc H n end.
  Lemma ncs_parent n p : nc H n = true -> In n (children (H p)) -> ncs p = true.
  Proof.
    intros A B. unfold ncs. destruct (nc H p) eqn:C.
    - destruct (H p) eqn:E; auto. destruct B as [->|[]]. exact A.
    - rewrite (const_child H AC p n C B) in A. discriminate.
  Qed.
  Lemma dual_dep k : forall n e, In n Sv -> N - n <= k -> ncs n = true -> dl n = Some e -> gd dep e.
  Proof.
    induction k as [|k IH]; intros n e Hn Hk Nc E; assert (Rn : reach H roots n) by (now apply (vo_reach _ _ _ _ VO)); assert (L : n < N) by (now apply (reach_lt H AC roots N BN)); [lia|].
    unfold dl in E. rewrite (dual_eq pheq H AC pt roots Sv VO N BN) in E by exact L.
    assert (X : (forall v x, H n <> NStore v x) -> forall x, exprD pheq H pt dl n = Some x -> gd dep x).
    { intros NS x X. assert (Nn : nc H n = true) by (unfold ncs in Nc; destruct (H n); auto; now destruct (NS v a)).
      assert (In' : forall p, In p (pt n) -> n < p /\ p < N /\ In p Sv /\ In n (children (H p))) by (intros p Hp; now apply (pt_gt H AC pt roots Sv VO N BN)).
      unfold exprD in X.
      assert (X' : match omapM (termD H dl n) (pt n) with Some l => Some (makePlus pheq (concat l)) | None => None end = Some x) by (destruct (pt n); [discriminate|exact X]).
      clear X. destruct (omapM (termD H dl n) (pt n)) as [l|] eqn:O; [|discriminate]. injection X' as <-. apply gd_makePlus.
      revert l O In'. induction (pt n) as [|p ps IHp]; intros l O In'; cbn [omapM] in O; [injection O as <-; constructor|].
      destruct (termD H dl n p) as [lp|] eqn:T; [|discriminate]. destruct (omapM (termD H dl n) ps) as [r|]; [|discriminate]. injection O as <-.
      cbn [concat]. apply Forall_app. split; [|apply (IHp r eq_refl); intros; apply In'; now right]. clear IHp.
      destruct (In' p) as (P1 & P2 & P3 & P4); [now left|]. assert (Rp : reach H roots p) by now apply (vo_reach _ _ _ _ VO).
      assert (F := lin_nonconst_first p).
      assert (G : forall y, dl p = Some y -> gd dep y) by (intros y Y; apply (IH p y P3); [lia|eapply ncs_parent; eauto|exact Y]).
      assert (G' : forall a, nonconst (tree H a) = false -> gd dep (tree H a)) by (intros a Ha v Hv; left; eapply const_occurs; eauto).
      revert T. unfold termD, ob. destruct (H p) eqn:Hp; intros T; try (injection T as <-; constructor);
       match type of T with context [if ?b then _ else _] => destruct b end; try (injection T as <-; constructor);
       destruct (dl p) as [y|] eqn:Y; try discriminate; try (injection T as <-); assert (Gy := G y eq_refl); try (constructor; [|constructor]); auto.
      - apply gd_makeTimes; auto. apply G'. eapply F; eauto using kind.
      - apply gd_CTimes. split; auto. apply G'. eapply F; eauto using kind.
      - apply gd_CTimesJ. split; auto. apply G'. eapply F; eauto using kind.
      - now apply gd_makeUminus. }
    unfold stepD in E. fold dl in E. unfold ncs in Nc. destruct (H n) eqn:Hh; try (apply X; [congruence|exact E]).
    - destruct (var_is_constant v) eqn:Cv; [injection E as <-; intros u <-; now left|]. destruct (exprD pheq H pt dl n) as [x|] eqn:Y; [|discriminate]. injection E as <-. apply gd_Store. apply X; [congruence|reflexivity].
    - injection E as <-. intros u <-. right. exists n, a. split; [|auto]. eapply store_root; eauto. unfold isst. now rewrite Hh.
  Qed.
  End WithS.

  Definition loaded (v : variable) : Prop := var_is_constant v = false /\ exists n, reach H roots n /\ H n = NLoad v.
  (** different load nodes load different variables *)
  Definition loads_shared : Prop := forall m n v, reach H roots m -> reach H roots n -> H m = NLoad v -> H n = NLoad v -> m = n.

  Lemma filter_map_dual (dl : nat -> option expr) S es : omapM dl S = Some es ->
    (forall n e, In n S -> dl n = Some e -> is_store e = isld H n) ->
    exists es', omapM dl (filter (isld H) S) = Some es' /\ filter is_store es = es'.
  Proof.
    revert es. induction S as [|n S IH]; intros es E K; cbn [omapM] in E; [injection E as <-; now exists []|].
    destruct (dl n) as [e|] eqn:En; [|discriminate]. destruct (omapM dl S) as [r|] eqn:Er; [|discriminate]. injection E as <-.
    destruct (IH r eq_refl) as (es' & A & B); [intros m x Hm; apply K; now right|].
    cbn [filter]. rewrite (K n e (or_introl eq_refl) En). destruct (isld H n).
    - exists (e :: es'). cbn [omapM]. rewrite En, A, B. auto.
    - exists es'. auto.
  Qed.
  Lemma transpose_ok fuel E : transpose pheq H fuel roots = Some E ->
    (forall e, In e E -> exists v d, e = EStore v d /\ nostore d = true) /\
    (forall v, In v (places E) <-> loaded v) /\
    (loads_shared -> NoDup (places E)) /\
    (forall w x, same_consts w x -> form w x (map (tree H) roots) = form x w E) /\
    (forall e v, In e E -> occurs v e -> dep v).
  Proof.
    unfold transpose. destruct (visit H fuel [] (fun _ => []) roots) as [[Sv pt]|] eqn:Vi; [|discriminate].
    assert (VO := visit_roots H roots fuel Sv pt Vi). destruct (omapM (dualM pheq H pt fuel) Sv) as [ds|] eqn:Du; [|discriminate]. intros E'. injection E' as E'.
    set (N := S (fuel + fold_right max 0 roots)).
    assert (BN : forall r, In r roots -> r < N).
    { intros r Hr. enough (r <= fold_right max 0 roots) by lia. clear -Hr. induction roots as [|a l IH]; [destruct Hr|]. cbn. destruct Hr as [->|Hr]; [lia|]. specialize (IH Hr). lia. }
    assert (Du' : omapM (dual pheq H pt N) Sv = Some ds).
    { revert Du. apply omapM_mono. intros n e. apply dualM_mono. lia. }
    assert (Sh := fun n e Hn => dual_shape Sv pt N VO BN (N - n) n e Hn (le_n _)). 
    destruct (filter_map_dual (dual pheq H pt N) Sv ds Du') as (es & O & Fe).
    { intros n e Hn En. specialize (Sh n e Hn En). unfold isld. destruct (H n) as [a| |l|a b|a b|a b|a|v|v a]; try (destruct e; cbn in *; auto; discriminate).
      destruct (var_is_constant v); [subst e; reflexivity|]. destruct Sh as (d & -> & _). reflexivity. }
    rewrite Fe in E'. subst es. clear Fe ds Du Du'.
    set (Ls := filter (isld H) Sv) in *. assert (LS : forall n, In n Ls -> In n Sv /\ isld H n = true) by (intros n; apply filter_In).
    assert (NL : NoDup Ls) by (apply NoDup_filter, VO).
    (* each load gives one store *)
    assert (W : forall n, In n Ls -> exists v d, H n = NLoad v /\ var_is_constant v = false /\ dual pheq H pt N n = Some (EStore v d) /\ nostore d = true).
    { intros n Hn. destruct (LS n Hn) as [A B]. destruct (dual_ex pheq H AC pt roots Sv VO RL N BN n A) as (e & Ee). specialize (Sh n e A Ee).
      unfold isld in B. destruct (H n) as [a| |l|a b|a b|a b|a|v|v a]; try discriminate. exists v. destruct (var_is_constant v); [discriminate|]. destruct Sh as (d & -> & Nd). exists d. auto. }
    assert (PL : forall v, In v (places E) <-> exists n, In n Ls /\ H n = NLoad v).
    { clear -O W. revert E O W. induction Ls as [|n l IH]; intros E O W v; cbn [omapM] in O.
      - injection O as <-. cbn. split; [intros []|intros (n & [] & _)].
      - destruct (W n (or_introl eq_refl)) as (u & d & Hn & _ & En & _). rewrite En in O. destruct (omapM (dual pheq H pt N) l) as [r|]; [|discriminate]. injection O as <-.
        unfold places. cbn [flat_map place]. rewrite in_app_iff. fold (places r). rewrite (IH r eq_refl) by (intros m Hm; apply W; now right). cbn [In]. split.
        + intros [[<-|[]]|(m & Hm & Em)]; eauto.
        + intros (m & [<-|Hm] & Em); [left; left; congruence|eauto]. }
    split; [|split; [|split; [|split]]].
    - clear -O W. revert E O W. induction Ls as [|n l IH]; intros E O W e He; cbn [omapM] in O; [injection O as <-; destruct He|].
      destruct (W n (or_introl eq_refl)) as (u & d & Hn & _ & En & Nd). rewrite En in O. destruct (omapM (dual pheq H pt N) l) as [r|]; [|discriminate]. injection O as <-.
      destruct He as [<-|He]; [eauto|]. eapply (IH r eq_refl); auto. intros m Hm. apply W. now right.
    - intros v. rewrite PL. unfold loaded. split.
      + intros (n & Hn & En). destruct (W n Hn) as (u & d & Eu & Cu & _). replace u with v in * by congruence. split; auto. exists n. split; auto. apply (vo_reach _ _ _ _ VO). now apply LS.
      + intros (C & n & Rn & En). exists n. split; auto. apply filter_In. split; [now apply (vo_reach _ _ _ _ VO)|]. unfold isld. rewrite En, C. reflexivity.
    - intros SH. assert (SH' : forall m n v, In m Ls -> In n Ls -> H m = NLoad v -> H n = NLoad v -> m = n).
      { intros m n v Hm Hn. apply SH; apply (vo_reach _ _ _ _ VO); now apply LS. }
      clear -O W NL SH'. revert E O W NL SH'. induction Ls as [|n l IH]; intros E O W NL SH; cbn [omapM] in O; [injection O as <-; constructor|].
      destruct (W n (or_introl eq_refl)) as (u & d & Hn & _ & En & _). rewrite En in O. destruct (omapM (dual pheq H pt N) l) as [r|] eqn:Or; [|discriminate]. injection O as <-.
      inversion NL as [|? ? N1 N2]; subst. unfold places. cbn [flat_map place app]. constructor.
      + intros Hu. apply N1. assert (Q : exists m, In m l /\ H m = NLoad u).
        { assert (W' : forall m, In m l -> exists v d, H m = NLoad v /\ dual pheq H pt N m = Some (EStore v d)) by (intros m Hm; destruct (W m (or_intror Hm)) as (a & b & Q1 & _ & Q2 & _); eauto).
          clear -Or Hu W'. revert r Or Hu. induction l as [|m l IHl]; intros r Or Hu; cbn [omapM] in Or; [injection Or as <-; destruct Hu|].
          destruct (W' m (or_introl eq_refl)) as (a & b & Q1 & Q2). rewrite Q2 in Or. destruct (omapM (dual pheq H pt N) l) as [s|]; [|discriminate]. injection Or as <-.
          cbn [flat_map place app] in Hu. destruct Hu as [<-|Hu]; [exists m; split; [now left|auto]|]. destruct (IHl (fun q Hq => W' q (or_intror Hq)) s eq_refl Hu) as (q & Hq & Eq). exists q. split; [now right|auto]. }
        destruct Q as (m & Hm & Em). replace n with m; auto. apply (SH m n u); auto; [now right|now left].
      + apply (IH r eq_refl); auto; [intros m Hm; apply W; now right|intros m q v Hm Hq; apply SH; now right].
    - intros w x SC. assert (SC' : same_consts x w) by (intros v Hv; symmetry; now apply SC).
      assert (B := balance pheq pheq_eq H AC pt roots Sv VO RL N BN x w SC').
      transitivity (lsum Sv (fun n => if isst H n then D pheq H pt N w n * V H x n else C0)%C); [|rewrite B; clear B].
      + unfold form. rewrite lsum_map, <- (lsum_filter (isst H) (fun n => D pheq H pt N w n * V H x n)%C).
        rewrite (lsum_perm roots (filter (isst H) Sv)).
        * apply lsum_ext. intros n Hn. apply filter_In in Hn. destruct Hn as [Hn I]. unfold D, V.
          rewrite (dual_eq pheq H AC pt roots Sv VO N BN) by (apply (reach_lt H AC roots N BN); now apply (vo_reach _ _ _ _ VO)).
          unfold stepD. unfold isst in I. rewrite (tree_eq H AC n). destruct (H n); try discriminate. cbn [eval]. ring.
        * apply NoDup_Permutation; auto; [apply NoDup_filter, VO|]. intros n. rewrite filter_In, (vo_reach _ _ _ _ VO n). split.
          -- intros Hr. split; [now apply reach_root|]. eapply root_store; eauto.
          -- intros [R I]. eapply store_root; eauto.
      + unfold form. rewrite <- (lsum_filter (isld H) (fun n => D pheq H pt N w n * V H x n)%C). fold Ls.
        clear -O W AC. revert E O W. induction Ls as [|n l IH]; intros E O W; cbn [omapM] in O; [injection O as <-; reflexivity|].
        destruct (W n (or_introl eq_refl)) as (u & d & Hn & _ & En & _). rewrite En in O. destruct (omapM (dual pheq H pt N) l) as [r|]; [|discriminate]. injection O as <-.
        rewrite !lsum_cons, <- (IH r eq_refl) by (intros m Hm; apply W; now right). unfold D at 1, V at 1. rewrite En, (tree_eq H AC n), Hn. cbn [eval]. ring.
    - intros e v He Hv. assert (exists n, In n Ls /\ dual pheq H pt N n = Some e).
      { clear -O He. revert E O He. induction Ls as [|n l IH]; intros E O He; cbn [omapM] in O; [injection O as <-; destruct He|].
        destruct (dual pheq H pt N n) as [b|] eqn:B; [|discriminate]. destruct (omapM (dual pheq H pt N) l) as [r|] eqn:R; [|discriminate]. injection O as <-.
        destruct He as [<-|He]; [exists n; split; [now left|auto]|]. destruct (IH r eq_refl He) as (m & Hm & Em). exists m. split; [now right|auto]. }
      destruct H0 as (n & Hn & En). destruct (LS n Hn) as [A B]. refine (dual_dep Sv pt N VO BN (N - n) n e A (le_n _) _ En v Hv).
      unfold ncs, nc. unfold isld in B. rewrite (tree_eq H AC n). destruct (H n); try discriminate. exact B.
  Qed.
  (** the transposition succeeds *)
  Lemma transpose_ends : exists fuel E, transpose pheq H fuel roots = Some E.
  Proof.
    set (N := S (fold_right max 0 roots)).
    assert (BN : forall r, In r roots -> r < N).
    { intros r Hr. enough (r <= fold_right max 0 roots) by lia. clear -Hr. induction roots as [|a l IH]; [destruct Hr|]. cbn. destruct Hr as [->|Hr]; [lia|]. specialize (IH Hr). lia. }
    set (fuel := unvisited H N [] + length roots + N). exists fuel. unfold transpose.
    destruct (visit_ends H AC N fuel [] (fun _ => []) roots BN) as ((Sv & pt) & Vi); [unfold fuel; lia|]. rewrite Vi. assert (VO := visit_roots H roots fuel Sv pt Vi).
    destruct (omapM_some (dualM pheq H pt fuel) Sv) as (r & ->); [|eauto]. intros n Hn.
    destruct (dual_ex pheq H AC pt roots Sv VO RL N BN n Hn) as (e & Ee). exists e. apply dualM_mono with (f := N); [unfold fuel; lia|exact Ee].
  Qed.
End Result.
