(** * genfft: the scheduler orders the assignments of a dag without breaking a dependency *)
From Coq Require Import ZArith List Bool Lia Permutation.
From Verif Require Import Cplx GenExpr GenAlg GenAlist GenSched.
Import ListNotations.
Open Scope nat_scope.
Opaque infinity.
Local Notation dep := depends_on.

Lemma perm_filter {A} (f g : A -> bool) (l : list A) : (forall x, In x l -> g x = negb (f x)) -> Permutation (filter f l ++ filter g l) l.
Proof.
  induction l as [|a l IH]; intros E; [constructor|]. cbn [filter]. rewrite (E a (or_introl eq_refl)).
  assert (K := IH (fun x Hx => E x (or_intror Hx))). destruct (f a); cbn [negb].
  - now constructor.
  - rewrite <- Permutation_middle. now constructor.
Qed.
Definition ranked (rank : assignment -> nat) (l : list assignment) : Prop :=
  forall a b, In a l -> In b l -> dep a b = true -> rank a < rank b.
Lemma ranked_incl rank l l' : incl l' l -> ranked rank l -> ranked rank l'.
Proof. intros I R a b Ha Hb. apply R; auto. Qed.

Section Dag.
  Variable dag : list assignment.
  Local Notation n := (nnodes dag).
  Local Notation asg := (asg dag).
  Local Notation nodes := (nodes dag).
  Local Notation preds := (predecessors dag).
  Local Notation succs := (successors dag).
  Lemma in_nodes i : In i nodes <-> i < n.
  Proof. unfold GenSched.nodes. rewrite in_seq. lia. Qed.
  Lemma in_preds i j : In i (preds j) <-> i < n /\ dep (asg i) (asg j) = true.
  Proof. unfold predecessors. rewrite <- in_rev, filter_In, in_nodes. reflexivity. Qed.
  Lemma in_succs i j : In j (succs i) <-> j < n /\ dep (asg i) (asg j) = true.
  Proof. unfold successors. rewrite <- in_rev, filter_In, in_nodes. reflexivity. Qed.
  Definition adj (i j : nat) : Prop := dep (asg i) (asg j) = true \/ dep (asg j) (asg i) = true.
  Lemma in_neighbors i j : In j (neighbors dag i) <-> j < n /\ adj i j.
  Proof. unfold neighbors, adj. rewrite in_app_iff, in_preds, in_succs. tauto. Qed.
  Lemma adj_sym i j : adj i j -> adj j i. Proof. unfold adj. tauto. Qed.
  Lemma asg_in i : i < n -> In (asg i) dag. Proof. intros L. now apply nth_In. Qed.
  Lemma map_asg : map asg nodes = dag.
  Proof.
    unfold GenSched.nodes, nnodes, GenSched.asg. generalize (Temporary 0, NaNI). induction dag as [|a l IH]; intros d; [reflexivity|]. cbn [length seq map nth]. f_equal.
    rewrite <- seq_shift, map_map. exact (IH d).
  Qed.
  Lemma in_asg a : In a dag -> exists i, i < n /\ asg i = a.
  Proof. intros K. destruct (In_nth dag a (Temporary 0, NaNI) K) as (i & L & E). exists i. auto. Qed.
  Lemma split_perm f g : (forall i, i < n -> g i = negb (f i)) -> Permutation (map asg (filter f nodes) ++ map asg (filter g nodes)) dag.
  Proof. intros E. rewrite <- map_app. transitivity (map asg nodes); [|now rewrite map_asg]. apply Permutation_map. apply perm_filter. intros x Hx. apply E. now apply in_nodes. Qed.
  Lemma in_part f a : In a (map asg (filter f nodes)) <-> exists i, i < n /\ f i = true /\ asg i = a.
  Proof.
    rewrite in_map_iff. split.
    - intros (i & E & K). apply filter_In in K. rewrite in_nodes in K. exists i. tauto.
    - intros (i & L & F & E). exists i. split; auto. apply filter_In. now rewrite in_nodes.
  Qed.
  Lemma part_nil f : map asg (filter f nodes) <> [] <-> exists i, i < n /\ f i = true.
  Proof.
    split.
    - destruct (filter f nodes) as [|i l] eqn:E; [intros K; now elim K|]. intros _. exists i. assert (K : In i (filter f nodes)) by (rewrite E; now left). apply filter_In in K. now rewrite in_nodes in K.
    - intros (i & L & F) E. assert (K : In (asg i) (map asg (filter f nodes))) by (apply in_part; eauto). rewrite E in K. destruct K.
  Qed.

  (** ** Inputs and outputs exist *)
  Variable rank : assignment -> nat.
  Hypothesis RK : ranked rank dag.
  Lemma edge_rank i j : i < n -> j < n -> dep (asg i) (asg j) = true -> rank (asg i) < rank (asg j).
  Proof. intros. apply RK; auto using asg_in. Qed.
  Lemma null_preds i : null (preds i) = true <-> forall j, j < n -> dep (asg j) (asg i) = false.
  Proof.
    split.
    - intros E j L. destruct (dep (asg j) (asg i)) eqn:D; auto. assert (K : In j (preds i)) by now apply in_preds. destruct (preds i); [destruct K|discriminate].
    - intros E. destruct (preds i) as [|j l] eqn:K; auto. assert (K' : In j (preds i)) by (rewrite K; now left). apply in_preds in K'. destruct K' as [L D]. rewrite E in D by auto; discriminate.
  Qed.
  Lemma null_succs i : null (succs i) = true <-> forall j, j < n -> dep (asg i) (asg j) = false.
  Proof.
    split.
    - intros E j L. destruct (dep (asg i) (asg j)) eqn:D; auto. assert (K : In j (succs i)) by now apply in_succs. destruct (succs i); [destruct K|discriminate].
    - intros E. destruct (succs i) as [|j l] eqn:K; auto. assert (K' : In j (succs i)) by (rewrite K; now left). apply in_succs in K'. destruct K' as [L D]. rewrite E in D by auto; discriminate.
  Qed.
  Lemma in_inputs i : In i (inputs dag) <-> i < n /\ null (preds i) = true.
  Proof. unfold inputs. rewrite filter_In, in_nodes. reflexivity. Qed.
  Lemma in_outputs i : In i (outputs dag) <-> i < n /\ null (succs i) = true.
  Proof. unfold outputs. rewrite filter_In, in_nodes. reflexivity. Qed.
  Lemma exists_min : dag <> [] -> exists i, i < n /\ null (preds i) = true.
  Proof.
    intros N0. assert (L0 : 0 < n) by (unfold nnodes; destruct dag; [congruence|cbn; lia]).
    cut (forall k i, i < n -> rank (asg i) < k -> exists i, i < n /\ null (preds i) = true). { intros F. exact (F (S (rank (asg 0))) 0 L0 (Nat.lt_succ_diag_r _)). }
    induction k as [|k IH]; intros i L Lk; [lia|]. destruct (null (preds i)) eqn:E; [eauto|].
    destruct (preds i) as [|j l] eqn:Ep; [discriminate|]. assert (K : In j (preds i)) by (rewrite Ep; now left). apply in_preds in K. destruct K as [Lj D]. apply (IH j Lj). assert (T := edge_rank j i Lj L D). lia.
  Qed.
  Lemma max_bound : exists B, forall i, i < n -> rank (asg i) < B.
  Proof.
    assert (G : forall l : list assignment, exists B, forall a, In a l -> rank a < B).
    { induction l as [|a l (B & IH)]; [exists 0; intros a []|]. exists (S (rank a) + B). intros b [<-|Hb]; [lia|]. apply IH in Hb. lia. }
    destruct (G dag) as (B & HB). exists B. intros i L. apply HB. now apply asg_in.
  Qed.
  Lemma exists_max : dag <> [] -> exists i, i < n /\ null (succs i) = true.
  Proof.
    intros N0. assert (L0 : 0 < n) by (unfold nnodes; destruct dag; [congruence|cbn; lia]). destruct max_bound as (B & HB).
    cut (forall k i, i < n -> B - rank (asg i) < k -> exists i, i < n /\ null (succs i) = true). { intros F. exact (F (S (B - rank (asg 0))) 0 L0 (Nat.lt_succ_diag_r _)). }
    induction k as [|k IH]; intros i L Lk; [lia|]. destruct (null (succs i)) eqn:E; [eauto|].
    destruct (succs i) as [|j l] eqn:Ep; [discriminate|]. assert (K : In j (succs i)) by (rewrite Ep; now left). apply in_succs in K. destruct K as [Lj D]. apply (IH j Lj). assert (T := edge_rank i j L Lj D). assert (T2 := HB j Lj). lia.
  Qed.

  (** ** The breadth-first search finds a connected component *)
  Definition fin (label : nat -> nat) (i : nat) : bool := label i <? infinity.
  Definition card (label : nat -> nat) : nat := length (filter (fin label) nodes).
  Lemma filter_length_le {A} (f : A -> bool) l : length (filter f l) <= length l.
  Proof. induction l; cbn; auto. destruct (f a); cbn; lia. Qed.
  Lemma filter_length_lt {A} (f : A -> bool) l x : In x l -> f x = false -> length (filter f l) < length l.
  Proof. induction l as [|a l IH]; intros K F; [destruct K|]. cbn. destruct K as [<-|K]; [rewrite F; assert (T := filter_length_le f l); lia|]. specialize (IH K F). destruct (f a); cbn; lia. Qed.
  Lemma filter_length_add (f g : nat -> bool) l x : NoDup l -> In x l -> f x = false -> g x = true -> (forall y, y <> x -> g y = f y) -> length (filter g l) = S (length (filter f l)).
  Proof.
    induction l as [|a l IH]; intros ND K F G E; [destruct K|]. inversion ND; subst. cbn. destruct K as [<-|K].
    - rewrite F, G. cbn. f_equal. f_equal. apply filter_ext_in. intros y Hy. apply E. intros ->. auto.
    - assert (a <> x) by (intros ->; auto). rewrite (E a) by auto. destruct (f a); cbn; now rewrite IH.
  Qed.
  Lemma card_le label : card label <= n.
  Proof. unfold card. etransitivity; [apply filter_length_le|]. unfold GenSched.nodes. now rewrite seq_length. Qed.
  Lemma card_lt label i : i < n -> fin label i = false -> card label < n.
  Proof. intros L F. unfold card. assert (K : length (filter (fin label) nodes) < length nodes) by (eapply filter_length_lt; [apply in_nodes; eauto|auto]). unfold GenSched.nodes in K at 2. now rewrite seq_length in K. Qed.
  Lemma card_set label i x : i < n -> fin label i = false -> x < infinity -> card (set_label label i x) = S (card label).
  Proof.
    intros L F X. apply filter_length_add with i; auto; [apply seq_NoDup|now apply in_nodes| |].
    - unfold fin, set_label. rewrite Nat.eqb_refl. now apply Nat.ltb_lt.
    - intros y Ny. unfold fin, set_label. now rewrite (proj2 (Nat.eqb_neq y i)).
  Qed.
  Lemma card_keep label i x : fin label i = true -> x < infinity -> card (set_label label i x) = card label.
  Proof.
    intros F X. unfold card. f_equal. apply filter_ext. intros y. unfold fin, set_label in *. destruct (Nat.eqb_spec y i) as [->|]; auto. rewrite F. now apply Nat.ltb_lt.
  Qed.
  Lemma min_list_le l x : In x l -> min_list l <= x.
  Proof. unfold min_list. generalize (N.to_nat 999999). intros b. induction l as [|a l IH]; intros K; [destruct K|]. cbn [fold_right]. destruct K as [<-|K]; [lia|]. specialize (IH K). lia. Qed.
  Hypothesis small : n <= infinity.
  Record J (label : nat -> nat) (work : list nat) : Prop := {
    j_work : forall x, In x work -> x < n /\ exists y, y < n /\ adj x y /\ label y < infinity;
    j_adj : forall x y, x < n -> y < n -> adj x y -> label x < infinity -> label y < infinity \/ In y work;
    j_card : forall x, x < n -> label x < infinity -> label x < card label;
    j_le : forall x, label x <= infinity
  }.
  Lemma J_step label node rest : J label (node :: rest) ->
    let m := min_list (map label (neighbors dag node)) in
    (m + 1 < label node -> J (set_label label node (m + 1)) (rest ++ neighbors dag node)) /\
    (label node <= m + 1 -> J label rest).
  Proof.
    intros [W A Cd Le] m. destruct (W node (or_introl eq_refl)) as (Ln & y & Ly & Ay & Fy).
    assert (My : m <= label y) by (apply min_list_le; apply in_map; apply in_neighbors; auto).
    assert (Cy := Cd y Ly Fy). assert (Cn := card_le label). split.
    - intros Lt. assert (Fm : m + 1 < infinity) by (assert (T := Le node); lia).
      assert (Mono : forall x, label x < infinity -> set_label label node (m + 1) x < infinity) by (intros x Fx; unfold set_label; destruct (x =? node); auto).
      constructor.
      + intros x Hx. apply in_app_iff in Hx. destruct Hx as [Hx|Hx].
        * destruct (W x (or_intror Hx)) as (Lx & z & Lz & Az & Fz). split; auto. exists z. auto.
        * apply in_neighbors in Hx. destruct Hx as [Lx Ax]. split; auto. exists node. split; auto. split; [now apply adj_sym|]. unfold set_label. now rewrite Nat.eqb_refl.
      + intros x z Lx Lz Axz. unfold set_label at 1. destruct (Nat.eqb_spec x node) as [->|Nx]; intros Fx.
        * right. apply in_app_iff. right. apply in_neighbors. auto.
        * destruct (A x z Lx Lz Axz Fx) as [Fz|[<-|Hz]]; [left; auto| |right; apply in_app_iff; auto]. left. unfold set_label. now rewrite Nat.eqb_refl.
      + intros x Lx Fx. destruct (fin label node) eqn:Fn.
        * rewrite card_keep by auto. assert (T := Cd node Ln (proj1 (Nat.ltb_lt _ _) Fn)). unfold set_label in *. destruct (Nat.eqb_spec x node) as [->|]; [lia|auto].
        * rewrite card_set by auto. unfold set_label in *. destruct (Nat.eqb_spec x node) as [->|]; [lia|]. specialize (Cd x Lx Fx). lia.
      + intros x. unfold set_label. destruct (x =? node); [lia|auto].
    - intros Ge. constructor; auto.
      + intros x Hx. apply W. now right.
      + intros x z Lx Lz Axz Fx. destruct (A x z Lx Lz Axz Fx) as [Fz|[<-|Hz]]; auto. left.
        destruct (fin label node) eqn:Fn; [now apply Nat.ltb_lt in Fn|]. assert (T := card_lt label node Ln Fn). lia.
  Qed.
  Lemma bfs_J fuel : forall label work label', J label work -> bfs_loop dag fuel label work = Some label' -> J label' [] /\ forall x, label x < infinity -> label' x < infinity.
  Proof.
    induction fuel as [|f IH]; intros label [|node rest] label' Jl; cbn [bfs_loop]; try discriminate; try (intros [= <-]; auto).
    destruct (J_step label node rest Jl) as [A B]. destruct (Nat.ltb_spec (min_list (map label (neighbors dag node)) + 1) (label node)) as [Lt|Ge]; intros E.
    - destruct (IH _ _ _ (A Lt) E) as [J' M]. split; auto. intros x Fx. apply M. unfold set_label. destruct (x =? node); auto. assert (T := j_le _ _ Jl node). lia.
    - exact (IH _ _ _ (B Ge) E).
  Qed.
  Definition sumlab (label : nat -> nat) : nat := list_sum (map label nodes).
  Lemma sum_dec label i x l : NoDup l -> In i l -> x < label i -> list_sum (map (set_label label i x) l) < list_sum (map label l).
  Proof. clear RK small rank.
    intros ND K Lt. induction l as [|a l IH]; [destruct K|]. inversion ND; subst. cbn [map list_sum fold_right]. change (fold_right Nat.add 0) with list_sum. destruct K as [<-|K].
    - replace (list_sum (map (set_label label a x) l)) with (list_sum (map label l)).
      + unfold set_label. rewrite Nat.eqb_refl. lia.
      + f_equal. apply map_ext_in. intros b Hb. unfold set_label. destruct (Nat.eqb_spec b a) as [->|]; [contradiction|auto].
    - assert (a <> i) by (intros ->; auto). specialize (IH H2 K). unfold set_label at 1. rewrite (proj2 (Nat.eqb_neq a i)) by auto. lia.
  Qed.
  Lemma bfs_total : forall k label, sumlab label < k -> forall work, (forall x, In x work -> x < n) -> exists f label', bfs_loop dag f label work = Some label'.
  Proof. clear RK small rank.
    induction k as [|k IH]; intros label Ls; [lia|]. induction work as [|node rest IHw]; intros W; [exists 0, label; reflexivity|].
    destruct (Nat.ltb_spec (min_list (map label (neighbors dag node)) + 1) (label node)) as [Lt|Ge].
    - destruct (IH (set_label label node (min_list (map label (neighbors dag node)) + 1))) with (work := rest ++ neighbors dag node) as (f & l' & E).
      + assert (T := sum_dec label node _ nodes (seq_NoDup _ _) (proj2 (in_nodes node) (W node (or_introl eq_refl))) Lt). unfold sumlab in *. lia.
      + intros x Hx. apply in_app_iff in Hx. destruct Hx as [Hx|Hx]; [apply W; now right|now apply in_neighbors in Hx].
      + exists (S f), l'. cbn [bfs_loop]. apply Nat.ltb_lt in Lt. now rewrite Lt.
    - destruct IHw as (f & l' & E); [intros; apply W; now right|]. exists (S f), l'. cbn [bfs_loop]. apply Nat.ltb_ge in Ge. now rewrite Ge.
  Qed.
  Lemma bfs_mono f : forall f' label work l', f <= f' -> bfs_loop dag f label work = Some l' -> bfs_loop dag f' label work = Some l'.
  Proof. clear RK small rank.
    induction f as [|f IH]; intros f' label [|node rest] l' L; destruct f' as [|f']; cbn [bfs_loop]; try lia; auto; try discriminate.
    destruct (_ <? _); apply IH; lia.
  Qed.
  Definition nodep (A B : list assignment) : Prop := forall a b, In a A -> In b B -> dep a b = false /\ dep b a = false.
  Lemma J_start a : a < n -> J (set_label (fun _ => infinity) a 0) (neighbors dag a).
  Proof.
    intros La. assert (Pos : 0 < infinity) by lia.
    assert (F0 : forall x, set_label (fun _ => infinity) a 0 x < infinity -> x = a) by (intros x; unfold set_label; destruct (Nat.eqb_spec x a); [auto|lia]).
    assert (C1' : card (set_label (fun _ => infinity) a 0) = 1).
    { rewrite card_set; auto using Nat.ltb_irrefl. f_equal. unfold card. replace (filter (fin (fun _ => infinity)) nodes) with (@nil nat); auto.
      symmetry. induction nodes as [|x l IH]; [reflexivity|]. cbn [filter]. unfold fin at 1. rewrite Nat.ltb_irrefl. exact IH. }
    constructor.
    - intros x Hx. apply in_neighbors in Hx. destruct Hx as [Lx Ax]. split; auto. exists a. split; auto. split; [now apply adj_sym|]. unfold set_label. now rewrite Nat.eqb_refl.
    - intros x y Lx Ly Axy Fx. apply F0 in Fx. subst x. right. now apply in_neighbors.
    - intros x Lx Fx. rewrite C1'. apply F0 in Fx. subst x. unfold set_label. rewrite Nat.eqb_refl. lia.
    - intros x. unfold set_label. destruct (x =? a); lia.
  Qed.
  Lemma cc_ok f A B : cc dag f = Some (A, B) -> Permutation (A ++ B) dag /\ nodep A B /\ A <> [] /\
    (B = [] -> A = dag /\ (2 <= n -> exists i j, i < n /\ j < n /\ dep (asg i) (asg j) = true)).
  Proof.
    unfold cc, bfs. destruct (inputs dag) as [|a l] eqn:Ei; [discriminate|].
    assert (La : a < n) by (assert (K : In a (inputs dag)) by (rewrite Ei; now left); now apply in_inputs in K).
    destruct (bfs_loop dag f _ _) as [label|] eqn:Eb; [|discriminate]. intros [= <- <-].
    destruct (bfs_J _ _ _ _ (J_start a La) Eb) as [Jl M].
    assert (Fa : label a < infinity) by (apply M; unfold set_label; rewrite Nat.eqb_refl; lia).
    assert (Sp : forall i, (label i =? infinity) = negb (label i <? infinity)).
    { intros i. assert (T := j_le _ _ Jl i). destruct (Nat.ltb_spec (label i) infinity), (Nat.eqb_spec (label i) infinity); cbn; auto; lia. }
    split; [apply split_perm; auto|]. split; [|split].
    - intros x y Hx Hy. apply in_part in Hx. apply in_part in Hy. destruct Hx as (i & Li & Fi & <-), Hy as (j & Lj & Fj & <-).
      apply Nat.ltb_lt in Fi. apply Nat.eqb_eq in Fj.
      assert (N : ~ adj i j). { intros K. destruct (j_adj _ _ Jl i j Li Lj K Fi) as [Z|[]]. lia. }
      unfold adj in N. destruct (dep (asg i) (asg j)), (dep (asg j) (asg i)); tauto.
    - apply part_nil. exists a. split; auto. now apply Nat.ltb_lt.
    - intros EB. assert (All : forall i, i < n -> label i < infinity).
      { intros i Li. apply Nat.ltb_lt. destruct (label i <? infinity) eqn:E; auto. exfalso. apply (proj2 (part_nil (fun x => label x =? infinity))); auto. exists i. split; auto. now rewrite Sp, E. }
      split.
      + transitivity (map asg nodes); [|apply map_asg]. f_equal. transitivity (filter (fun _ => true) nodes).
        * apply filter_ext_in. intros i Hi. apply Nat.ltb_lt. apply All. now apply in_nodes.
        * clear. induction nodes; cbn; congruence.
      + intros L2. destruct (neighbors dag a) as [|j r] eqn:En.
        * assert (Eq : set_label (fun _ => infinity) a 0 = label) by (destruct f; cbn in Eb; congruence).
          assert (exists b, b < n /\ b <> a) as (b & Lb & Nb) by (destruct a; [exists 1|exists 0]; lia).
          assert (T := All b Lb). rewrite <- Eq in T. unfold set_label in T. rewrite (proj2 (Nat.eqb_neq b a)) in T by auto. lia.
        * assert (K : In j (neighbors dag a)) by (rewrite En; now left). apply in_neighbors in K. destruct K as [Lj [D|D]]; eauto 6.
  Qed.
  Lemma cc_total : dag <> [] -> exists f0, forall f, f0 <= f -> exists AB, cc dag f = Some AB.
  Proof.
    intros N0. destruct (exists_min N0) as (i & Li & Ni). assert (K : In i (inputs dag)) by (apply in_inputs; auto).
    unfold cc, bfs. destruct (inputs dag) as [|a l] eqn:Ei; [destruct K|].
    destruct (bfs_total (S (sumlab (set_label (fun _ => infinity) a 0))) (set_label (fun _ => infinity) a 0) (Nat.lt_succ_diag_r _) (neighbors dag a)) as (f0 & l' & E).
    { intros x Hx. now apply in_neighbors in Hx. }
    exists f0. intros f L. rewrite (bfs_mono _ _ _ _ _ L E). eauto.
  Qed.
  Lemma cc_mono f f' r : f <= f' -> cc dag f = Some r -> cc dag f' = Some r.
  Proof.
    intros L. unfold cc, bfs. destruct (inputs dag); [discriminate|]. destruct (bfs_loop dag f _ _) eqn:E; [|discriminate]. rewrite (bfs_mono _ _ _ _ _ L E). auto.
  Qed.
End Dag.

(** ** Colors *)
Lemma set_all_in c l : forall k x, In x l -> set_all c l k x = c.
Proof.
  unfold set_all. induction l as [|a l IH] using rev_ind; intros k x K; [destruct K|]. rewrite fold_left_app. cbn [fold_left]. unfold set_color at 1.
  destruct (Nat.eqb_spec x a) as [->|N]; auto. apply in_app_iff in K. destruct K as [K|[K|[]]]; [auto|congruence].
Qed.
Lemma set_all_out c l : forall k x, ~ In x l -> set_all c l k x = k x.
Proof.
  unfold set_all. induction l as [|a l IH] using rev_ind; intros k x K; [reflexivity|]. rewrite fold_left_app. cbn [fold_left]. unfold set_color at 1.
  destruct (Nat.eqb_spec x a) as [->|N]; [elim K; apply in_app_iff; right; now left|]. apply IH. intros K'. apply K. apply in_app_iff. auto.
Qed.
Lemma set_all_cases c l k x : (In x l /\ set_all c l k x = c) \/ (~ In x l /\ set_all c l k x = k x).
Proof. destruct (in_dec Nat.eq_dec x l); [left|right]; auto using set_all_in, set_all_out. Qed.
Lemma fold_sets c (g : nat -> list nat) l : forall k x,
  let k' := fold_left (fun k m => set_all c (g m) k) l k in
  ((exists y, In y l /\ In x (g y)) /\ k' x = c) \/ (~ (exists y, In y l /\ In x (g y)) /\ k' x = k x).
Proof.
  induction l as [|a l IH]; intros k x; cbn [fold_left]; [right; split; auto; intros (y & [] & _)|].
  destruct (IH (set_all c (g a) k) x) as [[(y & Hy & Hx) E]|[N E]]; [left; split; auto; exists y; split; auto; now right|].
  rewrite E. destruct (set_all_cases c (g a) k x) as [[Hx E']|[Hx E']]; [left; split; auto; exists a; split; auto; now left|].
  right. split; auto. intros (y & [<-|Hy] & Hx'); auto. apply N. eauto.
Qed.
Lemma has_color_eq c k x : has_color c k x = true <-> k x = c.
Proof. unfold has_color. destruct (k x), c; cbn; split; congruence. Qed.
Lemma has_either_eq c1 c2 k x : has_either_color c1 c2 k x = true <-> k x = c1 \/ k x = c2.
Proof. unfold has_either_color. rewrite orb_true_iff. rewrite <- !has_color_eq. reflexivity. Qed.

Section Part.
  Variable dag : list assignment.
  Variable Ms : smagic.
  Local Notation n := (nnodes dag).
  Local Notation asg := (asg dag).
  Local Notation nodes := (nodes dag).
  Local Notation preds := (predecessors dag).
  Local Notation succs := (successors dag).
  Variable rank : assignment -> nat.
  Hypothesis RK : ranked rank dag.
  Record K (k : colors) : Prop := {
    k_red : forall x y, x < n -> k x = RED -> In y (preds x) -> k y = RED;
    k_blue : forall x y, x < n -> k x = BLUE -> In y (succs x) -> k y = BLUE;
    k_yellow : forall x, x < n -> k x = YELLOW -> preds x = [];
    k_out : forall x, In x (outputs dag) -> k x = BLUE
  }.
  Lemma pred_succ x y : x < n -> In y (preds x) -> In x (succs y).
  Proof. intros L. rewrite in_preds, in_succs. tauto. Qed.
  Lemma succ_pred x y : x < n -> In y (succs x) -> In x (preds y).
  Proof. intros L. rewrite in_preds, in_succs. tauto. Qed.
  Lemma pred_lt x y : In y (preds x) -> y < n. Proof. rewrite in_preds. tauto. Qed.
  Lemma succ_lt x y : In y (succs x) -> y < n. Proof. rewrite in_succs. tauto. Qed.
  Lemma in_ready_in k x : In x (ready_in dag k) <-> x < n /\ k x = BLACK /\ forall y, In y (preds x) -> k y = RED \/ k y = YELLOW.
  Proof.
    unfold ready_in. rewrite filter_In, in_nodes, andb_true_iff, has_color_eq, forallb_forall. split.
    - intros (A & B & F). repeat split; auto. intros y Hy. now apply has_either_eq, F.
    - intros (A & B & F). repeat split; auto. intros y Hy. now apply has_either_eq, F.
  Qed.
  Lemma in_ready_out k x : In x (ready_out dag k) <-> x < n /\ (k x = BLACK \/ k x = YELLOW) /\ forall y, In y (succs x) -> k y = BLUE.
  Proof.
    unfold ready_out. rewrite filter_In, in_nodes, andb_true_iff, has_either_eq, forallb_forall. split.
    - intros (A & B & F). repeat split; auto. intros y Hy. now apply has_color_eq, F.
    - intros (A & B & F). repeat split; auto. intros y Hy. now apply has_color_eq, F.
  Qed.
  Definition after_in (k : colors) (i : list nat) : colors := fold_left (fun k m => set_all RED (preds m) (set_color RED k m)) i k.
  Lemma after_in_eq k i x : let touched := exists y, In y i /\ In x (y :: preds y) in
    (touched /\ after_in k i x = RED) \/ (~ touched /\ after_in k i x = k x).
  Proof. exact (fold_sets RED (fun m => m :: preds m) i k x). Qed.
  Lemma K_in k : K k -> K (after_in k (ready_in dag k)).
  Proof.
    intros [R B Y Ou]. set (i := ready_in dag k).
    assert (NB : forall x, (exists y, In y i /\ In x (y :: preds y)) -> k x <> BLUE).
    { intros x (y & Hy & Hx) E. apply in_ready_in in Hy. destruct Hy as (L & Eb & F). destruct Hx as [<-|Hx]; [congruence|]. destruct (F x Hx); congruence. }
    assert (Bk : forall x, k x = BLUE -> after_in k i x = BLUE). { intros x E. destruct (after_in_eq k i x) as [[T _]|[_ ->]]; auto. now apply NB in T. }
    assert (Bk' : forall x, after_in k i x = BLUE -> k x = BLUE). { intros x E. destruct (after_in_eq k i x) as [[_ T]|[_ T]]; congruence. }
    constructor.
    - intros x y L E Hy. destruct (after_in_eq k i x) as [[(z & Hz & Hx) _]|[_ E']].
      + destruct Hx as [<-|Hx].
        * destruct (after_in_eq k i y) as [[_ ->]|[N _]]; auto. elim N. exists z. split; auto. now right.
        * apply in_ready_in in Hz. destruct Hz as (Lz & _ & F). destruct (F x Hx) as [Ex|Ex].
          -- assert (Ey : k y = RED) by (apply (R x y); auto). destruct (after_in_eq k i y) as [[_ ->]|[_ ->]]; auto.
          -- rewrite (Y x L Ex) in Hy. destruct Hy.
      + rewrite E in E'. assert (Ey : k y = RED) by (apply (R x y); auto). destruct (after_in_eq k i y) as [[_ ->]|[_ ->]]; auto.
    - intros x y L E Hy. apply Bk. apply (B x y); auto.
    - intros x L E. destruct (after_in_eq k i x) as [[_ T]|[_ T]]; [congruence|]. apply Y; auto. congruence.
    - intros x Hx. apply Bk. auto.
  Qed.
  Lemma K_outs k : K k -> K (set_all BLUE (ready_out dag k) k).
  Proof.
    intros [R B Y Ou]. set (o := ready_out dag k).
    assert (Ro : forall x, k x = RED -> set_all BLUE o k x = RED).
    { intros x E. destruct (set_all_cases BLUE o k x) as [[Hx _]|[_ ->]]; auto. apply in_ready_out in Hx. destruct Hx as (_ & [T|T] & _); congruence. }
    assert (Bo : forall x, k x = BLUE -> set_all BLUE o k x = BLUE) by (intros x E; destruct (set_all_cases BLUE o k x) as [[_ ->]|[_ ->]]; auto).
    constructor.
    - intros x y L E Hy. destruct (set_all_cases BLUE o k x) as [[_ T]|[_ T]]; [congruence|]. apply Ro. apply (R x y); auto. congruence.
    - intros x y L E Hy. destruct (set_all_cases BLUE o k x) as [[Hx _]|[_ T]].
      + apply in_ready_out in Hx. destruct Hx as (_ & _ & F). auto.
      + apply Bo. apply (B x y); auto. congruence.
    - intros x L E. destruct (set_all_cases BLUE o k x) as [[_ T]|[_ T]]; [congruence|]. apply Y; auto. congruence.
    - intros x Hx. auto.
  Qed.
  Lemma loopio_ok f : forall inp donep k k', loopio dag f inp donep k = Some k' -> K k ->
    (donep = true -> (if inp then ready_out dag k else ready_in dag k) = []) -> K k' /\ ready_in dag k' = [] /\ ready_out dag k' = [].
  Proof.
    induction f as [|f IH]; intros inp donep k k'; [discriminate|]. cbn [loopio]. destruct inp.
    - destruct (ready_in dag k) as [|i l] eqn:Er.
      + destruct donep; [intros [= <-]; auto|]. intros E Kk _. apply (IH _ _ _ _ E); auto.
      + rewrite <- Er. intros E Kk _. apply (IH _ _ _ _ E); [|discriminate]. now apply K_in.
    - destruct (ready_out dag k) as [|o l] eqn:Er.
      + destruct donep; [intros [= <-]; auto|]. intros E Kk _. apply (IH _ _ _ _ E); auto.
      + rewrite <- Er. intros E Kk _. apply (IH _ _ _ _ E); [|discriminate]. now apply K_outs.
  Qed.
  (** the number of nodes not yet decided *)
  Definition undecided (k : colors) (x : nat) : bool := has_either_color BLACK YELLOW k x.
  Definition open_ (k : colors) : nat := length (filter (undecided k) nodes).
  Lemma open_dec k k' x : x < n -> undecided k x = true -> undecided k' x = false -> (forall y, undecided k' y = true -> undecided k y = true) -> open_ k' < open_ k.
  Proof.
    intros L U U' M. unfold open_. assert (Hx : In x nodes) by now apply in_nodes. revert Hx. generalize nodes. induction l as [|a l IH]; intros Hx; [destruct Hx|]. cbn [filter].
    assert (Le : length (filter (undecided k') l) <= length (filter (undecided k) l)).
    { clear - M. induction l as [|b l IH]; auto. cbn [filter]. destruct (undecided k' b) eqn:E; [rewrite (M b E); cbn; lia|]. destruct (undecided k b); cbn; lia. }
    destruct Hx as [<-|Hx]; [rewrite U, U'; cbn; lia|]. specialize (IH Hx). destruct (undecided k' a) eqn:E; [rewrite (M a E); cbn; lia|]. destruct (undecided k a); cbn; lia.
  Qed.
  Definition other (inp : bool) (k : colors) := if inp then ready_out dag k else ready_in dag k.
  Lemma loopio_total : forall m (inp donep : bool) k, 2 * open_ k + (if donep then 0 else 1) < m -> exists f k', loopio dag f inp donep k = Some k'.
  Proof.
    induction m as [|m IH]; intros inp donep k L; [lia|].
    destruct inp.
    - destruct (ready_in dag k) as [|i l] eqn:Er.
      + destruct donep; [exists 1, k; cbn [loopio]; now rewrite Er|]. destruct (IH false true k) as (f & k' & E); [lia|]. exists (S f), k'. cbn [loopio]. now rewrite Er.
      + destruct (IH false false (after_in k (ready_in dag k))) as (f & k' & E).
        * assert (Hi : In i (ready_in dag k)) by (rewrite Er; now left). assert (Hi' := Hi). apply in_ready_in in Hi'. destruct Hi' as (Li & Ei & _).
          assert (D : open_ (after_in k (ready_in dag k)) < open_ k).
          { apply open_dec with i; auto.
            - apply has_either_eq. auto.
            - destruct (after_in_eq k (ready_in dag k) i) as [[_ T]|[N _]]; [|elim N; exists i; split; auto; now left]. unfold undecided, has_either_color. now rewrite T.
            - intros y. unfold undecided. rewrite !has_either_eq. destruct (after_in_eq k (ready_in dag k) y) as [[_ ->]|[_ ->]]; auto. intros [T|T]; discriminate. }
          destruct donep; lia.
        * exists (S f), k'. cbn [loopio]. rewrite Er. rewrite Er in E. exact E.
    - destruct (ready_out dag k) as [|o l] eqn:Er.
      + destruct donep; [exists 1, k; cbn [loopio]; now rewrite Er|]. destruct (IH true true k) as (f & k' & E); [lia|]. exists (S f), k'. cbn [loopio]. now rewrite Er.
      + destruct (IH true false (set_all BLUE (ready_out dag k) k)) as (f & k' & E).
        * assert (Hi : In o (ready_out dag k)) by (rewrite Er; now left). assert (Hi' := Hi). apply in_ready_out in Hi'. destruct Hi' as (Li & Ei & _).
          assert (D : open_ (set_all BLUE (ready_out dag k) k) < open_ k).
          { apply open_dec with o; auto.
            - now apply has_either_eq.
            - unfold undecided, has_either_color. now rewrite set_all_in.
            - intros y. unfold undecided. rewrite !has_either_eq. destruct (set_all_cases BLUE (ready_out dag k) k y) as [[_ ->]|[_ ->]]; auto. intros [T|T]; discriminate. }
          destruct donep; lia.
        * exists (S f), k'. cbn [loopio]. rewrite Er. rewrite Er in E. exact E.
  Qed.
  Lemma loopio_mono f : forall f' inp donep k k', f <= f' -> loopio dag f inp donep k = Some k' -> loopio dag f' inp donep k = Some k'.
  Proof.
    induction f as [|f IH]; intros f' inp donep k k' L; [discriminate|]. destruct f' as [|f']; [lia|]. cbn [loopio].
    destruct inp; [destruct (ready_in dag k)|destruct (ready_out dag k)]; try (destruct donep; auto); apply IH; lia.
  Qed.
  (** ** The setting schedule_type = 1 loses the nodes that are left yellow; the other settings are fine *)
  Definition type_ok : Prop := schedule_type Ms <> 1%Z \/ forall i, i < n -> single_load dag Ms i = false.
  Hypothesis TY : type_ok.
  Lemma single_preds i : single_load dag Ms i = true -> preds i = [].
  Proof. unfold single_load. destruct (find_vars _) as [|x [|]]; try discriminate. destruct (preds i); [auto|discriminate]. Qed.
  Lemma null_nil {A} (l : list A) : null l = true <-> l = []. Proof. destruct l; cbn; split; congruence. Qed.
  Lemma K_init : K (init_colors dag Ms).
  Proof.
    set (c := if (schedule_type Ms =? 1)%Z then RED else if (schedule_type Ms =? -1)%Z then BLUE else BLACK).
    assert (Cs : forall x, x < n ->
      (succs x = [] /\ init_colors dag Ms x = BLUE) \/
      (succs x <> [] /\ single_load dag Ms x = true /\ init_colors dag Ms x = YELLOW) \/
      (succs x <> [] /\ single_load dag Ms x = false /\ preds x = [] /\ init_colors dag Ms x = RED) \/
      (succs x <> [] /\ single_load dag Ms x = false /\ preds x <> [] /\ init_colors dag Ms x = c)).
    { intros x L. unfold init_colors. fold c.
      destruct (set_all_cases BLUE (outputs dag) (set_all YELLOW (filter (single_load dag Ms) nodes) (set_all RED (inputs dag) (fun _ => c))) x) as [[A E]|[A E]]; rewrite E.
      { left. split; auto. apply in_outputs in A. now apply null_nil. }
      right. assert (Ns : succs x <> []) by (intros T; apply A; apply in_outputs; split; auto; now apply null_nil).
      destruct (set_all_cases YELLOW (filter (single_load dag Ms) nodes) (set_all RED (inputs dag) (fun _ => c)) x) as [[B E']|[B E']]; rewrite E'.
      { left. split; auto. apply filter_In in B. tauto. }
      right. assert (Nl : single_load dag Ms x = false) by (destruct (single_load dag Ms x) eqn:T; auto; elim B; apply filter_In; split; auto; now apply in_nodes).
      destruct (set_all_cases RED (inputs dag) (fun _ => c) x) as [[D E2]|[D E2]]; rewrite E2.
      { left. apply in_inputs in D. repeat split; auto. now apply null_nil. }
      right. repeat split; auto. intros T. apply D. apply in_inputs. split; auto. now apply null_nil. }
    assert (NoBlack : c = RED \/ c = BLUE \/ c = BLACK) by (unfold c; destruct (Z.eqb _ _); auto; destruct (Z.eqb _ _); auto).
    constructor.
    - intros x y L E Hy. assert (Ly := pred_lt x y Hy). assert (Sy := pred_succ x y L Hy). destruct (Cs x L) as [[_ T]|[(_ & _ & T)|[(_ & _ & T & _)|(A & B & D & T)]]]; try congruence; [rewrite T in Hy; destruct Hy|].
      assert (Ec : c = RED) by congruence. assert (Et : schedule_type Ms = 1%Z). { unfold c in Ec. destruct (Z.eqb_spec (schedule_type Ms) 1); auto. destruct (Z.eqb _ _); discriminate. }
      destruct (Cs y Ly) as [[T1 _]|[(_ & T1 & _)|[(_ & _ & _ & T1)|(_ & _ & _ & T1)]]]; [rewrite T1 in Sy; destruct Sy| |auto|congruence].
      destruct TY as [F|F]; [contradiction|]. rewrite F in T1 by auto. discriminate.
    - intros x y L E Hy. assert (Ly := succ_lt x y Hy). assert (Py := succ_pred x y L Hy). destruct (Cs x L) as [[T _]|[(_ & _ & T)|[(_ & _ & _ & T)|(A & B & D & T)]]]; try congruence; [rewrite T in Hy; destruct Hy|].
      destruct (Cs y Ly) as [[_ T1]|[(_ & T1 & _)|[(_ & _ & T1 & _)|(_ & _ & _ & T1)]]]; [auto|apply single_preds in T1; rewrite T1 in Py; destruct Py|rewrite T1 in Py; destruct Py|congruence].
    - intros x L E. destruct (Cs x L) as [[_ T]|[(_ & T & _)|[(_ & _ & _ & T)|(_ & _ & _ & T)]]]; try congruence; [now apply single_preds|]. rewrite T in E. destruct NoBlack as [F|[F|F]]; congruence.
    - intros x Hx. unfold init_colors. now rewrite set_all_in.
  Qed.
  Lemma all_decided k : K k -> ready_in dag k = [] -> ready_out dag k = [] -> forall x, x < n -> k x = RED \/ k x = BLUE.
  Proof.
    intros [R B Y Ou] Ei Eo.
    assert (NBl : forall r x, x < n -> rank (asg x) < r -> k x <> BLACK).
    { induction r as [|r IH]; intros x L Lr E; [lia|].
      assert (Nx : ~ In x (ready_in dag k)) by (rewrite Ei; auto). apply Nx. apply in_ready_in. split; auto. split; auto. intros y Hy.
      assert (Ly := pred_lt x y Hy). assert (Hy' := Hy). apply in_preds in Hy'. destruct Hy' as [_ D]. assert (Lt := edge_rank dag rank RK y x Ly L D).
      destruct (k y) eqn:Ey; auto; exfalso.
      - assert (T := B y x Ly Ey (pred_succ x y L Hy)). congruence.
      - apply (IH y Ly); auto. lia. }
    intros x L. destruct (k x) eqn:E; auto; exfalso; [eapply NBl; eauto|].
    assert (Nx : ~ In x (ready_out dag k)) by (rewrite Eo; auto). apply Nx. apply in_ready_out. split; auto. split; auto. intros y Hy.
    assert (Ly := succ_lt x y Hy). assert (Py := succ_pred x y L Hy). destruct (k y) eqn:Ey; auto; exfalso.
    - assert (T := R y x Ly Ey Py). congruence.
    - eapply NBl; eauto.
    - rewrite (Y y Ly Ey) in Py. destruct Py.
  Qed.
  Lemma partition_ok f r b : partition dag Ms f = Some (r, b) ->
    Permutation (r ++ b) dag /\ (forall x y, In x b -> In y r -> dep x y = false) /\
    ((exists i j, i < n /\ j < n /\ dep (asg i) (asg j) = true) -> length r < length dag /\ length b < length dag).
  Proof.
    unfold partition. destruct (loopio dag f true false (init_colors dag Ms)) as [k|] eqn:El; [|discriminate].
    destruct (loopio_ok _ _ _ _ _ El K_init) as (Kk & Ei & Eo); [discriminate|]. assert (Ad := all_decided k Kk Ei Eo).
    set (k2 := if existsb (has_color RED k) nodes then k else set_all RED (inputs dag) k). intros [= <- <-].
    assert (Kr : forall x y, x < n -> k2 x = RED -> In y (preds x) -> k2 y = RED).
    { unfold k2. destruct (existsb (has_color RED k) nodes) eqn:Ex; [apply Kk|]. intros x y L E Hy. destruct (set_all_cases RED (inputs dag) k x) as [[T _]|[_ T]].
      - apply in_inputs in T. destruct T as [_ T]. apply null_nil in T. rewrite T in Hy. destruct Hy.
      - exfalso. rewrite E in T. assert (F : existsb (has_color RED k) nodes = true) by (apply existsb_exists; exists x; split; [now apply in_nodes|now apply has_color_eq]). congruence. }
    assert (Ad2 : forall x, x < n -> k2 x = RED \/ k2 x = BLUE).
    { intros x L. unfold k2. destruct (existsb (has_color RED k) nodes); auto. destruct (set_all_cases RED (inputs dag) k x) as [[_ ->]|[_ ->]]; auto. }
    assert (P : Permutation (map asg (filter (has_color RED k2) nodes) ++ map asg (filter (has_color BLUE k2) nodes)) dag).
    { apply split_perm. intros i L. unfold has_color. destruct (Ad2 i L) as [->| ->]; reflexivity. }
    split; [exact P|]. split.
    - intros x y Hx Hy. apply in_part in Hx. apply in_part in Hy. destruct Hx as (i & Li & Fi & <-), Hy as (j & Lj & Fj & <-). apply has_color_eq in Fi. apply has_color_eq in Fj.
      destruct (dep (asg i) (asg j)) eqn:D; auto. exfalso. assert (T := Kr j i Lj Fj (proj2 (in_preds dag i j) (Logic.conj Li D))). congruence.
    - intros (i & j & Li & Lj & D). apply Permutation_length in P. rewrite app_length in P.
      assert (N0 : dag <> []) by (intros T; unfold nnodes in Li; rewrite T in Li; cbn in Li; lia).
      assert (Rn : map asg (filter (has_color RED k2) nodes) <> []).
      { apply part_nil. unfold k2. destruct (existsb (has_color RED k) nodes) eqn:Ex.
        - apply existsb_exists in Ex. destruct Ex as (x & Hx & E). exists x. split; auto. now apply in_nodes.
        - destruct (exists_min dag rank RK N0) as (x & L & E). exists x. split; auto. apply has_color_eq. apply set_all_in. apply in_inputs. auto. }
      assert (Bn : map asg (filter (has_color BLUE k2) nodes) <> []).
      { apply part_nil. unfold k2. destruct (existsb (has_color RED k) nodes) eqn:Ex.
        - destruct (exists_max dag rank RK N0) as (x & L & E). exists x. split; auto. apply has_color_eq. apply (k_out _ Kk). apply in_outputs. auto.
        - exists j. split; auto. apply has_color_eq. rewrite set_all_out.
          + destruct (Ad j Lj) as [T|T]; auto. assert (F : existsb (has_color RED k) nodes = true) by (apply existsb_exists; exists j; split; [now apply in_nodes|now apply has_color_eq]). congruence.
          + intros T. apply in_inputs in T. destruct T as [_ T]. apply null_nil in T. assert (H : In i (preds j)) by (apply in_preds; auto). rewrite T in H. destruct H. }
      destruct (map asg (filter (has_color RED k2) nodes)), (map asg (filter (has_color BLUE k2) nodes)); try congruence. cbn [length] in *. lia.
  Qed.
  Lemma partition_total : exists f0, forall f, f0 <= f -> exists rb, partition dag Ms f = Some rb.
  Proof.
    destruct (loopio_total _ true false (init_colors dag Ms) (Nat.lt_succ_diag_r _)) as (f0 & k' & E). exists f0. intros f L. unfold partition. rewrite (loopio_mono _ _ _ _ _ _ L E). eauto.
  Qed.
  Lemma partition_mono f f' r : f <= f' -> partition dag Ms f = Some r -> partition dag Ms f' = Some r.
  Proof. intros L. unfold partition. destruct (loopio dag f true false _) eqn:E; [|discriminate]. rewrite (loopio_mono _ _ _ _ _ _ L E). auto. Qed.

  (** ** The separation of the precomputations *)
  Lemma in_front k x : In x (red_front dag k) <-> x < n /\ k x = RED /\ exists y, In y (succs x) /\ k y = BLUE.
  Proof.
    unfold red_front. rewrite filter_In, in_nodes, andb_true_iff, has_color_eq, existsb_exists. split.
    - intros (A & B & y & Hy & E). apply has_color_eq in E. eauto.
    - intros (A & B & y & Hy & E). repeat split; auto. exists y. rewrite has_color_eq. auto.
  Qed.
  Definition two (k : colors) : Prop := forall x, k x = RED \/ k x = BLUE.
  Lemma loopp_ok f : forall k k', two k -> loopp dag f k = Some k' -> two k' /\ red_front dag k' = [].
  Proof.
    induction f as [|f IH]; intros k k' T; [discriminate|]. cbn [loopp]. destruct (red_front dag k) as [|a l] eqn:E; [intros [= <-]; auto|]. apply IH.
    intros x. destruct (fold_sets RED succs (a :: l) k x) as [[_ ->]|[_ ->]]; auto.
  Qed.
  Lemma partp_ok f b r : partition_precomputations dag f = Some (b, r) -> Permutation (b ++ r) dag /\ forall x y, In x r -> In y b -> dep x y = false.
  Proof.
    unfold partition_precomputations. destruct (loopp dag f _) as [k|] eqn:E; [|discriminate]. intros [= <- <-]. apply loopp_ok in E.
    - destruct E as [T E]. split.
      + apply split_perm. intros i _. unfold has_color. destruct (T i) as [->| ->]; reflexivity.
      + intros x y Hx Hy. apply in_part in Hx. apply in_part in Hy. destruct Hx as (i & Li & Fi & <-), Hy as (j & Lj & Fj & <-). apply has_color_eq in Fi. apply has_color_eq in Fj.
        destruct (dep (asg i) (asg j)) eqn:D; auto. exfalso. assert (H : In i (red_front dag k)). { apply in_front. split; auto. split; auto. exists j. split; auto. now apply in_succs. } rewrite E in H. destruct H.
    - intros x. destruct (set_all_cases RED (filter (loads_locative dag) nodes) (fun _ => BLUE) x) as [[_ ->]|[_ ->]]; auto.
  Qed.
  Definition blues (k : colors) : nat := length (filter (has_color BLUE k) nodes).
  Lemma blues_dec k k' x : x < n -> k x = BLUE -> k' x <> BLUE -> (forall y, k' y = BLUE -> k y = BLUE) -> blues k' < blues k.
  Proof.
    intros L U U' M. unfold blues. assert (Hx : In x nodes) by now apply in_nodes. revert Hx. generalize nodes.
    assert (M' : forall y, has_color BLUE k' y = true -> has_color BLUE k y = true) by (intros y; rewrite !has_color_eq; auto).
    assert (Ux : has_color BLUE k x = true) by now apply has_color_eq. assert (Ux' : has_color BLUE k' x = false) by (destruct (has_color BLUE k' x) eqn:T; auto; apply has_color_eq in T; contradiction).
    induction l as [|a l IH]; intros Hx; [destruct Hx|]. cbn [filter].
    assert (Le : length (filter (has_color BLUE k') l) <= length (filter (has_color BLUE k) l)).
    { clear - M'. induction l as [|b l IH]; auto. cbn [filter]. destruct (has_color BLUE k' b) eqn:E; [rewrite (M' b E); cbn; lia|]. destruct (has_color BLUE k b); cbn; lia. }
    destruct Hx as [<-|Hx]; [rewrite Ux, Ux'; cbn; lia|]. specialize (IH Hx). destruct (has_color BLUE k' a) eqn:E; [rewrite (M' a E); cbn; lia|]. destruct (has_color BLUE k a); cbn; lia.
  Qed.
  Lemma loopp_total : forall m k, blues k < m -> exists f k', loopp dag f k = Some k'.
  Proof.
    induction m as [|m IH]; intros k L; [lia|]. destruct (red_front dag k) as [|a l] eqn:E; [exists 1, k; cbn [loopp]; now rewrite E|].
    destruct (IH (fold_left (fun k n => set_all RED (succs n) k) (a :: l) k)) as (f & k' & E').
    - assert (Ha : In a (red_front dag k)) by (rewrite E; now left). apply in_front in Ha. destruct Ha as (La & Ea & y & Hy & Ey).
      assert (blues (fold_left (fun k n => set_all RED (succs n) k) (a :: l) k) < blues k); [|lia]. apply blues_dec with y; auto.
      + now apply succ_lt in Hy.
      + destruct (fold_sets RED succs (a :: l) k y) as [[_ ->]|[N _]]; [discriminate|]. elim N. exists a. split; auto. now left.
      + intros z. destruct (fold_sets RED succs (a :: l) k z) as [[_ ->]|[_ ->]]; congruence.
    - exists (S f), k'. cbn [loopp]. now rewrite E.
  Qed.
  Lemma loopp_mono f : forall f' k k', f <= f' -> loopp dag f k = Some k' -> loopp dag f' k = Some k'.
  Proof. induction f as [|f IH]; intros [|f'] k k' L; try discriminate; [lia|]. cbn [loopp]. destruct (red_front dag k); auto. apply IH. lia. Qed.
  Lemma partp_total : exists f0, forall f, f0 <= f -> exists rb, partition_precomputations dag f = Some rb.
  Proof.
    destruct (loopp_total _ (set_all RED (filter (loads_locative dag) nodes) (fun _ => BLUE)) (Nat.lt_succ_diag_r _)) as (f0 & k' & E). exists f0. intros f L. unfold partition_precomputations. rewrite (loopp_mono _ _ _ _ L E). eauto.
  Qed.
End Part.

(** ** Connected components *)
Lemma nodep_sym A B : nodep A B -> nodep B A.
Proof. intros N a b Ha Hb. destruct (N b a Hb Ha). auto. Qed.
Lemma nodep_incl A B A' B' : incl A' A -> incl B' B -> nodep A B -> nodep A' B'.
Proof. intros IA IB N a b Ha Hb. apply N; auto. Qed.
Lemma in_concat_part {A} (x : A) ps p : In p ps -> In x p -> In x (concat ps).
Proof. intros Hp Hx. apply in_concat. eauto. Qed.
Lemma components_ok rank f : forall l ps, connected_components f l = Some ps -> ranked rank l -> length l <= infinity ->
  Permutation (concat ps) l /\ (forall p, In p ps -> p <> []) /\ ForallOrdPairs nodep ps /\
  (forall a, ps = [a] -> a = l /\ (2 <= length l -> exists i j, i < length l /\ j < length l /\ dep (asg l i) (asg l j) = true)).
Proof.
  induction f as [|f IH]; intros l ps; [discriminate|]. cbn [connected_components]. destruct (cc l (S f)) as [[A B]|] eqn:Ec; [|discriminate].
  intros E R Ln. destruct (cc_ok l Ln (S f) A B Ec) as (P & N & NA & Z). destruct B as [|b B].
  - injection E as <-. destruct (Z eq_refl) as [-> Z2]. split; [cbn; now rewrite app_nil_r|]. split; [intros p [<-|[]]; auto|]. split; [repeat constructor|]. intros a [= <-]. auto.
  - destruct (connected_components f (b :: B)) as [qs|] eqn:Eq; [|discriminate]. injection E as <-.
    assert (IB : incl (b :: B) l) by (intros x Hx; apply (Permutation_in x P); apply in_app_iff; auto).
    assert (Pl := Permutation_length P). rewrite app_length in Pl.
    destruct (IH _ _ Eq (ranked_incl _ _ _ IB R)) as (P2 & N2 & F2 & _); [lia|]. split; [|split; [|split]].
    + cbn [concat]. rewrite P2. exact P.
    + intros p [<-|Hp]; auto.
    + constructor; auto. apply Forall_forall. intros q Hq. eapply nodep_incl; [| |exact N]; [intros x; auto|]. intros x Hx. apply (Permutation_in x P2). eapply in_concat_part; eauto.
    + intros a [= <- ->]. cbn in P2. apply Permutation_nil in P2. discriminate.
Qed.
Lemma components_total rank : forall m l, length l < m -> l <> [] -> ranked rank l -> length l <= infinity ->
  exists f0, forall f, f0 <= f -> exists ps, connected_components f l = Some ps.
Proof.
  induction m as [|m IH]; intros l Lm N0 R Ln; [lia|]. destruct (cc_total l rank R N0) as (f1 & F1).
  destruct (F1 f1 (le_n _)) as ([A B] & E1). destruct (cc_ok l Ln f1 A B E1) as (P & N & NA & _).
  assert (Pl := Permutation_length P). rewrite app_length in Pl.
  destruct B as [|b B].
  - exists (S f1). intros [|f] L; [lia|]. exists [A]. cbn [connected_components]. rewrite (cc_mono _ f1 (S f) _ ltac:(lia) E1). reflexivity.
  - assert (LA : length A <> 0) by (destruct A; cbn; congruence).
    destruct (IH (b :: B)) as (f2 & F2); [lia|discriminate| |lia|].
    { eapply ranked_incl; [|exact R]. intros x Hx. apply (Permutation_in x P). apply in_app_iff. auto. }
    exists (S (f1 + f2)). intros [|f] L; [lia|]. destruct (F2 f ltac:(lia)) as (ps & E2). exists (A :: ps). cbn [connected_components]. rewrite (cc_mono _ f1 (S f) _ ltac:(lia) E1), E2. reflexivity.
Qed.
Lemma components_mono : forall f f' l ps, f <= f' -> connected_components f l = Some ps -> connected_components f' l = Some ps.
Proof.
  induction f as [|f IH]; intros [|f'] l ps L; try discriminate; [lia|]. cbn [connected_components].
  destruct (cc l (S f)) as [r|] eqn:E; [|discriminate]. rewrite (cc_mono _ _ (S f') _ L E). destruct r as [A [|b B]]; auto.
  destruct (connected_components f (b :: B)) eqn:E2; [|discriminate]. now rewrite (IH f' _ _ ltac:(lia) E2).
Qed.

(** ** The orders of execution that a schedule stands for *)
Inductive lin : sched -> list assignment -> Prop :=
| lin_done : lin Done []
| lin_instr a : lin (Instr a) [a]
| lin_seq s t a b : lin s a -> lin t b -> lin (Seq s t) (a ++ b)
| lin_par l l' ls : Permutation l l' -> Forall2 lin l' ls -> lin (Par l) (concat ls).
Definition ordered (l : list assignment) : Prop := ForallOrdPairs (fun a b => dep b a = false) l.
Lemma FOP_app {A} (R : A -> A -> Prop) l1 l2 : ForallOrdPairs R l1 -> ForallOrdPairs R l2 -> (forall a b, In a l1 -> In b l2 -> R a b) -> ForallOrdPairs R (l1 ++ l2).
Proof.
  induction 1 as [|a l F O IH]; intros O2 X; [exact O2|]. cbn [app]. constructor; [|apply IH; auto; intros; apply X; auto; now right].
  rewrite Forall_forall in *. intros x Hx. apply in_app_iff in Hx. destruct Hx as [Hx|Hx]; auto. apply X; auto. now left.
Qed.
Lemma FOP_app_inv {A} (R : A -> A -> Prop) l1 l2 : ForallOrdPairs R (l1 ++ l2) -> ForallOrdPairs R l1 /\ ForallOrdPairs R l2 /\ forall a b, In a l1 -> In b l2 -> R a b.
Proof.
  induction l1 as [|x l1 IH]; cbn [app]; intros F; [repeat split; auto; try constructor; intros a b []|]. inversion F as [|? ? Fx F']; subst. destruct (IH F') as (A1 & A2 & A3).
  rewrite Forall_forall in Fx. split; [constructor; auto; apply Forall_forall; intros y Hy; apply Fx; apply in_app_iff; auto|]. split; auto.
  intros a b [<-|Ha] Hb; auto. apply Fx. apply in_app_iff. auto.
Qed.
Lemma FOP_perm {A} (R : A -> A -> Prop) l l' : (forall a b, R a b -> R b a) -> Permutation l l' -> ForallOrdPairs R l -> ForallOrdPairs R l'.
Proof.
  intros Sy P. induction P as [|x l l' P IH|x y l|l l' l'' P1 IH1 P2 IH2]; intros F; auto.
  - inversion F as [|? ? Fx F']; subst. constructor; auto. eapply Permutation_Forall; eauto.
  - inversion F as [|? ? Fx F']; subst. inversion F' as [|? ? Fy F'']; subst. inversion Fx; subst. constructor; [constructor; auto|]. constructor; auto.
Qed.
Lemma ordered_concat ls : Forall ordered ls -> ForallOrdPairs nodep ls -> ordered (concat ls).
Proof.
  induction ls as [|a ls IH]; intros F O; [constructor|]. inversion F; subst. inversion O as [|? ? Oa O']; subst. cbn [concat]. apply FOP_app; [auto|now apply IH|].
  intros x y Hx Hy. apply in_concat in Hy. destruct Hy as (q & Hq & Hy). rewrite Forall_forall in Oa. now apply (Oa q Hq).
Qed.
Definition special (Ms : smagic) (a : assignment) : bool :=
  match find_vars (snd a) with [x] => var_is_constant x || (locations_are_special Ms && is_locative x) | _ => false end.
Definition type_okl (Ms : smagic) (l : list assignment) : Prop := schedule_type Ms <> 1%Z \/ forall a, In a l -> special Ms a = false.
Lemma type_okl_incl Ms l l' : incl l' l -> type_okl Ms l -> type_okl Ms l'.
Proof. intros I [N|N]; [now left|right; auto]. Qed.
Lemma type_okl_ok Ms l : type_okl Ms l -> type_ok l Ms.
Proof.
  intros [N|N]; [now left|right]. intros i L. specialize (N (asg l i) (asg_in l i L)). unfold special in N. unfold single_load. destruct (find_vars _) as [|x [|]]; auto. destruct (predecessors l i); auto.
Qed.
Section Schedule.
  Variable Ms : smagic.
  Variable rank : assignment -> nat.
  Definition fine (l : list assignment) : Prop := ranked rank l /\ length l <= infinity /\ type_okl Ms l.
  Lemma fine_incl l l' : incl l' l -> length l' <= length l -> fine l -> fine l'.
  Proof. intros I L (R & Ln & T). split; [eapply ranked_incl; eauto|]. split; [lia|]. eapply type_okl_incl; eauto. Qed.
  Lemma in_part_length {A} (p : list A) ps : In p ps -> length p <= length (concat ps).
  Proof. induction ps as [|q ps IH]; intros H; [destruct H|]. cbn [concat]. rewrite app_length. destruct H as [<-|H]; [lia|]. specialize (IH H). lia. Qed.
  Lemma fine_part l ps p : Permutation (concat ps) l -> In p ps -> fine l -> fine p.
  Proof.
    intros P Hp. apply fine_incl; [|rewrite <- (Permutation_length P); now apply in_part_length]. intros x Hx. apply (Permutation_in x P). eapply in_concat_part; eauto.
  Qed.
  Lemma schedule_eq f l : 2 <= length l -> schedule_alist Ms (S f) l =
    match connected_components (S f) l with
    | None => None
    | Some [a] => match partition a Ms (S f) with
              | Some (r, b) => match schedule_alist Ms f r, schedule_alist Ms f b with Some s, Some t => Some (Seq s t) | _, _ => None end
              | None => None end
    | Some l => match omap (schedule_alist Ms f) l with Some s => Some (Par s) | None => None end
    end.
  Proof. destruct l as [|a [|b l]]; cbn [length]; try lia. intros _. reflexivity. Qed.
  Definition sched_good (s : sched) (l : list assignment) : Prop := forall l', lin s l' -> Permutation l' l /\ ordered l'.
  Lemma omap_good f ps : (forall p s, In p ps -> schedule_alist Ms f p = Some s -> sched_good s p) -> forall ss, omap (schedule_alist Ms f) ps = Some ss -> Forall2 sched_good ss ps.
  Proof.
    induction ps as [|p ps IH]; intros G ss; cbn [omap]; [intros [= <-]; constructor|]. destruct (schedule_alist Ms f p) as [s|] eqn:E; [|discriminate].
    destruct (omap _ ps) as [ss'|] eqn:E2; [|discriminate]. intros [= <-]. constructor; [apply G; auto; now left|]. apply IH; auto. intros; apply G; auto. now right.
  Qed.
  Lemma par_good ss ps l : Forall2 sched_good ss ps -> Permutation (concat ps) l -> ForallOrdPairs nodep ps -> sched_good (Par ss) l.
  Proof.
    intros F P N l' Hl. inversion Hl as [| | |? ss' ls Pss Fl]; subst.
    assert (exists ps', Permutation ps ps' /\ Forall2 sched_good ss' ps') as (ps' & Pp & F').
    { clear - F Pss. revert ps F. induction Pss as [|x a b Pab IH|x y a|a b c P1 IH1 P2 IH2]; intros ps F.
      - inversion F; subst. exists []. auto.
      - inversion F as [|? p ? ps0 G F0]; subst. destruct (IH _ F0) as (q & Pq & Fq). exists (p :: q). auto.
      - inversion F as [|? p ? ps0 G F0]; subst. inversion F0 as [|? p' ? ps1 G' F1]; subst. exists (p' :: p :: ps1). split; [constructor|auto].
      - destruct (IH1 _ F) as (q & Pq & Fq). destruct (IH2 _ Fq) as (q' & Pq' & Fq'). exists q'. split; auto. etransitivity; eauto. }
    assert (N' : ForallOrdPairs nodep ps') by (eapply FOP_perm; eauto; exact nodep_sym).
    assert (G : Forall2 (fun a p => Permutation a p /\ ordered a) ls ps').
    { clear - F' Fl. revert ps' F'. induction Fl as [|s a ss' ls H Fl IH]; intros ps' F'; inversion F'; subst; constructor; auto. }
    split.
    - rewrite <- P. clear - G Pp. transitivity (concat ps').
      + clear Pp. induction G as [|a p ls ps' [H _] G IH]; [constructor|]. cbn [concat]. apply Permutation_app; auto.
      + clear G. apply Permutation_sym. induction Pp; cbn [concat]; auto.
        * now apply Permutation_app_head.
        * rewrite !app_assoc. apply Permutation_app_tail, Permutation_app_comm.
        * etransitivity; eauto.
    - apply ordered_concat.
      + clear - G. induction G as [|a p ls ps' [_ H] G IH]; constructor; auto.
      + clear - G N'. induction G as [|a p ls ps' [H _] G IH]; [constructor|]. inversion N' as [|? ? Na N0]; subst. constructor; auto.
        clear IH N0 N'. induction G as [|b q ls ps' [H' _] G IH]; constructor; inversion Na; subst; auto. eapply nodep_incl; [| |eassumption]; intros x; now apply Permutation_in.
  Qed.
  Lemma schedule_ok f : forall l s, schedule_alist Ms f l = Some s -> fine l -> sched_good s l.
  Proof.
    induction f as [|f IH]; intros l s E Fl.
    - destruct l as [|a [|b l]]; cbn in E; try discriminate; injection E as <-; intros l' Hl; inversion Hl; subst; repeat constructor.
    - assert (D : length l < 2 \/ 2 <= length l) by lia. destruct D as [D|D].
      { destruct l as [|a [|b l]]; cbn in E, D; try lia; injection E as <-; intros l' Hl; inversion Hl; subst; repeat constructor. }
      rewrite (schedule_eq f l D) in E. destruct (connected_components (S f) l) as [ps|] eqn:Ec; [|discriminate].
      destruct Fl as (R & Ln & Ty). destruct (components_ok rank _ _ _ Ec R Ln) as (P & Np & O & One).
      assert (ParCase : match omap (schedule_alist Ms f) ps with Some s0 => Some (Par s0) | None => None end = Some s -> sched_good s l).
      { destruct (omap (schedule_alist Ms f) ps) as [ss|] eqn:Eo; [|discriminate]. intros [= <-]. eapply par_good; eauto. eapply omap_good; eauto.
        intros p s' Hp E'. eapply IH; eauto. eapply fine_part; eauto. now split. }
      destruct ps as [|a [|a2 ps]]; auto. destruct (One a eq_refl) as [-> Ed]. clear ParCase.
      destruct (partition l Ms (S f)) as [[r b]|] eqn:Ep; [|discriminate].
      destruct (schedule_alist Ms f r) as [s1|] eqn:E1; [|discriminate]. destruct (schedule_alist Ms f b) as [s2|] eqn:E2; [|discriminate]. injection E as <-.
      destruct (partition_ok l Ms rank R (type_okl_ok _ _ Ty) _ _ _ Ep) as (Pp & Nd & _). assert (Lp := Permutation_length Pp). rewrite app_length in Lp.
      assert (G1 : sched_good s1 r) by (eapply IH; eauto; eapply fine_incl with (l := l); [intros x Hx; apply (Permutation_in x Pp), in_app_iff; auto|lia|now split]).
      assert (G2 : sched_good s2 b) by (eapply IH; eauto; eapply fine_incl with (l := l); [intros x Hx; apply (Permutation_in x Pp), in_app_iff; auto|lia|now split]).
      intros l' Hl. inversion Hl as [| |? ? la lb Ha Hb|]; subst. destruct (G1 _ Ha) as [P1 O1]. destruct (G2 _ Hb) as [P2 O2]. split.
      + rewrite <- Pp. now apply Permutation_app.
      + apply FOP_app; auto. intros x y Hx Hy. apply Nd; [apply (Permutation_in y P2)|apply (Permutation_in x P1)]; auto.
  Qed.
  Lemma schedule_mono : forall f f' l s, f <= f' -> schedule_alist Ms f l = Some s -> schedule_alist Ms f' l = Some s.
  Proof.
    induction f as [|f IH]; intros f' l s L E.
    - destruct l as [|a [|b l]]; cbn in E; try discriminate; destruct f'; exact E.
    - destruct f' as [|f']; [lia|]. assert (D : length l < 2 \/ 2 <= length l) by lia. destruct D as [D|D].
      { destruct l as [|a [|b l]]; cbn in D; try lia; exact E. }
      rewrite (schedule_eq f l D) in E. rewrite (schedule_eq f' l D).
      destruct (connected_components (S f) l) as [ps|] eqn:Ec; [|discriminate]. rewrite (components_mono _ (S f') _ _ L Ec).
      assert (Om : forall qs ss, omap (schedule_alist Ms f) qs = Some ss -> omap (schedule_alist Ms f') qs = Some ss).
      { induction qs as [|q qs IHq]; intros ss; cbn [omap]; auto. destruct (schedule_alist Ms f q) as [t|] eqn:Et; [|discriminate]. rewrite (IH f' _ _ ltac:(lia) Et).
        destruct (omap _ qs); [|discriminate]. now rewrite (IHq _ eq_refl). }
      assert (Pc : match omap (schedule_alist Ms f) ps with Some s0 => Some (Par s0) | None => None end = Some s -> match omap (schedule_alist Ms f') ps with Some s0 => Some (Par s0) | None => None end = Some s).
      { destruct (omap (schedule_alist Ms f) ps) eqn:Eo; [|discriminate]. now rewrite (Om _ _ Eo). }
      destruct ps as [|a [|a2 ps]]; auto. destruct (partition a Ms (S f)) as [[r b]|] eqn:Ep; [|discriminate]. rewrite (partition_mono _ _ _ (S f') _ L Ep).
      destruct (schedule_alist Ms f r) eqn:E1; [|discriminate]. destruct (schedule_alist Ms f b) eqn:E2; [|discriminate]. now rewrite (IH f' _ _ ltac:(lia) E1), (IH f' _ _ ltac:(lia) E2).
  Qed.
  Lemma schedule_total : forall m l, length l < m -> fine l -> exists f s, schedule_alist Ms f l = Some s.
  Proof.
    induction m as [|m IH]; intros l Lm Fl; [lia|]. assert (D : length l < 2 \/ 2 <= length l) by lia. destruct D as [D|D].
    { destruct l as [|a [|b l]]; cbn in D; try lia; exists 0; eexists; reflexivity. }
    destruct Fl as (R & Ln & Ty). assert (N0 : l <> []) by (intros ->; cbn in D; lia).
    destruct (components_total rank (S (length l)) l (Nat.lt_succ_diag_r _) N0 R Ln) as (f1 & F1).
    destruct (F1 f1 (le_n _)) as (ps & Ec). destruct (components_ok rank _ _ _ Ec R Ln) as (P & Np & O & One).
    assert (Many : (forall a, ps <> [a]) -> exists f ss, omap (schedule_alist Ms f) ps = Some ss).
    { intros Ne. assert (Sm : forall p, In p ps -> length p < length l).
      { intros p Hp. apply in_split in Hp. destruct Hp as (q1 & q2 & ->). rewrite <- (Permutation_length P). rewrite concat_app, app_length. cbn [concat]. rewrite app_length.
        assert (Q : forall q, In q q1 \/ In q q2 -> length q <> 0) by (intros q Hq Z; apply (Np q); [apply in_app_iff; destruct Hq; [left|right; right]; auto|destruct q; [auto|discriminate]]).
        destruct q1 as [|q q1]; [destruct q2 as [|q q2]; [now elim (Ne p)|]|]; assert (T := Q q); cbn [concat]; rewrite app_length; cbn [In] in T; intuition lia. }
      assert (Fi : forall p, In p ps -> fine p) by (intros p Hp; eapply fine_part; eauto; now split).
      clear - IH Sm Fi Lm. induction ps as [|p ps IHp]; [exists 0, []; reflexivity|]. destruct IHp as (f2 & ss & E2); [intros; apply Sm; now right|intros; apply Fi; now right|].
      destruct (IH p) as (f3 & s & E3); [specialize (Sm p (or_introl eq_refl)); lia|apply Fi; now left|].
      assert (Om : forall qs ss, omap (schedule_alist Ms f2) qs = Some ss -> omap (schedule_alist Ms (f2 + f3)) qs = Some ss).
      { induction qs as [|q qs IHq]; intros ss0; cbn [omap]; auto. destruct (schedule_alist Ms f2 q) as [t|] eqn:Et; [|discriminate]. rewrite (schedule_mono f2 (f2 + f3) _ _ ltac:(lia) Et).
        destruct (omap _ qs); [|discriminate]. now rewrite (IHq _ eq_refl). }
      exists (f2 + f3), (s :: ss). cbn [omap]. rewrite (schedule_mono f3 (f2 + f3) _ _ ltac:(lia) E3). now rewrite (Om _ _ E2). }
    assert (Omono : forall f f' qs ss, f <= f' -> omap (schedule_alist Ms f) qs = Some ss -> omap (schedule_alist Ms f') qs = Some ss).
    { intros f f' qs ss Le. revert ss. induction qs as [|q qs IHq]; intros ss0; cbn [omap]; auto. destruct (schedule_alist Ms f q) as [t|] eqn:Et; [|discriminate]. rewrite (schedule_mono f f' _ _ Le Et).
      destruct (omap _ qs); [|discriminate]. now rewrite (IHq _ eq_refl). }
    assert (ParCase : (forall a, ps <> [a]) -> exists f s, schedule_alist Ms f l = Some s).
    { intros Ne. destruct (Many Ne) as (f2 & ss & E2). exists (S (f1 + f2)), (Par ss). rewrite schedule_eq by exact D. rewrite (components_mono f1 (S (f1 + f2)) _ _ ltac:(lia) Ec), (Omono f2 (f1 + f2) _ _ ltac:(lia) E2).
      destruct ps as [|a [|a2 ps]]; auto. now elim (Ne a). }
    destruct ps as [|a [|a2 ps]]; try (apply ParCase; discriminate). clear ParCase Many Omono. destruct (One a eq_refl) as [-> Ed].
    destruct (partition_total l Ms) as (f2 & F2). destruct (F2 f2 (le_n _)) as ([r b] & Ep).
    destruct (partition_ok l Ms rank R (type_okl_ok _ _ Ty) _ _ _ Ep) as (Pp & Nd & Lt). destruct (Lt (Ed D)) as [Lr Lb].
    destruct (IH r) as (f3 & s3 & E3); [lia|eapply fine_incl with (l := l); [intros x Hx; apply (Permutation_in x Pp), in_app_iff; auto|lia|now split]|].
    destruct (IH b) as (f4 & s4 & E4); [lia|eapply fine_incl with (l := l); [intros x Hx; apply (Permutation_in x Pp), in_app_iff; auto|lia|now split]|].
    exists (S (f1 + f2 + f3 + f4)), (Seq s3 s4). rewrite schedule_eq by exact D. rewrite (components_mono f1 (S (f1 + f2 + f3 + f4)) _ _ ltac:(lia) Ec), (partition_mono _ _ f2 (S (f1 + f2 + f3 + f4)) _ ltac:(lia) Ep).
    now rewrite (schedule_mono f3 (f1 + f2 + f3 + f4) _ _ ltac:(lia) E3), (schedule_mono f4 (f1 + f2 + f3 + f4) _ _ ltac:(lia) E4).
  Qed.
  Lemma isolate_ok f l s : isolate_precomputations_and_schedule Ms f l = Some s -> fine l -> sched_good s l.
  Proof.
    unfold isolate_precomputations_and_schedule, schedule. destruct (partition_precomputations l f) as [[a b]|] eqn:Ep; [|discriminate].
    destruct (schedule_alist Ms f a) as [s1|] eqn:E1; [|discriminate]. destruct (schedule_alist Ms f b) as [s2|] eqn:E2; [|discriminate]. intros [= <-] Fl.
    destruct (partp_ok l _ _ _ Ep) as (Pp & Nd). assert (Lp := Permutation_length Pp). rewrite app_length in Lp.
    assert (G1 : sched_good s1 a) by (eapply schedule_ok; eauto; eapply fine_incl with (l := l); [intros x Hx; apply (Permutation_in x Pp), in_app_iff; auto|lia|auto]).
    assert (G2 : sched_good s2 b) by (eapply schedule_ok; eauto; eapply fine_incl with (l := l); [intros x Hx; apply (Permutation_in x Pp), in_app_iff; auto|lia|auto]).
    intros l' Hl. inversion Hl as [| |? ? la lb Ha Hb|]; subst. destruct (G1 _ Ha) as [P1 O1]. destruct (G2 _ Hb) as [P2 O2]. split.
    - rewrite <- Pp. now apply Permutation_app.
    - apply FOP_app; auto. intros x y Hx Hy. apply Nd; [apply (Permutation_in y P2)|apply (Permutation_in x P1)]; auto.
  Qed.
  Lemma isolate_total l : fine l -> exists f s, isolate_precomputations_and_schedule Ms f l = Some s.
  Proof.
    intros Fl. destruct (partp_total l) as (f1 & F1). destruct (F1 f1 (le_n _)) as ([a b] & _).
    unfold isolate_precomputations_and_schedule, schedule.
    assert (X : forall a b, partition_precomputations l f1 = Some (a, b) -> exists f s1 s2, schedule_alist Ms f a = Some s1 /\ schedule_alist Ms f b = Some s2).
    { intros a' b' E. destruct (partp_ok l _ _ _ E) as (Pp & Nd). assert (Lp := Permutation_length Pp). rewrite app_length in Lp.
      destruct (schedule_total _ a' (Nat.lt_succ_diag_r _)) as (f2 & s2 & E2); [eapply fine_incl with (l := l); [intros x Hx; apply (Permutation_in x Pp), in_app_iff; auto|lia|auto]|].
      destruct (schedule_total _ b' (Nat.lt_succ_diag_r _)) as (f3 & s3 & E3); [eapply fine_incl with (l := l); [intros x Hx; apply (Permutation_in x Pp), in_app_iff; auto|lia|auto]|].
      exists (f2 + f3), s2, s3. split; [apply (schedule_mono f2)|apply (schedule_mono f3)]; auto; lia. }
    destruct (F1 f1 (le_n _)) as ([a' b'] & E). destruct (X _ _ E) as (f & s1 & s2 & E1 & E2).
    exists (f1 + f), (Seq s1 s2). assert (E' : partition_precomputations l (f1 + f) = Some (a', b')).
    { unfold partition_precomputations in *. destruct (loopp l f1 _) eqn:El; [|discriminate]. rewrite (loopp_mono l f1 (f1 + f) _ _ ltac:(lia) El). exact E. }
    now rewrite E', (schedule_mono f (f1 + f) _ _ ltac:(lia) E1), (schedule_mono f (f1 + f) _ _ ltac:(lia) E2).
  Qed.
End Schedule.
