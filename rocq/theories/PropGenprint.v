(** * C53: a C compiler reads the printed codelet as the generator means it *)
From Coq Require Import Reals ZArith List Bool Lia Permutation.
From Verif Require Import Cplx GenExpr GenCplx GenAlg GenAlgVars GenTrans GenTransProofs GenAlist GenExec GenAlistProofs PropGenalist GenSched GenSchedProofs PropGensched.
From Verif Require Import GenAnnot GenAnnotProofs GenAnnotProofs2 GenAnnotProofs3 GenAnnotProofs4 PropGenannot GenPrint GenPrintProofs GenPrintScalar GenPrintExec.
Import ListNotations.
Open Scope nat_scope.

(** ** Specification: how C reads a text and what a block does is in GenPrint.v ([reads], [cval], [cruns]) *)
(** the arrays may overlap where the generator knows it: an output may be at the place of the input of the same
    location, no two outputs are at the same place *)
Record arrays_ok {A} (addr : variable -> A) (H : heap) (roots : list nat) : Prop := {
  ar_stores : forall v w, dag_stores H roots v -> dag_stores H roots w -> addr v = addr w -> v = w;
  ar_inplace : forall v w, dag_stores H roots v -> dag_loads H roots w -> addr v = addr w -> same_location v w = true
}.

(** ** The text of every expression has exactly one reading, and its value is that of the expression *)
Theorem C53_expression e : scalar e = true ->
  exists f0 t x, (forall f, f0 <= f -> unparse_expr f e = Some t) /\
    reads Add t x /\ (forall y, reads Add t y -> y = x) /\
    (forall env env0, (forall w, In w (find_vars e) -> env w = Some (env0 w)) -> cval env x = Some (eval env0 e)).
Proof.
  intros Sc. destruct (unparse_expr_ok (fun _ => Some C0) (fun _ => C0) (S (esize e)) e) as (t & E & (x & R & _) & _); [lia|exact Sc|now intros w Hw|].
  exists (Datatypes.S (esize e)), t, x. split; [intros f Lf; eapply unparse_le; eauto|]. split; [exact R|]. split; [intros y Ry; eapply reads_unique; eauto|].
  intros env env0 K. destruct (unparse_expr_ok env env0 (Datatypes.S (esize e)) e) as (t' & E' & (x' & R' & V) & _); auto; try lia.
  rewrite E in E'. injection E' as <-. now rewrite (reads_unique _ _ _ R R').
Qed.

(** ** Every codelet: all the steps of the generator succeed, and the printed block, run by the rules of C, computes the
       dag whatever is in its variables when it starts and when they are declared *)
Section Codelet.
  Lemma ordered_uses l l' l1 v e l2 w : Permutation l' l -> ordered l' -> sane l -> defd l -> l' = l1 ++ (v, e) :: l2 -> In w (find_vars e) -> is_temporary w = true -> In w (map fst l1).
  Proof.
    intros P O Sa Df El Hw T.
    assert (Iv : In (v, e) l) by (apply (Permutation_in _ P); rewrite El; apply in_app_iff; cbn; auto).
    assert (Iw := Df (v, e) w Iv Hw T). apply (Permutation_in _ (Permutation_sym (Permutation_map fst P))) in Iw.
    assert (Dp : forall a, fst a = w -> depends_on a (v, e) = true).
    { intros a Ea. unfold depends_on, node_uses. rewrite Ea. cbn [snd]. apply orb_true_iff. left. apply existsb_exists. exists w. split; auto. now apply same_iff. }
    rewrite El, map_app in Iw. apply in_app_iff in Iw. destruct Iw as [Iw|Iw]; auto. exfalso. cbn [map fst] in Iw. destruct Iw as [Ew|Iw].
    - assert (K := sa_irr _ Sa (v, e) Iv). change (depends_on (v, e) (v, e) = false) in K. rewrite (Dp (v, e) Ew) in K. discriminate.
    - apply in_map_iff in Iw. destruct Iw as (a & Ea & Ia). unfold ordered in O. rewrite El in O. apply FOP_app_inv in O. destruct O as (_ & O & _).
      inversion O as [|? ? F _]; subst. rewrite Forall_forall in F. assert (K := F a Ia). rewrite (Dp a eq_refl) in K. discriminate.
  Qed.
End Codelet.
(** whatever the generator prints, it works *)
Theorem C53_text Mg Ms Mn sort tmp H roots fuel0 l {A} (A_dec : forall p q : A, {p = q} + {p <> q}) addr :
  codelet_ok tmp H roots -> roots <> [] -> (forall r, In r roots -> r < fuel0) ->
  inline_loads Mg = false ->
  (generate_bytw Mg = true -> forall n a b v, H n = NCTimes a b \/ H n = NCTimesJ a b -> H a = NLoad v -> is_locative v = false) ->
  (forall r v y, In r roots -> H r = NStore v y -> is_temporary v = false /\ scalar (tree H y) = true) ->
  (forall v, dag_loads H roots v -> is_temporary v = false) ->
  to_assignments Mg H fuel0 tmp roots = Some l ->
  length l <= N.to_nat 100000 -> schedule_type Ms <> 1%Z -> permutes sort -> arrays_ok addr H roots ->
  forall fuel s, schedule Ms fuel l = Some s \/ isolate_precomputations_and_schedule Ms fuel l = Some s ->
  forall f r g t, annotate sort Mn f s = Some r -> unparse_annotated g r = Some t ->
    forall (loc : locals) m,
      (exists s', cruns A A_dec addr t (loc, m) s') /\
      forall s', cruns A A_dec addr t (loc, m) s' ->
        (forall r v y, In r roots -> H r = NStore v y -> snd s' (addr v) = eval (fun w => m (addr w)) (tree H y)) /\
        (forall p, (forall v, dag_stores H roots v -> addr v <> p) -> snd s' p = m p).
Proof.
  intros OK Nr Lr NL NB ST LT E Len Ty Sp AR fuel s Hs.
  assert (ST1 : forall r v y, In r roots -> H r = NStore v y -> is_temporary v = false) by (intros; eapply ST; eauto).
  assert (Tst : forall v, dag_stores H roots v -> is_temporary v = false) by (intros v (r & y & Hr & Er); eauto).
  set (ad := place A addr).
  assert (Pl : forall v, is_temporary v = false -> ad v = inl (addr v)) by (intros v T; unfold ad, place; now rewrite T).
  assert (Pt : forall v, is_temporary v = true -> ad v = inr v) by (intros v T; unfold ad, place; now rewrite T).
  assert (MO : memory_ok ad tmp H roots).
  { constructor.
    - intros v w Hv Hw. rewrite !Pl by auto. intros [= Ea]. eapply ar_stores; eauto.
    - intros v w Hv Hw. rewrite !Pl by auto. intros [= Ea]. eapply ar_inplace; eauto.
    - intros v w (k & -> & _) Hw. rewrite (Pt (Temporary k)) by reflexivity. destruct (is_temporary w) eqn:T; [rewrite Pt by auto; congruence|rewrite Pl by auto; discriminate]. }
  destruct (C52_codelet Mg Ms Mn sort tmp H roots fuel0 l (place_dec A A_dec) ad OK Nr Lr NL NB ST1 LT E Len Ty Sp MO) as [_ G].
  destruct (G fuel s Hs) as [_ Wr]. intros f r g t Er0 Et0. destruct (Wr f r Er0) as [Wd Cd]. clear G Wr.
  assert (Sa : sane l) by (eapply codelet_sane; eauto). assert (Df : defd l) by (eapply codelet_defd; eauto).
  assert (Sc : forall v x, In (v, x) l -> scalar x = true).
  { apply (alist_scalar Mg H (co_acyclic _ _ _ OK) fuel0 tmp roots l); auto. intros q Hq. destruct (co_stores _ _ _ OK q Hq) as (v & y & Ev & _). exists v, y. split; auto. eapply ST; eauto. }
  set (f2 := S (g + list_sum (map (fun a => esize (snd a)) l))).
  assert (Sz : forall v x, In (v, x) l -> esize x < f2).
  { intros v x Hv. unfold f2. clear -Hv. enough (esize x <= list_sum (map (fun a => esize (snd a)) l)) by lia. induction l as [|a l IH]; [destruct Hv|]. cbn [map list_sum fold_right]. unfold list_sum in *. cbn [fold_right]. destruct Hv as [->|Hv]; cbn [snd]; [lia|]. specialize (IH Hv). lia. }
  assert (Sl : forall sc v x, In (sc, (v, x)) (scoped [] r) -> In (v, x) l) by (intros sc v x Hi; apply (Permutation_in _ (wd_perm _ _ Wd)); apply (in_map snd) in Hi; exact Hi).
  assert (Et : unparse_annotated f2 r = Some t) by (eapply annotated_le; [|exact Et0]; unfold f2; lia).
  intros loc m. set (M := fun q : A + variable => match q with inl p => m p | inr _ => C0 end).
  destruct (text_runs A A_dec addr f2 r t Et [] (fun _ => False) (loc, m) M) as [X Y].
  - intros w [].
  - apply Wd.
  - intros w _. split; auto.
  - split; [|split]; [intros w []|intros w []|reflexivity].
  - intros sc v x Hi. split; [eapply Sc, Sl, Hi|]. split; [eapply Sz, Sl, Hi|]. intros w Hw T. eapply (wd_scope _ _ Wd); eauto.
  - intros l1 v e l2 El w Hw T. right. exact (ordered_uses l (map snd (scoped [] r)) l1 v e l2 w (wd_perm _ _ Wd) (wd_order _ _ Wd) Sa Df El Hw T).
  - split; [exact X|]. intros s' R. destruct (Y s' R) as (_ & _ & Ag). fold ad in Ag. destruct (Cd M) as [C1 C2]. split.
    + intros q v y Hq Hv. rewrite Ag. assert (Tv := ST1 q v y Hq Hv). rewrite <- (Pl v Tv). rewrite (C1 q v y Hq Hv).
      destruct (co_stores _ _ _ OK q Hq) as (v' & y' & Ev' & Ny). rewrite Hv in Ev'. injection Ev' as <- <-.
      apply eval_occ. intros w O. rewrite Pl; [reflexivity|]. apply LT. exists q, v, y. auto.
    + intros p Np. rewrite Ag. change (m p) with (M (inl p)). apply C2. intros v [Hv|(k & -> & _)]; [rewrite Pl by auto; intros [= K]; eapply Np; eauto|rewrite Pt by reflexivity; discriminate].
Qed.

(** and it always prints something *)
Theorem C53_codelet Mg Ms Mn sort tmp H roots fuel0 l {A} (A_dec : forall p q : A, {p = q} + {p <> q}) addr :
  codelet_ok tmp H roots -> roots <> [] -> (forall r, In r roots -> r < fuel0) ->
  inline_loads Mg = false ->
  (generate_bytw Mg = true -> forall n a b v, H n = NCTimes a b \/ H n = NCTimesJ a b -> H a = NLoad v -> is_locative v = false) ->
  (forall r v y, In r roots -> H r = NStore v y -> is_temporary v = false /\ scalar (tree H y) = true) ->
  (forall v, dag_loads H roots v -> is_temporary v = false) ->
  to_assignments Mg H fuel0 tmp roots = Some l ->
  length l <= N.to_nat 100000 -> schedule_type Ms <> 1%Z -> permutes sort -> arrays_ok addr H roots ->
  forall fuel s, schedule Ms fuel l = Some s \/ isolate_precomputations_and_schedule Ms fuel l = Some s ->
  exists f0 r t, (forall f, f0 <= f -> annotate sort Mn f s = Some r) /\ (forall f, f0 <= f -> unparse_annotated f r = Some t) /\
    forall (loc : locals) m,
      (exists s', cruns A A_dec addr t (loc, m) s') /\
      forall s', cruns A A_dec addr t (loc, m) s' ->
        (forall r v y, In r roots -> H r = NStore v y -> snd s' (addr v) = eval (fun w => m (addr w)) (tree H y)) /\
        (forall p, (forall v, dag_stores H roots v -> addr v <> p) -> snd s' p = m p).
Proof.
  intros OK Nr Lr NL NB ST LT E Len Ty Sp AR fuel s Hs.
  assert (ST1 : forall r v y, In r roots -> H r = NStore v y -> is_temporary v = false) by (intros; eapply ST; eauto).
  assert (Tst : forall v, dag_stores H roots v -> is_temporary v = false) by (intros v (r & y & Hr & Er); eauto).
  set (ad := place A addr).
  assert (Pl : forall v, is_temporary v = false -> ad v = inl (addr v)) by (intros v T; unfold ad, place; now rewrite T).
  assert (Pt : forall v, is_temporary v = true -> ad v = inr v) by (intros v T; unfold ad, place; now rewrite T).
  assert (MO : memory_ok ad tmp H roots).
  { constructor.
    - intros v w Hv Hw. rewrite !Pl by auto. intros [= Ea]. eapply ar_stores; eauto.
    - intros v w Hv Hw. rewrite !Pl by auto. intros [= Ea]. eapply ar_inplace; eauto.
    - intros v w (k & -> & _) Hw. rewrite (Pt (Temporary k)) by reflexivity. destruct (is_temporary w) eqn:T; [rewrite Pt by auto; congruence|rewrite Pl by auto; discriminate]. }
  destruct (C52_codelet Mg Ms Mn sort tmp H roots fuel0 l (place_dec A A_dec) ad OK Nr Lr NL NB ST1 LT E Len Ty Sp MO) as [_ G].
  destruct (G fuel s Hs) as [(f1 & r & Er) Wr]. destruct (Wr f1 r (Er f1 (Nat.le_refl _))) as [Wd Cd]. clear G Wr.
  assert (Sa : sane l) by (eapply codelet_sane; eauto). assert (Df : defd l) by (eapply codelet_defd; eauto).
  assert (Sc : forall v x, In (v, x) l -> scalar x = true).
  { apply (alist_scalar Mg H (co_acyclic _ _ _ OK) fuel0 tmp roots l); auto. intros q Hq. destruct (co_stores _ _ _ OK q Hq) as (v & y & Ev & _). exists v, y. split; auto. eapply ST; eauto. }
  set (f2 := S (list_sum (map (fun a => esize (snd a)) l))).
  assert (Sz : forall v x, In (v, x) l -> esize x < f2).
  { intros v x Hv. unfold f2. clear -Hv. induction l as [|a l IH]; [destruct Hv|]. cbn [map list_sum fold_right]. unfold list_sum in *. cbn [fold_right]. destruct Hv as [->|Hv]; cbn [snd]; [lia|]. specialize (IH Hv). lia. }
  assert (Sl : forall sc v x, In (sc, (v, x)) (scoped [] r) -> In (v, x) l) by (intros sc v x Hi; apply (Permutation_in _ (wd_perm _ _ Wd)); apply (in_map snd) in Hi; exact Hi).
  assert (Up : exists t, unparse_annotated f2 r = Some t).
  { assert (K : forall sc v x, In (sc, (v, x)) (scoped [] r) -> exists t, unparse_expr f2 x = Some t).
    { intros sc v x Hi. apply Sl in Hi. destruct (unparse_expr_ok (fun _ => Some C0) (fun _ => C0) f2 x) as (t & Et & _); eauto. now intros w Hw. }
    assert (U : forall r sc, (forall sc' v x, In (sc', (v, x)) (scoped sc r) -> exists t, unparse_expr f2 x = Some t) -> exists t, unparse_annotated f2 r = Some t); [|eapply U; exact K].
    clear. fix IH 1. intros [lv df d dp [|[v x]|a b]] sc K; cbn [unparse_annotated scoped] in *.
    - eauto.
    - destruct (K _ v x (or_introl eq_refl)) as [t ->]. eauto.
    - destruct (IH a (filter is_temporary d ++ sc)) as [ta ->]. { intros; eapply K. apply in_app_iff. left. eassumption. }
      destruct (IH b (filter is_temporary d ++ sc)) as [tb ->]; [|eauto]. intros; eapply K. apply in_app_iff. right. eassumption. }
  destruct Up as [t Et]. exists (Nat.max f1 f2), r, t. split; [intros f Lf; apply Er; lia|]. split; [intros f Lf; eapply annotated_le; [|exact Et]; lia|].
  apply (C53_text Mg Ms Mn sort tmp H roots fuel0 l A_dec addr OK Nr Lr NL NB ST LT E Len Ty Sp AR fuel s Hs f1 r f2 t); auto.
Qed.

(** ** Examples *)
(** o1 = T1 - T4; with T4 = T2 * T3 inlined this is an FNMS; a difference under a minus sign; a product of sums *)
Example C53_fnms : unparse_expr 9 (Plus [L 1; Uminus (Times (L 2) (L 3))]) =
  Some [TMac M_FNMS; TLpar; TVar (T 2); TComma; TVar (T 3); TComma; TVar (T 1); TRpar].
Proof. reflexivity. Qed.
Example C53_minus : unparse_expr 9 (Uminus (Plus [L 1; Uminus (L 2)])) = Some [TVar (T 2); TMinus; TVar (T 1)].
Proof. reflexivity. Qed.
Example C53_product : unparse_expr 9 (Times (Plus [L 1; L 2]) (Uminus (L 3))) =
  Some [TLpar; TVar (T 1); TPlus; TVar (T 2); TRpar; TStar; TLpar; TMinus; TVar (T 3); TRpar].
Proof. reflexivity. Qed.
(** without its parentheses the product would be read as another expression *)
Example C53_parentheses : exists x, reads Add [TVar (T 1); TPlus; TVar (T 2); TStar; TVar (T 3)] x /\
  x = CAdd (CVar (T 1)) (CMul (CVar (T 2)) (CVar (T 3))).
Proof.
  eexists. split; [|reflexivity]. apply (r_plus [TVar (T 1)]); [do 4 constructor|]. apply (r_times [TVar (T 2)]); do 3 constructor.
Qed.
(** the butterfly in place, as printed *)
Definition bf_text (Mn : nmagic) : option ctext := match annotate no_sort Mn 40 bf_sched with Some r => unparse_annotated 20 r | None => None end.
Example C53_butterfly_text : bf_text plain =
  Some (CBlock [T 1; T 4; T 3; T 2]
    (CSeq (CBlock [] (CSeq (CBlock [] (CAssign (T 1) [TVar i0]))
             (CBlock [] (CSeq (CBlock [] (CAssign (T 3) [TVar i1]))
                (CBlock [] (CSeq (CBlock [] (CAssign (T 2) [TVar wv])) (CBlock [] (CAssign (T 4) [TVar (T 2); TStar; TVar (T 3)]))))))))
          (CBlock [] (CSeq (CBlock [] (CAssign o0 [TVar (T 1); TPlus; TVar (T 4)]))
                           (CBlock [] (CAssign o1 [TVar (T 1); TMinus; TVar (T 4)])))))).
Proof. vm_compute. reflexivity. Qed.
Example C53_butterfly fuel s Mn : schedule (sm 0) fuel bf_list = Some s ->
  exists f0 r t, (forall f, f0 <= f -> annotate no_sort Mn f s = Some r) /\ (forall f, f0 <= f -> unparse_annotated f r = Some t) /\
    forall (loc : locals) m,
      (exists s', cruns Z Z.eq_dec bf_addr t (loc, m) s') /\
      forall s', cruns Z Z.eq_dec bf_addr t (loc, m) s' ->
        (forall r v y, In r [7; 8] -> bf_heap r = NStore v y -> snd s' (bf_addr v) = eval (fun w => m (bf_addr w)) (tree bf_heap y)) /\
        (forall p, (forall v, dag_stores bf_heap [7; 8] v -> bf_addr v <> p) -> snd s' p = m p).
Proof.
  intros E. eapply (C53_codelet magic0 (sm 0) Mn no_sort 0 bf_heap [7; 8] 9 bf_list Z.eq_dec bf_addr).
  - exact C50_butterfly_ok.
  - discriminate.
  - intros r [<-|[<-|[]]]; lia.
  - reflexivity.
  - intros _ n a b v [K|K]; exfalso; destruct (bf_nodes n) as [Ln|En]; try (rewrite En in K; discriminate); do 9 (destruct n as [|n]; [discriminate K|]); lia.
  - intros r v y [<-|[<-|[]]]; cbn; intros [= <- <-]; split; reflexivity.
  - intros v Lv. apply bf_loads in Lv. destruct Lv as [->|[->| ->]]; reflexivity.
  - exact C50_butterfly.
  - unfold bf_list; cbn [length]; lia.
  - discriminate.
  - intros c l. apply Permutation_refl.
  - constructor; [apply bf_memory|apply bf_memory].
  - left. exact E.
Qed.

Print Assumptions C53_expression.
Print Assumptions C53_text.
Print Assumptions C53_codelet.
Print Assumptions C53_butterfly.
