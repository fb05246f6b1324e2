(** * The assignments of a dag without complex products are scalar *)
From Coq Require Import Reals ZArith List Bool Lia.
From Verif Require Import Cplx GenExpr GenCplx GenAlg GenTrans GenTransProofs GenAlist GenAlistProofs GenPrint GenPrintProofs.
Import ListNotations.
Open Scope nat_scope.

Section Scalar.
  Variables (Mg : amagic) (H : heap).
  Hypothesis AC : acyclic H.
  Definition sct (n : nat) : Prop := scalar (tree H n) = true.
  Lemma sct_child n c : sct n -> In c (children (H n)) -> sct c.
  Proof.
    unfold sct. rewrite (tree_eq H AC n). destruct (H n) as [a| |l|a b|a b|a b|a|v|v a]; cbn [children In scalar]; try contradiction; try discriminate.
    - intros S Hc. rewrite forallb_forall in S. apply S. now apply in_map.
    - rewrite andb_true_iff. intros [A B] [<-|[<-|[]]]; auto.
    - intros S [<-|[]]; auto.
  Qed.
  Lemma sct_below n k : sct n -> below H n k -> sct k.
  Proof. intros S (c & Hc & K). assert (Sc := sct_child _ _ S Hc). destruct K as [->|[K|(d & Hd & K)]]; eauto using sct_child. Qed.
  Definition inv (s : state) : Prop := (forall v x, In (v, x) (al s) -> scalar x = true) /\ (forall n e, vis' s n = Some e -> scalar e = true).
  Definition pres {A} (m : M A) (P : A -> Prop) : Prop := forall s a s', inv s -> m s = Some (a, s') -> inv s' /\ P a.
  Definition sc (e : expr) : Prop := scalar e = true.
  Lemma pres_ret {A} (x : A) (P : A -> Prop) : P x -> pres (ret x) P.
  Proof. intros K s a s' I' [= <- <-]. auto. Qed.
  Lemma pres_bind {A B} (m : M A) (k : A -> M B) P Q : pres m P -> (forall a, P a -> pres (k a) Q) -> pres (bind m k) Q.
  Proof. intros Hm Hk s b s' I'. unfold bind. destruct (m s) as [[a s1]|] eqn:E; [|discriminate]. destruct (Hm _ _ _ I' E) as [I1 Pa]. intros E'. eapply Hk; eauto. Qed.
  Lemma pres_varM v x : sc x -> pres (with_varM v x) sc.
  Proof. intros K s a s' [I1 I2] [= <- <-]. split; [|reflexivity]. split; cbn [al vis']; auto. intros u y [[= <- <-]|Hi]; eauto. Qed.
  Lemma pres_fresh (P : expr -> Prop) (k : variable -> M expr) : (forall v, pres (k v) P) -> pres (bind fresh k) P.
  Proof. intros K. apply (pres_bind fresh k (fun _ => True)); [|intros; apply K]. intros s a s' [I1 I2] [= <- <-]. split; auto. split; auto. Qed.
  Lemma pres_temp x : sc x -> pres (with_tempM x) sc.
  Proof.
    intros K. assert (F : pres (bind fresh (fun t => with_varM t x)) sc) by (apply pres_fresh; intros; now apply pres_varM).
    unfold with_tempM. destruct x; auto. destruct (is_temporary v); auto. now apply pres_ret.
  Qed.
  Lemma pres_maybe ct n x : sc x -> pres (with_temp_maybeM Mg ct n x) sc.
  Proof.
    intros K. unfold with_temp_maybeM. destruct (ct n) as [count|]; [|intros s a s' _ [=]].
    destruct (_ && _); [now apply pres_ret|now apply pres_temp].
  Qed.
  Lemma pres_mapM eon l : (forall n, In n l -> pres (eon n) sc) -> pres (mapM eon l) (fun es => forallb scalar es = true).
  Proof.
    induction l as [|n l IH]; intros K; cbn [mapM]; [now apply pres_ret|].
    eapply pres_bind; [apply K; now left|]. intros a Ha. eapply pres_bind; [apply IH; intros; apply K; now right|]. intros b Hb. apply pres_ret. cbn [forallb]. unfold sc in Ha. now rewrite Ha, Hb.
  Qed.
  Lemma pres_body ct eon x : (forall n, sct n -> pres (eon n) sc) -> (sct x \/ exists v y, H x = NStore v y /\ sct y) -> pres (expr_body Mg H ct eon x) sc.
  Proof.
    intros K S. unfold expr_body. destruct S as [S|(v & y & E & S)].
    - assert (Sb := sct_below x). assert (Sk : forall c, In c (children (H x)) -> sct c) by (intros; eapply sct_child; eauto).
      assert (S' := S). unfold sct in S'. rewrite (tree_eq H AC x) in S'.
      destruct (H x) as [a| |l|a b|a b|a b|a|v|v a] eqn:E; cbn [scalar] in S'; try discriminate; cbn [children In] in Sk.
      + destruct (inline_constants Mg); [now apply pres_ret|now apply pres_maybe].
      + destruct (build_fma_ok Mg H AC x l E) as [_ B].
        assert (B3 : forall a b c, build_fma Mg H l = FMA a b c \/ build_fma Mg H l = FMS a b c \/ build_fma Mg H l = FNMS a b c -> sct a /\ sct b /\ sct c).
        { intros a b c F. destruct (B a b c F) as (? & ? & ?). auto. }
        destruct (build_fma Mg H l) as [|a b c|a b c|a b c] eqn:Ef.
        * eapply pres_bind; [apply pres_mapM; intros n Hn; apply K; auto|]. intros es Hes. apply pres_maybe. exact Hes.
        * destruct (B3 a b c) as (? & ? & ?); auto. eapply pres_bind; [now apply K|]. intros a' Ha. eapply pres_bind; [now apply K|]. intros b' Hb. eapply pres_bind; [now apply K|]. intros c' Hc.
          apply pres_maybe. unfold sc in *. cbn [scalar forallb]. now rewrite Ha, Hb, Hc.
        * destruct (B3 a b c) as (? & ? & ?); auto. eapply pres_bind; [now apply K|]. intros a' Ha. eapply pres_bind; [now apply K|]. intros b' Hb. eapply pres_bind; [now apply K|]. intros c' Hc.
          apply pres_maybe. unfold sc in *. cbn [scalar forallb]. now rewrite Ha, Hb, Hc.
        * destruct (B3 a b c) as (? & ? & ?); auto. eapply pres_bind; [now apply K|]. intros a' Ha. eapply pres_bind; [now apply K|]. intros b' Hb. eapply pres_bind; [now apply K|]. intros c' Hc.
          apply pres_maybe. unfold sc in *. cbn [scalar forallb]. now rewrite Ha, Hb, Hc.
      + eapply pres_bind; [apply K; auto|]. intros a' Ha. eapply pres_bind; [apply K; auto|]. intros b' Hb.
        assert (G : pres (with_temp_maybeM Mg ct x (Times a' b')) sc) by (apply pres_maybe; unfold sc in *; cbn [scalar]; now rewrite Ha, Hb).
        destruct a'; try exact G. match goal with |- context [if ?q then bind _ _ else _] => destruct q end; [|exact G]. refine (pres_bind (inlineM b') _ sc sc (pres_ret b' sc Hb) _). intros b'' Hb''. apply pres_maybe. unfold sc in *. cbn [scalar forallb]. now rewrite Hb''.
      + eapply pres_bind; [apply K; auto|]. intros a' Ha. apply pres_ret. exact Ha.
      + destruct (is_temporary v); [now apply pres_ret|]. destruct (_ && _); [now apply pres_ret|]. destruct (_ && _); [now apply pres_ret|now apply pres_temp].
    - rewrite E. eapply pres_bind; [now apply K|]. intros y' Hy. eapply pres_bind.
      + destruct (trivial_stores Mg); [now apply pres_temp|now apply (pres_ret y')].
      + intros y'' Hy''. now apply pres_varM.
  Qed.
  Lemma pres_node ct fuel : forall x, (sct x \/ exists v y, H x = NStore v y /\ sct y) -> pres (expr_of_nodeM Mg H ct fuel x) sc.
  Proof.
    induction fuel as [|f IH]; intros x S s e s' I'; cbn [expr_of_nodeM]; [discriminate|].
    destruct (vis' s x) as [e0|] eqn:V; [intros [= <- <-]; split; auto; eapply (proj2 I'); eauto|].
    destruct (expr_body Mg H ct (expr_of_nodeM Mg H ct f) x s) as [[e1 s1]|] eqn:E; [|discriminate]. intros [= <- <-].
    destruct (pres_body ct (expr_of_nodeM Mg H ct f) x) with (s := s) (a := e1) (s' := s1) as [[I1 I2] Se]; auto.
    split; auto. split; cbn [al vis']; auto. intros n e. destruct (n =? x); [intros [= <-]; exact Se|apply I2].
  Qed.
  Theorem alist_scalar fuel tmp roots l : (forall r, In r roots -> exists v y, H r = NStore v y /\ scalar (tree H y) = true) ->
    to_assignments Mg H fuel tmp roots = Some l -> forall v x, In (v, x) l -> scalar x = true.
  Proof.
    intros R. unfold to_assignments. destruct (visits _ _ _) as [ct|]; [|discriminate]. destruct (mapM _ _ _) as [[es s]|] eqn:E; [|discriminate]. intros [= <-] v x Hv.
    assert (P : pres (mapM (expr_of_nodeM Mg H ct fuel) roots) (fun es => forallb scalar es = true)) by (apply pres_mapM; intros n Hn; apply pres_node; right; auto).
    assert (I0 : inv (mkst [] (fun _ => None) tmp)) by (split; cbn [al vis']; [intros ? ? []|discriminate]).
    destruct (P _ _ _ I0 E) as [[I1 _] _]. apply in_rev in Hv. eauto.
  Qed.
End Scalar.
