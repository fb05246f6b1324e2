(** * Printed codelets as kernels: complex codelets that work in place *)
From Coq Require Import Reals ZArith List Bool Lia Lra FunctionalExtensionality.
From Verif Require Import NumTheory Cplx Spec SpecR2R RSum RMath TensorModel Offs TensorProofs XForm XKern CopyProofs XSeq RaceProofs Base TrigModel PropTrig TwModel PropTwiddle DftModel DftComp DftTw RdftModel HcModel GenExpr GenCplx GenAlg GenAlgVars GenTrans GenTransProofs GenFft GenNum GenMain GenTrig GenTrigProofs.
From Verif Require Import PropGenfft PropGenreal GenTwid GenTwidProofs PropGentwid PropGenalg PropGentrans GenAlist GenExec PropGenalist GenSched GenPrint PropGensched GenAnnot PropGenannot PropGenprint GenLink GenInputs GenKernel GenKernel2 PropGenlink.
Import ListNotations.
Open Scope Z_scope.
Notation mem := Spec.mem.
Notation in_places := PropGentwid.in_places.

(** ** Codelets that transform complex numbers in place *)
Definition avars {A} (la : list A) (f : A -> variable * variable) : list variable := flat_map (fun a => [fst (f a); snd (f a)]) la.
Lemma in_avars {A} (la : list A) f w : In w (avars la f) <-> exists a, In a la /\ (w = fst (f a) \/ w = snd (f a)).
Proof.
  unfold avars. rewrite in_flat_map. split; intros (a & Ha & H); exists a; (split; [exact Ha|]); cbn in *; intuition.
Qed.
Section Mem.
  Context {T A : Type}.
  Variable T_dec : forall p q : T, {p = q} + {p <> q}.
  (** the elements [la] of an array of complex numbers are at P + ia a, imaginary parts di further on; the
      generator knows that each element is loaded and stored at the same place *)
  Record ip_layout (la : list A) (inp oloc : A -> variable * variable) (ia : A -> Z) (addr : variable -> loc + T) (P : loc) (di : Z) : Prop := {
    ip_in : forall a, In a la -> addr (fst (inp a)) = inl (sh P (ia a)) /\ addr (snd (inp a)) = inl (sh P (di + ia a));
    ip_out : forall a, In a la -> addr (fst (oloc a)) = inl (sh P (ia a)) /\ addr (snd (oloc a)) = inl (sh P (di + ia a));
    ip_other : forall w, is_locative w = false -> exists u, addr w = inr u;
    ip_loc : forall w, In w (avars la inp ++ avars la oloc) -> is_locative w = true;
    ip_diff : NoDup (avars la inp ++ avars la oloc);
    ip_same : forall a, In a la -> same_location (fst (oloc a)) (fst (inp a)) = true /\ same_location (snd (oloc a)) (snd (inp a)) = true
  }.
  Definition sel {B} (c : Z) (p : B * B) : B := if c =? 0 then fst p else snd p.
  Theorem ip_codelet v t la inp oloc ia addr tab m X nx (P : loc) di (Y : A -> (Z -> R) -> C) :
    (forall x y, (forall w, is_locative w = false -> x w = cells tab m (addr w)) ->
       (forall a, In a la -> x (fst (inp a)) = y (ia a) /\ x (snd (inp a)) = y (di + ia a)) ->
       computes (Some v) x (flat_map (fun a => [(fst (oloc a), fst (Y a y)); (snd (oloc a), snd (Y a y))]) la)) ->
    (forall w, loads_of v w -> In w (avars la inp) \/ var_is_constant w = true) ->
    compiled v t -> ip_layout la inp oloc ia addr P di ->
    (forall a b c d, In a la -> In b la -> c = 0 \/ c = 1 -> d = 0 \/ d = 1 -> c * di + ia a = d * di + ia b -> c = d /\ a = b) ->
    (forall a c, In a la -> c = 0 \/ c = 1 -> exists y, sel c (Y a y) <> 0%R) ->
    (forall o F, In (o, F) (xo X) <-> exists a c, In a la /\ (c = 0 \/ c = 1) /\ o = c * di + ia a /\ F = (fun y => sel c (Y a y))) ->
    (forall a c, In a la -> c = 0 \/ c = 1 -> In (c * di + ia a) (xi X)) ->
    Wf nx true P P X [] ->
    forall (loc : locals),
      (exists s', cruns _ (cell_dec T_dec) addr t (loc, ccells tab m) s') /\
      forall s', cruns _ (cell_dec T_dec) addr t (loc, ccells tab m) s' -> forall q, snd s' q = ccells tab (kern X nx P P m) q.
  Proof.
    intros Cv Ld Cm [IN OUT OTH LOC DIFF SAME] INJ NZ XO XI WF.
    set (ins := flat_map (fun a => [(fst (inp a), ia a); (snd (inp a), di + ia a)]) la).
    set (outs := flat_map (fun a => [(fst (oloc a), (ia a, fun y => fst (Y a y))); (snd (oloc a), (di + ia a, fun y => snd (Y a y)))]) la).
    assert (FM : forall (B C D : Type) (f : C -> D) (g : B -> list C) l, map f (flat_map g l) = flat_map (fun b => map f (g b)) l).
    { intros B C D f g l. induction l as [|b l IH]; [reflexivity|]. cbn [flat_map]. now rewrite map_app, IH. }
    assert (FI : map fst ins = avars la inp) by (unfold ins, avars; rewrite FM; reflexivity).
    assert (FO : map fst outs = avars la oloc) by (unfold outs, avars; rewrite FM; reflexivity).
    assert (II : forall w z, In (w, z) ins <-> exists a c, In a la /\ (c = 0 \/ c = 1) /\ w = sel c (inp a) /\ z = c * di + ia a).
    { intros w z. unfold ins. rewrite in_flat_map. split.
      - intros (a & Ha & [E|[E|[]]]); injection E as <- <-; [exists a, 0|exists a, 1]; repeat split; auto; ring.
      - intros (a & c & Ha & [-> | ->] & -> & ->); exists a; (split; [exact Ha|]); unfold sel; cbn [Z.eqb]; [left|right; left]; f_equal; ring. }
    assert (OO : forall p o F, In (p, (o, F)) outs <-> exists a c, In a la /\ (c = 0 \/ c = 1) /\ p = sel c (oloc a) /\ o = c * di + ia a /\ F = (fun y => sel c (Y a y))).
    { intros p o F. unfold outs. rewrite in_flat_map. split.
      - intros (a & Ha & [E|[E|[]]]); injection E as <- <- <-; [exists a, 0|exists a, 1]; repeat split; auto; ring.
      - intros (a & c & Ha & [-> | ->] & -> & -> & ->); exists a; (split; [exact Ha|]); unfold sel; cbn [Z.eqb]; [left|right; left]; do 2 f_equal; ring. }
    assert (SI : forall a c, In a la -> c = 0 \/ c = 1 -> In (sel c (inp a)) (avars la inp) /\ In (sel c (oloc a)) (avars la oloc)).
    { intros a c Ha [-> | ->]; unfold sel; cbn [Z.eqb]; split; apply in_avars; eauto. }
    apply (real_codelet T_dec v t ins outs addr tab m X nx true); auto.
    - intros x y Hx Hy. assert (Q := Cv x y Hx). unfold outs. rewrite FM. cbn [map fst snd]. apply Q. intros a Ha. split; apply Hy; apply II; [exists a, 0|exists a, 1]; repeat split; auto; ring.
    - intros w Hw. rewrite FI. auto.
    - constructor.
      + intros w z Hw. apply II in Hw. destruct Hw as (a & c & Ha & Hc & -> & ->). destruct (SI a c Ha Hc) as [S1 _]. split; [|apply LOC, in_or_app; auto].
        destruct (IN a Ha) as [A1 A2]. destruct Hc as [-> | ->]; unfold sel; cbn [Z.eqb]; [rewrite A1|rewrite A2]; do 2 f_equal; ring.
      + intros p o F Hw. apply OO in Hw. destruct Hw as (a & c & Ha & Hc & -> & -> & _). destruct (SI a c Ha Hc) as [_ S1]. split; [|apply LOC, in_or_app; auto].
        destruct (OUT a Ha) as [A1 A2]. destruct Hc as [-> | ->]; unfold sel; cbn [Z.eqb]; [rewrite A1|rewrite A2]; do 2 f_equal; ring.
      + exact OTH.
      + rewrite FO. apply NoDup_app_inv in DIFF. tauto.
      + rewrite FI, FO. apply NoDup_app_inv in DIFF. destruct DIFF as (_ & _ & D). exact D.
    - intros p o F Hw. apply OO in Hw. destruct Hw as (a & c & Ha & Hc & -> & -> & ->). auto.
    - intros o F. rewrite XO. split.
      + intros (a & c & Ha & Hc & -> & ->). exists (sel c (oloc a)). apply OO. exists a, c. auto.
      + intros (p & Hw). apply OO in Hw. destruct Hw as (a & c & Ha & Hc & -> & -> & ->). exists a, c. auto.
    - intros p q o F F' Hw Hw'. apply OO in Hw, Hw'. destruct Hw as (a & c & Ha & Hc & -> & -> & _), Hw' as (b & d & Hb & Hd & -> & E & _).
      destruct (INJ a b c d Ha Hb Hc Hd E) as [-> ->]. reflexivity.
    - intros w z Hw. apply II in Hw. destruct Hw as (a & c & Ha & Hc & -> & ->). auto.
    - intros _ w p z F Hw Hw'. apply II in Hw. apply OO in Hw'. destruct Hw as (a & c & Ha & Hc & -> & ->), Hw' as (b & d & Hb & Hd & -> & E & _).
      destruct (INJ a b c d Ha Hb Hc Hd E) as [-> ->]. destruct (SAME b Hb) as [S1 S2]. destruct Hd as [-> | ->]; unfold sel; cbn [Z.eqb]; auto.
  Qed.
End Mem.
