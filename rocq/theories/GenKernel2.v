(** * Printed codelets as kernels: the real codelets *)
From Coq Require Import Reals ZArith List Bool Lia Lra.
From Verif Require Import NumTheory Cplx Spec SpecR2R RSum TensorModel Offs XForm XKern RaceProofs TwModel DftModel GenExpr GenCplx GenAlg GenAlgVars GenTrans GenTransProofs GenFft GenNum GenMain GenTrig GenTrigProofs.
From Verif Require Import PropGenfft PropGenreal GenTwid GenTwidProofs PropGentwid PropGenalg PropGentrans GenAlist GenExec PropGenalist GenSched GenPrint PropGenprint GenLink GenInputs GenKernel.
Import ListNotations.
Open Scope Z_scope.
Notation mem := Spec.mem.

Section Mem.
  Context {T : Type}.
  Variable T_dec : forall p q : T, {p = q} + {p <> q}.
  (** the inputs of a codelet with the offsets of their cells from I; its outputs, with the offsets
      of their cells from O and the values as functions of the inputs *)
  Definition inputs := list (variable * Z).
  Definition outputs := list (variable * (Z * ((Z -> R) -> R))).
  Definition value_of (ins : inputs) (y : Z -> R) (tab : variable -> R) (w : variable) : R :=
    match find (fun wz => if var_eq_dec w (fst wz) then true else false) ins with Some wz => y (snd wz) | None => tab w end.
  Lemma value_of_in ins y tab w z : (forall z', In (w, z') ins -> z' = z) -> In (w, z) ins -> value_of ins y tab w = y z.
  Proof.
    intros U Hin. unfold value_of. destruct (find _ ins) as [[w' z']|] eqn:E.
    - apply find_some in E. destruct E as [Hi E]. cbn [fst snd] in *. destruct (var_eq_dec w w') as [<-|]; [|discriminate]. now rewrite (U z' Hi).
    - exfalso. assert (K := find_none _ _ E (w, z) Hin). cbn in K. destruct (var_eq_dec w w); congruence.
  Qed.
  Lemma value_of_out ins y tab w : ~ In w (map fst ins) -> value_of ins y tab w = tab w.
  Proof.
    intros N. unfold value_of. destruct (find _ ins) as [[w' z']|] eqn:E; [|reflexivity]. apply find_some in E. destruct E as [Hi E]. cbn [fst] in E.
    destruct (var_eq_dec w w') as [->|]; [|discriminate]. exfalso. apply N. change w' with (fst (w', z')). now apply in_map.
  Qed.
  Record rlayout (ins : inputs) (outs : outputs) (addr : variable -> loc + T) (I O : loc) : Prop := {
    rl_in : forall w z, In (w, z) ins -> addr w = inl (sh I z) /\ is_locative w = true;
    rl_out : forall p o F, In (p, (o, F)) outs -> addr p = inl (sh O o) /\ is_locative p = true;
    rl_other : forall w, is_locative w = false -> exists u, addr w = inr u;
    rl_nodup : NoDup (map fst outs);
    rl_diff : forall w, In w (map fst ins) -> ~ In w (map fst outs)
  }.
  Theorem real_codelet v t ins outs addr tab m X nx ip (I O : loc) :
    (forall x y, (forall w, is_locative w = false -> x w = cells tab m (addr w)) -> (forall w z, In (w, z) ins -> x w = y z) ->
       computes (Some v) x (map (fun o => (fst o, snd (snd o) y)) outs)) ->
    (forall w, loads_of v w -> In w (map fst ins) \/ var_is_constant w = true) ->
    compiled v t -> rlayout ins outs addr I O ->
    (forall p o F, In (p, (o, F)) outs -> exists y, F y <> 0%R) ->
    (forall o F, In (o, F) (xo X) <-> exists p, In (p, (o, F)) outs) ->
    (forall p q o F F', In (p, (o, F)) outs -> In (q, (o, F')) outs -> p = q) ->
    (forall w z, In (w, z) ins -> In z (xi X)) ->
    Wf nx ip I O X [] -> (ip = true -> forall w p z F, In (w, z) ins -> In (p, (z, F)) outs -> same_location p w = true) ->
    forall (loc : locals),
      (exists s', cruns _ (cell_dec T_dec) addr t (loc, ccells tab m) s') /\
      forall s', cruns _ (cell_dec T_dec) addr t (loc, ccells tab m) s' -> forall q, snd s' q = ccells tab (kern X nx I O m) q.
  Proof.
    intros Cv Ld Cm [RI RO OTH ND0 DF] NZ XO INJ XI [_ _ _ _ WO WX] Ip.
    assert (UI : forall w z z', In (w, z) ins -> In (w, z') ins -> z' = z).
    { intros w z z' A B. destruct (RI _ _ A) as [E _], (RI _ _ B) as [E' _]. rewrite E in E'. injection E' as E'. lia. }
    assert (GV : forall y w, is_locative w = false -> value_of ins y (fun w => cells tab m (addr w)) w = cells tab m (addr w)).
    { intros y w Lw. apply value_of_out. intros Hw. apply in_map_iff in Hw. destruct Hw as ([w' z] & Ew & Hw). cbn in Ew. subst w'. destruct (RI _ _ Hw). congruence. }
    assert (CV : forall y, let x := value_of ins y (fun w => cells tab m (addr w)) in computes (Some v) x (map (fun o => (fst o, snd (snd o) y)) outs)).
    { intros y x. apply Cv; [apply GV|]. intros w z Hw. apply value_of_in; [|exact Hw]. intros z' Hz. exact (UI _ _ _ Hw Hz). }
    set (y0 := fun z => m (sh I z)). destruct (computes_in _ _ _ (CV y0)) as (S & P & _).
    assert (P' : places v = map fst outs) by (rewrite P, map_map; apply map_ext; reflexivity).
    assert (ND : NoDup (places v)) by now rewrite P'.
    assert (NX : NoDup (map fst (xo X))) by (rewrite ol_nil in WO; exact WO).
    assert (PO : forall p, In p (places v) -> exists o F, In (p, (o, F)) outs /\ addr p = inl (sh O o) /\ is_locative p = true).
    { intros p Hp. rewrite P' in Hp. apply in_map_iff in Hp. destruct Hp as ([p' [o F]] & Ep & Hp). cbn in Ep. subst p'. exists o, F. split; [exact Hp|]. eapply RO; eauto. }
    assert (LI : forall w, In w (map fst ins) -> exists z, In (w, z) ins).
    { intros w Hw. apply in_map_iff in Hw. destruct Hw as ([w' z] & Ew & Hw). cbn in Ew. subst w'. eauto. }
    assert (LA : array_layout addr v).
    { constructor.
      - intros w Lw. destruct (Ld w Lw) as [Iw|Cw].
        + destruct (LI w Iw) as (z & Hz). destruct (RI _ _ Hz) as [_ Lo]. split; [destruct w; discriminate || reflexivity|]. rewrite P'. now apply DF.
        + split; [destruct w; discriminate || reflexivity|]. intros Ow. destruct (PO w Ow) as (o & F & _ & _ & Lo). destruct w; discriminate.
      - intros p Hp. destruct (PO p Hp) as (o & F & _ & _ & Lo). exact Lo.
      - intros p q Hp Hq Epq. destruct (PO p Hp) as (o & F & Hp' & Ap & _), (PO q Hq) as (o' & F' & Hq' & Aq & _). rewrite Ap, Aq in Epq. injection Epq as Epq.
        assert (o' = o) by lia. subst o'. eapply INJ; eauto.
      - intros p w Hp Lw Epw. destruct (PO p Hp) as (o & F & Hp' & Ap & _). destruct (Ld w Lw) as [Iw|Cw].
        + destruct (LI w Iw) as (z & Hz). destruct (RI _ _ Hz) as [Aw _]. rewrite Ap, Aw in Epw. assert (E : sh O o = sh I z) by congruence. destruct ip.
          * destruct WX as [<- _]. assert (o = z) by (unfold sh in E; injection E as E; lia). subst o. eapply Ip; eauto.
          * exfalso. apply (WX (sh I z)).
            -- exists z. split; [|reflexivity]. rewrite il_nil. eapply XI; eauto.
            -- rewrite <- E. exists o. split; [|reflexivity]. rewrite ol_nil. change o with (fst (o, F)). apply in_map, XO. eauto.
        + exfalso. destruct (OTH w) as (u & Eu); [destruct w; discriminate || reflexivity|]. congruence.
      - intros p w Hp Cw Epw. destruct (PO p Hp) as (o & F & Hp' & Ap & _). destruct (OTH w) as (u & Eu); [destruct w; discriminate || reflexivity|]. congruence. }
    apply (kernel_runs T_dec v t addr tab m X nx I O S ND Cm LA NX).
    - intros o F HF. apply XO in HF. destruct HF as (p & Hp).
      assert (Hat : forall y, In (p, F y) (map (fun o => (fst o, snd (snd o) y)) outs)).
      { intros y. apply in_map_iff. exists (p, (o, F)). auto. }
      set (xm := fun w => cells tab m (addr w)).
      assert (Cm0 : computes (Some v) xm (map (fun o => (fst o, snd (snd o) y0)) outs)).
      { apply Cv; [reflexivity|]. intros w z Hw. unfold xm. destruct (RI _ _ Hw) as [-> _]. reflexivity. }
      destruct (computes_in _ _ _ Cm0) as (_ & _ & V). destruct (V p _ (Hat y0)) as (e & He & Ve). exists p, e. split; [exact He|]. split; [|split].
      + now destruct (RO _ _ _ Hp).
      + exact Ve.
      + destruct (NZ p o F Hp) as (y & Hy). destruct (computes_in _ _ _ (CV y)) as (_ & _ & V1). destruct (V1 p _ (Hat y)) as (e' & He' & Ve').
        rewrite (places_inj p v ND e' e He' He) in Ve'. eexists. rewrite Ve'. intros E. apply (f_equal fst) in E. cbn in E. contradiction.
    - intros p Hp. destruct (PO p Hp) as (o & F & Hp' & Ap & _). exists o. split; [|exact Ap]. change o with (fst (o, F)). apply in_map, XO. eauto.
  Qed.
End Mem.
