(** * Printed codelets as kernels: codelets with stores that the optimizer drops *)
From Coq Require Import Reals ZArith List Bool Lia Lra.
From Verif Require Import NumTheory Cplx Spec SpecR2R RSum TensorModel Offs XForm XKern RaceProofs TwModel DftModel RdftModel HcMath RMath GenExpr GenCplx GenAlg GenAlgVars GenTrans GenTransProofs GenFft GenNum GenMain GenTrig GenTrigProofs.
From Verif Require Import PropGenfft PropGenreal GenTwid GenTwidProofs PropGentwid PropGenalg PropGentrans GenAlist GenExec PropGenalist GenSched GenPrint PropGenprint GenLink GenInputs GenKernel GenKernel2 PropGenlink PropGenlink2 GenKernel4 GenLink2.
Import ListNotations.
Open Scope Z_scope.
Notation mem := Spec.mem.

Section Mem.
  Context {T : Type}.
  Variable T_dec : forall p q : T, {p = q} + {p <> q}.
  (** The stores [v] of the codelet are at the places [P]: those of [outs], with the values of the transform [X],
      and those of [dead], where the optimized codelet [v'] does not store *)
  Theorem real_codelet2 v v' t (ins : inputs) (outs : outputs) (P dead : list variable) addr tab m X nx ip (I O : loc) :
    (forall x y, (forall w, is_locative w = false -> x w = cells tab m (addr w)) -> (forall w z, In (w, z) ins -> x w = y z) ->
       exists L, computes (Some v) x L /\ map fst L = P /\ forall p o F, In (p, (o, F)) outs -> In (p, F y) L) ->
    NoDup P -> (forall p, In p P -> In p (map fst outs) \/ In p dead) ->
    (forall w, loads_of v w -> In w (map fst ins) \/ var_is_constant w = true) ->
    optimizes v v' -> printed v' t -> (forall p, In p dead -> ~ In p (places v')) ->
    (forall w z, In (w, z) ins -> addr w = inl (sh I z) /\ is_locative w = true) ->
    (forall p o F, In (p, (o, F)) outs -> addr p = inl (sh O o) /\ is_locative p = true) ->
    (forall w, is_locative w = false -> exists u, addr w = inr u) ->
    (forall w, In w (map fst ins) -> ~ In w P) ->
    (forall p o F, In (p, (o, F)) outs -> exists y, F y <> 0%R) ->
    (forall o F, In (o, F) (xo X) <-> exists p, In (p, (o, F)) outs) ->
    (forall p q o F F', In (p, (o, F)) outs -> In (q, (o, F')) outs -> p = q) ->
    (forall w z, In (w, z) ins -> In z (xi X)) ->
    Wf nx ip I O X [] -> (ip = true -> forall w p z F, In (w, z) ins -> In (p, (z, F)) outs -> same_location p w = true) ->
    forall (loc : locals),
      (exists s', cruns _ (cell_dec T_dec) addr t (loc, ccells tab m) s') /\
      forall s', cruns _ (cell_dec T_dec) addr t (loc, ccells tab m) s' -> forall q, snd s' q = ccells tab (kern X nx I O m) q.
  Proof.
    intros Cv NP PD Ld Op Pr Dr RI RO OTH DF NZ XO INJ XI [_ _ _ _ WO WX] Ip.
    assert (UI : forall w z z', In (w, z) ins -> In (w, z') ins -> z' = z).
    { intros w z z' A B. destruct (RI _ _ A) as [E _], (RI _ _ B) as [E' _]. rewrite E in E'. injection E' as E'. lia. }
    assert (GV : forall y w, is_locative w = false -> value_of ins y (fun w => cells tab m (addr w)) w = cells tab m (addr w)).
    { intros y w Lw. apply value_of_out. intros Hw. apply in_map_iff in Hw. destruct Hw as ([w' z] & Ew & Hw). cbn in Ew. subst w'. destruct (RI _ _ Hw). congruence. }
    assert (CV : forall y, let x := value_of ins y (fun w => cells tab m (addr w)) in exists L, computes (Some v) x L /\ map fst L = P /\ forall p o F, In (p, (o, F)) outs -> In (p, F y) L).
    { intros y x. apply Cv; [apply GV|]. intros w z Hw. apply value_of_in; [|exact Hw]. intros z' Hz. exact (UI _ _ _ Hw Hz). }
    set (y0 := fun z => m (sh I z)). destruct (CV y0) as (L0 & C0' & P0 & _). destruct (computes_in _ _ _ C0') as (S & Pv & _).
    assert (P' : places v = P) by congruence.
    assert (ND : NoDup (places v)) by now rewrite P'.
    assert (NX : NoDup (map fst (xo X))) by (rewrite ol_nil in WO; exact WO).
    destruct (C49_algsimp v v' S ND Op) as (K1 & K2 & K3 & K4).
    assert (LI : forall w, In w (map fst ins) -> exists z, In (w, z) ins).
    { intros w Hw. apply in_map_iff in Hw. destruct Hw as ([w' z] & Ew & Hw). cbn in Ew. subst w'. eauto. }
    assert (IP : forall p, In p (places v') -> In p P).
    { intros p Hp. rewrite <- P'. now apply K3. }
    assert (PO : forall p, In p (places v') -> exists o F, In (p, (o, F)) outs /\ addr p = inl (sh O o) /\ is_locative p = true).
    { intros p Hp. destruct (PD p (IP p Hp)) as [Hl|Hd]; [|exfalso; exact (Dr p Hd Hp)].
      apply in_map_iff in Hl. destruct Hl as ([p' [o F]] & Ep & Hl). cbn in Ep. subst p'. exists o, F. split; [exact Hl|]. eapply RO; eauto. }
    assert (LA : array_layout2 addr v v').
    { constructor.
      - intros w Lw. destruct (Ld w Lw) as [Iw|Cw].
        + destruct (LI w Iw) as (z & Hz). destruct (RI _ _ Hz) as [_ Lo]. split; [destruct w; discriminate || reflexivity|]. intros Hw. exact (DF w Iw (IP w Hw)).
        + split; [destruct w; discriminate || reflexivity|]. intros Ow. destruct (PO w Ow) as (o & F & _ & _ & Lo). destruct w; discriminate.
      - intros p Hp. destruct (PO p Hp) as (o & F & _ & _ & Lo). exact Lo.
      - intros p q Hp Hq Epq. destruct (PO p Hp) as (o & F & Hp' & Ap & _), (PO q Hq) as (o' & F' & Hq' & Aq & _). rewrite Ap, Aq in Epq. injection Epq as Epq.
        assert (o' = o) by lia. subst o'. eapply INJ; eauto.
      - intros p w Hp Lw Epw. destruct (PO p Hp) as (o & F & Hp' & Ap & _). destruct (Ld w Lw) as [Iw|Cw].
        + destruct (LI w Iw) as (z & Hz). destruct (RI _ _ Hz) as [Aw _]. rewrite Ap, Aw in Epw. assert (E : sh O o = sh I z) by congruence. destruct ip.
          * destruct WX as [<- _]. assert (o = z) by (unfold sh in E; injection E as E; lia). subst o. eapply Ip; eauto.
          * exfalso. apply (WX (sh I z)).
            -- exists z. split; [|reflexivity]. rewrite il_nil. eapply XI; eauto.
            -- rewrite <- E. exists o. split; [|reflexivity]. rewrite ol_nil. change o with (fst (o, F)). apply in_map, XO. eauto.
        + exfalso. destruct (OTH w) as (u & Eu); [destruct w; discriminate || reflexivity|]. congruence.
      - intros p w Hp Cw Epw. destruct (PO p Hp) as (o & F & Hp' & Ap & _). destruct (OTH w) as (u & Eu); [destruct w; discriminate || reflexivity|]. congruence. }
    intros loc. destruct (printed_runs v v' t (cell_dec T_dec) addr S ND Op Pr LA loc (ccells tab m)) as [E R]. split; [exact E|].
    intros s' Hs q. destruct (R s' Hs) as (V & U). unfold kern.
    set (L := map (fun oF => (fst oF, snd oF (fun z => m (sh I z)))) (xo X)).
    assert (FL : map fst L = map fst (xo X)) by (unfold L; rewrite map_map; apply map_ext; reflexivity).
    destruct q as [q|u].
    - unfold ccells at 1. cbn [cells]. destruct (in_dec loc_dec q (map (sh O) (map fst (xo X)))) as [Hq|Hq].
      + apply in_map_iff in Hq. destruct Hq as (o & <- & Ho). apply in_map_iff in Ho. destruct Ho as ([o' F] & <- & HF). cbn [fst].
        destruct (proj1 (XO o' F) HF) as (p & Hp). destruct (RO p o' F Hp) as [Ap _].
        set (xm := fun w => cells tab m (addr w)).
        destruct (Cv xm y0 (fun _ _ => eq_refl)) as (L1 & C1' & _ & I1).
        { intros w z Hw. unfold xm. destruct (RI _ _ Hw) as [-> _]. reflexivity. }
        destruct (computes_in _ _ _ C1') as (_ & _ & V1). destruct (V1 p _ (I1 p o' F Hp)) as (e & He & Ve).
        destruct (NZ p o' F Hp) as (y & Hy). destruct (CV y) as (L2 & C2' & _ & I2). destruct (computes_in _ _ _ C2') as (_ & _ & V2). destruct (V2 p _ (I2 p o' F Hp)) as (e' & He' & Ve').
        rewrite (places_inj p v ND e' e He' He) in Ve'.
        assert (Vp : snd s' (addr p) = eval (fun w => ccells tab m (addr w)) e).
        { apply (V p e He). eexists. rewrite Ve'. intros Q. apply (f_equal fst) in Q. cbn in Q. contradiction. }
        rewrite Ap in Vp. rewrite Vp. change (fun w => ccells tab m (addr w)) with (real_env xm). rewrite Ve. unfold ccells. cbn [cells]. f_equal. symmetry. apply stores_in.
        * now rewrite FL.
        * unfold L. apply in_map_iff. exists (o', F). auto.
      + rewrite U; [unfold ccells; cbn [cells]; f_equal; symmetry; apply stores_other|].
        * rewrite FL. intros (o & Ho & ->). apply Hq. now apply in_map.
        * intros p Hp Ep. destruct (PO p Hp) as (o & F & Hp' & Ap & _). apply Hq. rewrite Ap in Ep. injection Ep as <-. apply in_map. change o with (fst (o, F)). apply in_map, XO. eauto.
    - apply U. intros p Hp Ep. destruct (PO p Hp) as (o & F & _ & Ap & _). congruence.
  Qed.
End Mem.

(** ** The codelets of gen_r2cf *)
(** the kind of transform of a codelet of gen_r2cf: -dft-II or not *)
Definition cf_kind (II : bool) : rkind := if II then R2HCII else R2HC.
(** the places of the stores of store_array_hc (genutil.ml; the places of a halfcomplex array): real and imaginary part of the outputs below n/2 and the real part of output n/2 *)
Definition cf_places (n : Z) (oloc : Z -> variable * variable) : list variable :=
  flat_map (fun k => if 2 * k <? n then [fst (oloc k); snd (oloc k)] else if 2 * k =? n then [fst (oloc k)] else []) (zr n).
(** the place whose value is 0 for all inputs: the imaginary part of output 0 of a transform of real inputs, and for -dft-II,
    which has no output at frequency 0, that of the output at frequency n/2 if n is odd, and the unused slot n/2 if n is even *)
Definition cf_dead (II : bool) (n : Z) (oloc : Z -> variable * variable) : variable :=
  if II then if Z.even n then fst (oloc (n / 2)) else snd (oloc (n / 2)) else snd (oloc 0).
Lemma gen_r2cf_loads pheq M II n even odd oloc v w : gen_r2cf pheq M II (-1) n even odd oloc = Some v -> loads_of v w -> In w (map (eo_at even odd) (zr n)).
Proof.
  intros E. unfold gen_r2cf in E. set (W := fun w => In w (map (eo_at even odd) (zr n))). change (loads_of v w -> W w).
  assert (A : ins W (load_array_r n (eo even odd))).
  { unfold load_array_r. apply s_array. intros k Hk. apply ino_some. apply in_load_r. unfold W. rewrite eo_eq by lia. apply in_map. now apply in_zr. }
  assert (B : ins W ((if II then rdftII pheq M else rdft pheq M) (-1) n (load_array_r n (eo even odd)))) by (destruct II; [now apply s_rdftII|now apply s_rdft]).
  set (src := (if II then rdftII pheq M else rdft pheq M) (-1) n (load_array_r n (eo even odd))) in *.
  unfold store_array_hc in E. destruct (omapM _ _) as [l|] eqn:El; [|discriminate]. injection E as <-.
  intros (p & e & He & Ow). apply in_concat in He. destruct He as (l0 & Hl0 & He). destruct (omapM_in _ _ _ El _ Hl0) as (i & _ & Ei).
  destruct (i <? n - i).
  - destruct (src i) as [c|] eqn:Ec; [|discriminate]. injection Ei as <-. destruct (B i c Ec) as [A1 A2]. destruct He as [He|[He|[]]]; injection He as _ <-; auto.
  - destruct (i >? n - i); [injection Ei as <-; destruct He|]. destruct (src i) as [c|] eqn:Ec; [|discriminate]. injection Ei as <-. destruct (B i c Ec) as [A1 A2].
    destruct He as [He|[]]; injection He as _ <-; auto.
Qed.
(** what a codelet of gen_r2cf computes (C46), arranged by place *)
Lemma cf_computes pheq M x II n even odd oloc : sound_eq pheq -> magic_ok M -> 0 < n ->
  exists L, computes (gen_r2cf pheq M II (-1) n even odd oloc) x L /\ map fst L = cf_places n oloc /\
    forall k, 0 <= k < n -> In (hcvar II n oloc k, Rsum n (fun j => x (eo_at even odd j) * rk (cf_kind II) n j k)%R) L.
Proof.
  intros Hp HM Hn. destruct II.
  - eexists. split; [exact (C46_r2cfII pheq M x n even odd oloc Hp HM Hn)|]. split.
    + unfold cf_places. clear. induction (zr n) as [|k l IH]; [reflexivity|]. cbn [flat_map]. rewrite map_app, IH. f_equal.
      destruct (2 * k <? n); [reflexivity|]. destruct (2 * k =? n); reflexivity.
    + intros k Hk. apply in_flat_map. unfold hcvar, cf_kind. destruct (Z.leb_spec (2 * k) (n - 1)).
      * exists k. split; [now apply in_zr|]. destruct (Z.ltb_spec (2 * k) n); [|lia]. now left.
      * exists (n - 1 - k). split; [apply in_zr; lia|]. destruct (Z.ltb_spec (2 * (n - 1 - k)) n); [|lia]. right. left.
        destruct (Z.eqb_spec (2 * (n - 1 - k)) (n - 1)); [lia|]. now replace (n - 1 - (n - 1 - k)) with k by ring.
  - eexists. split; [exact (C46_r2cf pheq M x n even odd oloc Hp HM Hn)|]. split.
    + unfold cf_places. clear. induction (zr n) as [|k l IH]; [reflexivity|]. cbn [flat_map]. rewrite map_app, IH. f_equal.
      destruct (2 * k <? n); [reflexivity|]. destruct (2 * k =? n); reflexivity.
    + intros k Hk. apply in_flat_map. unfold hcvar, cf_kind. destruct (Z.leb_spec (2 * k) n).
      * exists k. split; [now apply in_zr|]. destruct (Z.ltb_spec (2 * k) n); [now left|]. destruct (Z.eqb_spec (2 * k) n); [now left|lia].
      * exists (n - k). split; [apply in_zr; lia|]. destruct (Z.ltb_spec (2 * (n - k)) n); [|lia]. right. left.
        destruct (Z.eqb_spec (n - k) 0); [lia|]. now replace (n - (n - k)) with k by ring.
Qed.
Lemma cf_place_cases II n oloc p : 0 < n -> In p (cf_places n oloc) -> (exists k, 0 <= k < n /\ p = hcvar II n oloc k) \/ p = cf_dead II n oloc.
Proof.
  intros Hn Hp. apply in_flat_map in Hp. destruct Hp as (k & Hk & Hp). apply in_zr in Hk. assert (D := Z.div_mod n 2 ltac:(lia)). rewrite Zmod_even in D. unfold hcvar, cf_dead. destruct II.
  - destruct (Z.ltb_spec (2 * k) n).
    + destruct Hp as [<-|[<-|[]]].
      * left. exists k. destruct (Z.leb_spec (2 * k) (n - 1)); [auto|lia].
      * destruct (Z.eqb_spec (2 * k) (n - 1)) as [E|N].
        -- right. destruct (Z.even n); [lia|]. now replace (n / 2) with k by lia.
        -- left. exists (n - 1 - k). split; [lia|]. destruct (Z.leb_spec (2 * (n - 1 - k)) (n - 1)); [lia|]. now replace (n - 1 - (n - 1 - k)) with k by ring.
    + destruct (Z.eqb_spec (2 * k) n); [|destruct Hp]. destruct Hp as [<-|[]]. right. destruct (Z.even n); [|lia]. now replace (n / 2) with k by lia.
  - destruct (Z.ltb_spec (2 * k) n).
    + destruct Hp as [<-|[<-|[]]].
      * left. exists k. destruct (Z.leb_spec (2 * k) n); [auto|lia].
      * destruct (Z.eqb_spec k 0) as [->|N]; [now right|]. left. exists (n - k). split; [lia|]. destruct (Z.leb_spec (2 * (n - k)) n); [lia|]. now replace (n - (n - k)) with k by ring.
    + destruct (Z.eqb_spec (2 * k) n); [|destruct Hp]. destruct Hp as [<-|[]]. left. exists k. destruct (Z.leb_spec (2 * k) n); [auto|lia].
Qed.
(** every output depends on some input *)
Lemma cf_row II n k : 0 <= k < n -> exists j, 0 <= j < n /\ rk (cf_kind II) n j k <> 0%R.
Proof.
  intros Hk. destruct II; unfold cf_kind.
  - destruct (Z.leb_spec (2 * k) (n - 1)).
    + exists 0. split; [lia|]. rewrite rk_r2hcii_re by lia. rewrite Z.mul_0_r, cs_0. lra.
    + exists 1. split; [lia|]. rewrite rk_r2hcii_im by lia. assert (Hs := sin_turn (2 * (n - 1 - k) + 1) n ltac:(lia) ltac:(lia)).
      unfold sn, ang. rewrite Z.mul_1_r, mult_IZR. replace (2 * PI * IZR (2 * (n - 1 - k) + 1) / (2 * IZR n))%R with (PI * (IZR (2 * (n - 1 - k) + 1) / IZR n))%R by (field; apply IZR_neq; lia). lra.
  - destruct (Z.leb_spec (2 * k) n).
    + exists 0. split; [lia|]. rewrite rk_r2hc_re by lia. rewrite Z.mul_0_l, cs_0. lra.
    + exists 1. split; [lia|]. rewrite rk_r2hc_im by lia. assert (Hs := sin_turn (2 * (n - k)) n ltac:(lia) ltac:(lia)).
      unfold sn, ang. rewrite Z.mul_1_l. rewrite mult_IZR in Hs. replace (2 * PI * IZR (n - k) / IZR n)%R with (PI * (2 * IZR (n - k) / IZR n))%R by (field; apply IZR_neq; lia). lra.
Qed.
