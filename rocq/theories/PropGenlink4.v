(** * C57: the printed codelets of gen_r2cf are the real-to-halfcomplex kernels of the planner *)
From Coq Require Import Reals ZArith List Bool Lia Lra.
From Verif Require Import NumTheory Cplx Spec SpecR2R RSum TensorModel Offs XForm XKern XSeq RaceProofs TwModel DftModel RdftModel GenExpr GenCplx GenAlg GenAlgVars GenTrans GenTransProofs GenFft GenNum GenMain GenTrig GenTrigProofs.
From Verif Require Import PropGenfft PropGenreal GenTwid GenTwidProofs PropGentwid PropGenalg PropGentrans GenAlist GenExec PropGenalist GenSched GenPrint PropGensched GenAnnot PropGenannot PropGenprint GenLink GenInputs GenKernel GenKernel2 PropGenlink PropGenlink2 GenKernel4 PropGenlink3 GenLink2 GenReal GenKernel5 GenKernel6 GenAlgProofs GenConst.
Import ListNotations.
Open Scope Z_scope.
Notation mem := Spec.mem.

Section Cf.
  Context {T : Type}.
  Variable T_dec : forall p q : T, {p = q} + {p <> q}.
  (** The arrays of a codelet of gen_r2cf, as its C code addresses them (gen_r2cf.ml:89-108): element 2j of the real input is
      R0[j*rs], element 2j+1 is R1[j*rs]; the real part of element j of the complex output is Cr[j*csr], its imaginary
      part Ci[j*csi].  R0 = Ra, R1 = Ra + rs0, Cr = Ca, Ci = Ca + ioff.  Nothing is said of the address of [cf_dead]. *)
  Record cf_layout (II : bool) (n : Z) (even odd oloc : Z -> variable * variable) (addr : variable -> loc + T) (Ra Ca : loc) (rs0 rs ioff csr csi : Z) : Prop := {
    cf_re : forall j, 0 <= j < n -> 2 * j <= (if II then n - 1 else n) -> addr (fst (oloc j)) = inl (sh Ca (j * csr));
    cf_im : forall j, (if II then 0 else 1) <= j -> 2 * j < (if II then n - 1 else n) -> addr (snd (oloc j)) = inl (sh Ca (ioff + j * csi));
    cf_even : forall j, 0 <= j -> 2 * j < n -> addr (fst (even j)) = inl (sh Ra (j * rs));
    cf_odd : forall j, 0 <= j -> 2 * j + 1 < n -> addr (fst (odd j)) = inl (sh Ra (rs0 + j * rs));
    cf_other : forall w, is_locative w = false -> exists u, addr w = inr u;
    cf_loc : forall w, In w (map (eo_at even odd) (zr n) ++ cf_places n oloc) -> is_locative w = true;
    cf_diff : NoDup (map (eo_at even odd) (zr n) ++ cf_places n oloc)
  }.
  (** gen_r2cf.ml:112-127: for (i = v; i > 0; --i, R0 += ivs, R1 += ivs, Cr += ovs, Ci += ovs); the optimized codelet [v'],
      of which [t] is the C text, has no store at [cf_dead] *)
  Theorem C57_r2cf_partial pheq M II n even odd oloc v v' t addr tab rs0 rs ioff csr csi vl ivs ovs nx (Ra Ca : loc) m :
    sound_eq pheq -> magic_ok M -> 0 < n ->
    gen_r2cf pheq M II (-1) n even odd oloc = Some v -> optimizes v v' -> printed v' t -> ~ In (cf_dead II n oloc) (places v') ->
    (forall i, 0 <= i < vl -> cf_layout II n even odd oloc (addr i) (sh Ra (i * ivs)) (sh Ca (i * ovs)) rs0 rs ioff csr csi) ->
    Wf nx false Ra Ca (xr2c (cf_kind II) n rs0 rs ioff csr csi) [mkdim vl ivs ovs] ->
    loop_gives T_dec addr t vl tab m (kr2c (cf_kind II) n rs0 rs ioff csr csi vl ivs ovs nx Ra Ca m).
  Proof.
    intros Hp HM Hn E Op Pr Dr LO WF. unfold kr2c, vloop. apply loop_zfor. intros i m' l Hi.
    set (X := xr2c (cf_kind II) n rs0 rs ioff csr csi) in *.
    assert (W1 : Wf nx false (sh Ra (i * ivs)) (sh Ca (i * ovs)) X []) by (eapply loop_body_wf; eauto; discriminate).
    destruct (LO i Hi) as [RE IM EV OD OTH LOC DIFF].
    set (cp := cpos (cf_kind II) n ioff csr csi). set (rp := rpos rs0 rs).
    set (row := fun k (x : Z -> R) => Rsum n (fun j => x (rp j) * rk (cf_kind II) n j k)%R).
    assert (EX : X = mkX (map rp (zr n)) (map (fun k => (cp k, row k)) (zr n))) by (unfold X, xr2c; destruct II; reflexivity).
    set (ins := map (fun j => (eo_at even odd j, rp j)) (zr n)).
    set (outs := map (fun k => (hcvar II n oloc k, (cp k, row k))) (zr n)).
    assert (FI : map fst ins = map (eo_at even odd) (zr n)) by (unfold ins; rewrite map_map; reflexivity).
    assert (IN : forall w z, In (w, z) ins -> exists j, 0 <= j < n /\ w = eo_at even odd j /\ z = rp j).
    { intros w z Hw. apply in_map_iff in Hw. destruct Hw as (j & Ej & Hj). injection Ej as <- <-. apply in_zr in Hj. eauto. }
    assert (OO : forall p o F, In (p, (o, F)) outs -> exists k, 0 <= k < n /\ p = hcvar II n oloc k /\ o = cp k /\ F = row k).
    { intros p o F Hw. apply in_map_iff in Hw. destruct Hw as (k & Ek & Hk). injection Ek as <- <- <-. apply in_zr in Hk. eauto 6. }
    assert (NDo := wf_o _ _ _ _ _ _ W1). assert (NDi := wf_i _ _ _ _ _ _ W1).
    rewrite ol_nil in NDo. rewrite il_nil in NDi. rewrite EX in NDo, NDi. cbn [xi xo] in NDo, NDi. rewrite map_map in NDo. cbn [fst] in NDo.
    assert (Dup : forall f : Z -> Z, NoDup (map f (zr n)) -> forall j k, 0 <= j < n -> 0 <= k < n -> f j = f k -> j = k).
    { intros f N j k Hj Hk Ejk. apply (map_inj_NoDup f (zr n) N); auto; now apply in_zr. }
    assert (AO : forall k, 0 <= k < n -> addr i (hcvar II n oloc k) = inl (sh (sh Ca (i * ovs)) (cp k))).
    { intros k Hk. unfold hcvar, cp, cpos, cf_kind. destruct II.
      - destruct (Z.leb_spec (2 * k) (n - 1)); [now apply RE|apply IM; lia].
      - destruct (Z.leb_spec (2 * k) n); [now apply RE|apply IM; lia]. }
    assert (AI : forall j, 0 <= j < n -> addr i (eo_at even odd j) = inl (sh (sh Ra (i * ivs)) (rp j))).
    { intros k Hk. unfold eo_at, rp, rpos. rewrite Zmod_even. assert (D := Z.div_mod k 2 ltac:(lia)). rewrite Zmod_even in D. destruct (Z.even k).
      - rewrite EV by lia. f_equal; f_equal; try reflexivity; try lia.
      - rewrite OD by lia. f_equal; f_equal; try reflexivity; try lia. }
    assert (LV : forall k, 0 <= k < n -> In (hcvar II n oloc k) (cf_places n oloc)).
    { intros k Hk. destruct (cf_computes pheq M (fun _ => 0%R) II n even odd oloc Hp HM Hn) as (L & _ & <- & I1).
      exact (in_map fst _ _ (I1 k Hk)). }
    apply (real_codelet2 T_dec v v' t ins outs (cf_places n oloc) [cf_dead II n oloc] (addr i) tab m' X nx false); auto.
    - intros x y _ Hx. rewrite <- E. destruct (cf_computes pheq M x II n even odd oloc Hp HM Hn) as (L & C1 & P1 & I1). exists L. split; [exact C1|]. split; [exact P1|].
      intros p o F Hw. destruct (OO p o F Hw) as (k & Hk & -> & -> & ->). assert (Ik := I1 k Hk).
      replace (row k y) with (Rsum n (fun j => x (eo_at even odd j) * rk (cf_kind II) n j k)%R); [exact Ik|]. apply Rsum_ext. intros j Hj. f_equal. apply Hx. unfold ins. apply in_map_iff. exists j. split; [reflexivity|now apply in_zr].
    - apply NoDup_app_inv in DIFF. tauto.
    - intros p Hq. destruct (cf_place_cases II n oloc p Hn Hq) as [(k & Hk & ->)| ->]; [left|right; now left].
      unfold outs. rewrite map_map. apply in_map_iff. exists k. split; [reflexivity|now apply in_zr].
    - intros w Hw. left. rewrite FI. eapply gen_r2cf_loads; eauto.
    - intros p [<-|[]]. exact Dr.
    - intros w z Hw. destruct (IN w z Hw) as (j & Hj & -> & ->). split; [auto|]. apply LOC, in_or_app. left. apply in_map. now apply in_zr.
    - intros p o F Hw. destruct (OO p o F Hw) as (k & Hk & -> & -> & _). split; [auto|]. apply LOC, in_or_app. right. auto.
    - rewrite FI. apply NoDup_app_inv in DIFF. destruct DIFF as (_ & _ & D). exact D.
    - intros p o F Hw. destruct (OO p o F Hw) as (k & Hk & -> & -> & ->). destruct (cf_row II n k Hk) as (j0 & Hj0 & NZ).
      exists (fun z => if z =? rp j0 then 1%R else 0%R). unfold row.
      rewrite (Rsum_delta n j0) by (lia || (intros j Hj Nj; destruct (Z.eqb_spec (rp j) (rp j0)) as [E0|]; [exfalso; apply Nj; now apply (Dup rp)|ring])).
      rewrite Z.eqb_refl. now rewrite Rmult_1_l.
    - intros o F. rewrite EX. cbn [xo]. rewrite in_map_iff. split.
      + intros (k & Ek & Hk). exists (hcvar II n oloc k). apply in_map_iff. exists k. rewrite <- Ek. auto.
      + intros (p & Hw). apply in_map_iff in Hw. destruct Hw as (k & Ek & Hk). exists k. split; [congruence|exact Hk].
    - intros p q o F F' Hw Hw'. destruct (OO p o F Hw) as (k & Hk & -> & -> & _), (OO q _ F' Hw') as (k' & Hk' & -> & Eo & _).
      rewrite (Dup cp NDo k k'); auto.
    - intros w z Hw. destruct (IN w z Hw) as (j & Hj & -> & ->). rewrite EX. cbn [xi]. apply in_map_iff. exists j. split; [reflexivity|now apply in_zr].
    - discriminate.
  Qed.
End Cf.
(** The hypothesis on [cf_dead] holds if the optimizer transposes the network, which is its default, and the simplification
    before that ([u]) makes a store that loads nothing from a store that loads nothing; missing is that it always
    does: the randomised common-subexpression elimination may replace the constant 0 by any expression that it takes for 0 *)
Theorem C57_dropped_partial pheq M II n even odd oloc v u v' : threemult M = false -> 0 < n -> II = false \/ Z.even n = true ->
  gen_r2cf pheq M II (-1) n even odd oloc = Some v -> NoDup (places v) -> simplifies v u -> rounds u v' ->
  (forall p e e', In (EStore p e) v -> nonconst e = false -> In (EStore p e') u -> nonconst e' = false) ->
  ~ In (cf_dead II n oloc) (places v').
Proof.
  intros T3 Hn Hd E ND A R K.
  assert (S : all_stores v).
  { intros q Hq. unfold gen_r2cf in E. set (src := (if II then rdftII pheq M else rdft pheq M) (-1) n (load_array_r n (eo even odd))) in *. unfold store_array_hc in E. destruct (omapM _ _) as [l|] eqn:El; [|discriminate]. injection E as <-. apply in_concat in Hq. destruct Hq as (l0 & Hl & Hq).
    destruct (PropGenlink.omapM_in _ _ _ El _ Hl) as (i & _ & Ei). destruct (i <? n - i).
    - destruct (src i) as [c|]; [|discriminate]. injection Ei as <-. destruct Hq as [<-|[<-|[]]]; unfold store_c, store_r; eauto.
    - destruct (i >? n - i); [injection Ei as <-; destruct Hq|]. destruct (src i) as [c|]; [|discriminate]. injection Ei as <-. destruct Hq as [<-|[]]; unfold store_r; eauto. }
  apply (rounds_drop v u v' _ S ND A R). intros e' He'.
  destruct (simplifies_keeps v u S ND A) as [_ P]. assert (Hv : In (cf_dead II n oloc) (places v)) by (rewrite <- P; apply PropGentrans.in_places; eauto).
  apply PropGentrans.in_places in Hv. destruct Hv as (e & He). apply (K _ e e' He); [|exact He']. eapply cf_dead_const; eauto.
Qed.

(** The simplification of Algsimp.algsimp, by oracles none of which takes an expression that loads an input for one that
    loads none; without the randomised common-subexpression elimination (-no-randomized-cse) these are all sound oracles *)
Definition apart (Or : oracles) (Mg : asettings) : Prop :=
  randomized_cse Mg = true -> forall t a b, random_equal Or t a b = true -> nonconst a = nonconst b.
Definition simplifies_apart (v u : list expr) : Prop := exists Or Mg fuel s,
  sound_oracles Or Mg /\ apart Or Mg /\ algsimp Or Mg fuel v = Some (u, s) /\ bad s = false.
Lemma apart_simplifies v u : simplifies_apart v u -> simplifies v u.
Proof. intros (Or & Mg & f & s & A & _ & B). exists Or, Mg, f, s. auto. Qed.
Lemma rel_places v u : Forall2 rel v u -> all_stores v -> places u = places v.
Proof.
  induction 1 as [|x y v u R F IH]; intros S; [reflexivity|]. destruct (S x (or_introl eq_refl)) as (p & e & ->). destruct R as (e' & -> & _).
  unfold places in *. cbn. f_equal. apply IH. intros q Hq. apply S. now right.
Qed.
(** a store that loads nothing becomes a store that loads nothing *)
Lemma apart_const v u p e e' : simplifies_apart v u -> all_stores v -> NoDup (places v) -> In (EStore p e) v -> nonconst e = false -> In (EStore p e') u -> nonconst e' = false.
Proof.
  intros (Or & Mg & f & s & HO & RE & E & _) S ND He N He'. assert (F := algsimp_const Or Mg HO RE f v u s E). clear E.
  induction F as [|x y v u R F IH]; [destruct He|].
  destruct (S x (or_introl eq_refl)) as (q & a & ->). destruct R as (a' & -> & K).
  assert (S' : all_stores v) by (intros z Hz; apply S; now right). assert (P := rel_places v u F S').
  unfold places in ND. cbn in ND. inversion ND as [|? ? N1 N2]; subst. fold (places v) in N1, N2.
  destruct He as [He|He], He' as [He'|He'].
  - injection He as -> ->. injection He' as ->. exact (K N).
  - injection He as -> ->. destruct N1. rewrite <- P. apply PropGentrans.in_places. eauto.
  - injection He' as -> ->. destruct N1. apply PropGentrans.in_places. eauto.
  - now apply IH.
Qed.
Lemma r2cf_stores pheq M II n even odd oloc v : gen_r2cf pheq M II (-1) n even odd oloc = Some v -> all_stores v.
Proof.
  intros E q Hq. unfold gen_r2cf in E. set (src := (if II then rdftII pheq M else rdft pheq M) (-1) n (load_array_r n (eo even odd))) in *. unfold store_array_hc in E. destruct (omapM _ _) as [l|] eqn:El; [|discriminate]. injection E as <-. apply in_concat in Hq. destruct Hq as (l0 & Hl & Hq).
  destruct (PropGenlink.omapM_in _ _ _ El _ Hl) as (i & _ & Ei). destruct (i <? n - i).
  - destruct (src i) as [c|]; [|discriminate]. injection Ei as <-. destruct Hq as [<-|[<-|[]]]; unfold store_c, store_r; eauto.
  - destruct (i >? n - i); [injection Ei as <-; destruct Hq|]. destruct (src i) as [c|]; [|discriminate]. injection Ei as <-. destruct Hq as [<-|[]]; unfold store_r; eauto.
Qed.
Theorem C57_never_stored_partial pheq M II n even odd oloc v u v' : threemult M = false -> 0 < n -> II = false \/ Z.even n = true ->
  gen_r2cf pheq M II (-1) n even odd oloc = Some v -> NoDup (places v) -> simplifies_apart v u -> rounds u v' ->
  ~ In (cf_dead II n oloc) (places v').
Proof.
  intros T3 Hn Hd E ND A R. apply (C57_dropped_partial pheq M II n even odd oloc v u v'); auto; [now apply apart_simplifies|].
  intros p e e' He N He'. eapply apart_const; eauto. eapply r2cf_stores; eauto.
Qed.
(** The whole way, for the optimizer's default passes (the simplification, then rounds of network transposition and simplification) *)
Theorem C57_r2cf_whole_partial {T} (T_dec : forall p q : T, {p = q} + {p <> q}) pheq M II n even odd oloc v u v' t addr tab rs0 rs ioff csr csi vl ivs ovs nx (Ra Ca : loc) m :
  sound_eq pheq -> magic_ok M -> threemult M = false -> 0 < n -> II = false \/ Z.even n = true ->
  gen_r2cf pheq M II (-1) n even odd oloc = Some v -> NoDup (places v) -> simplifies_apart v u -> rounds u v' -> printed v' t ->
  (forall i, 0 <= i < vl -> cf_layout II n even odd oloc (addr i) (sh Ra (i * ivs)) (sh Ca (i * ovs)) rs0 rs ioff csr csi) ->
  Wf nx false Ra Ca (xr2c (cf_kind II) n rs0 rs ioff csr csi) [mkdim vl ivs ovs] ->
  loop_gives T_dec addr t vl tab m (kr2c (cf_kind II) n rs0 rs ioff csr csi vl ivs ovs nx Ra Ca m).
Proof.
  intros Hp HM T3 Hn Hd E ND A R Pr LO WF. apply (C57_r2cf_partial T_dec pheq M II n even odd oloc v v'); auto.
  - apply (opt_loop v v' u); [exact (apart_simplifies v u A)|exact R].
  - eapply C57_never_stored_partial; eauto.
Qed.

(** ** The hypotheses are met *)
(** the variables that gen_r2cf.ml:89-108 makes: R0, R1, Cr and Ci are the classes 0 to 3 *)
Definition ex_odd1 (j : Z) : variable * variable := (snd (ex_in j), snd (ex_in j)).
Definition cf_addr (Ra Ca : loc) (rs0 rs ioff csr csi : Z) (w : variable) : loc + Z :=
  match w with
  | Locative _ c j => if c =? 0 then inl (sh Ra (j * rs)) else if c =? 1 then inl (sh Ra (rs0 + j * rs))
                      else if c =? 2 then inl (sh Ca (j * csr)) else inl (sh Ca (ioff + j * csi))
  | Constant _ o => inr o
  | Temporary k => inr k
  end.
Lemma eo_inj1 x y : 0 <= x -> 0 <= y -> eo_at ex_in ex_odd1 x = eo_at ex_in ex_odd1 y -> x = y.
Proof.
  intros Hx Hy. unfold eo_at, ex_odd1, ex_in. assert (Dx := Z.div_mod x 2 ltac:(lia)). assert (Dy := Z.div_mod y 2 ltac:(lia)). rewrite Zmod_even in Dx, Dy.
  destruct (Z.even x), (Z.even y); cbn [fst snd]; intros E; try discriminate; injection E as E; lia.
Qed.
Lemma eo_class1 j : exists l c i, eo_at ex_in ex_odd1 j = Locative l c i /\ (c = 0 \/ c = 1).
Proof. unfold eo_at, ex_odd1, ex_in. destruct (Z.even j); cbn [fst snd]; eauto 6. Qed.
Lemma in_cf_places n oloc p : In p (cf_places n oloc) -> exists k, 0 <= k < n /\ (p = fst (oloc k) \/ p = snd (oloc k)).
Proof.
  intros Hp. apply in_flat_map in Hp. destruct Hp as (k & Hk & Hp). apply in_zr in Hk. exists k. split; [exact Hk|].
  destruct (2 * k <? n); [destruct Hp as [<-|[<-|[]]]; auto|]. destruct (2 * k =? n); [destruct Hp as [<-|[]]; auto|destruct Hp].
Qed.
Lemma cf_places_NoDup n : NoDup (cf_places n ex_out).
Proof.
  unfold cf_places. assert (N := NoDup_zr n). induction (zr n) as [|k l IH]; [constructor|]. inversion N as [|? ? N1 N2]; subst. cbn [flat_map]. apply NoDup_app_intro.
  - destruct (2 * k <? n); [|destruct (2 * k =? n)]; repeat constructor; cbn; intuition discriminate.
  - now apply IH.
  - intros w A B. apply in_flat_map in B. destruct B as (k' & Hk' & B). assert (k = k'); [|now subst].
    assert (C : forall j, In w (if 2 * j <? n then [fst (ex_out j); snd (ex_out j)] else if 2 * j =? n then [fst (ex_out j)] else []) -> exists l c, w = Locative l c j).
    { intros j Hj. destruct (2 * j <? n); [|destruct (2 * j =? n)]; cbn in Hj; unfold ex_out in Hj; cbn in Hj; intuition eauto. }
    destruct (C k A) as (a & b & ->), (C k' B) as (a' & b' & E). congruence.
Qed.
Example ex_cf_layout II n Ra Ca rs0 rs ioff csr csi : 0 <= n -> cf_layout II n ex_in ex_odd1 ex_out (cf_addr Ra Ca rs0 rs ioff csr csi) Ra Ca rs0 rs ioff csr csi.
Proof.
  intros Hn. constructor; try reflexivity.
  - intros w Lw; destruct w; try discriminate; cbn; eauto.
  - intros w Hw. apply in_app_or in Hw. destruct Hw as [Hw|Hw].
    + apply in_map_iff in Hw; destruct Hw as (k & <- & _). destruct (eo_class1 k) as (a & b & c & -> & _). reflexivity.
    + apply in_cf_places in Hw. destruct Hw as (k & _ & [->| ->]); reflexivity.
  - apply NoDup_app_intro.
    + apply NoDup_map_inj; [|apply NoDup_zr]. intros x y Hx Hy. apply in_zr in Hx, Hy. apply eo_inj1; lia.
    + apply cf_places_NoDup.
    + intros w A B. apply in_map_iff in A. destruct A as (a & <- & _). destruct (eo_class1 a) as (x & y & z & E & Hy). rewrite E in B.
      apply in_cf_places in B. destruct B as (k & _ & [B|B]); unfold ex_out in B; cbn in B; injection B as _ B _; lia.
Qed.
Definition v5 : list expr := [EStore (Locative 0 2 0) (ELoad (Locative 0 0 0)); EStore (Locative 1 3 0) (Num 0)].
Example C57_r2cf1_dag : gen_r2cf pheq0 magic_default false (-1) 1 ex_in ex_odd1 ex_out = Some v5.
Proof.
  cbv -[IZR is_zero is_one is_mone Rmult Rplus Ropp Rdiv sqrt];
    repeat (progress rewrite ?z0, ?z1, ?o1', ?Rmult_0_l, ?Rmult_0_r, ?Rmult_1_l, ?Rmult_1_r, ?Ropp_0, ?Rplus_0_l, ?Rplus_0_r, ?z0, ?z1; cbv -[IZR is_zero is_one is_mone Rmult Rplus Ropp Rdiv sqrt]); reflexivity.
Qed.
Definition h5 : heap := fun i => nth i [NLoad (Locative 0 0 0); NNum 0; NStore (Locative 0 2 0) 0%nat; NStore (Locative 1 3 0) 1%nat] NNaN.
Definition h6 : heap := fun i => nth i [NLoad (Locative 0 2 0); NStore (Locative 0 0 0) 0%nat] NNaN.
Definition v6 : list expr := [EStore (Locative 0 0 0) (ELoad (Locative 0 2 0))].
(** oracles that find nothing equal *)
Definition no_or : oracles := mkor (fun _ _ _ => false) (fun _ _ _ => false) (fun t _ => Z.of_nat t) (fun t _ => Z.of_nat t) (fun _ _ _ => false) (fun _ _ => false).
Lemma no_or_sound : sound_oracles no_or ex_set.
Proof. split; [|split]; cbn; intros; discriminate. Qed.
Example C57_simp1 : simplifies v5 v5.
Proof.
  exists no_or, ex_set, 1%nat.
  assert (B : match algsimp no_or ex_set 1 v5 with Some (r, s) => (r, bad s) | None => ([], true) end = (v5, false)).
  { assert (E0 : snumM (opsn no_or ex_set 1) 0%R = makeNode no_or ex_set (Num 0)) by (cbn [opsn step snumM]; unfold snumM1; now rewrite z0).
    unfold algsimp, v5. cbn [GenAlg.mapM algsimpM]. rewrite E0. clear E0. generalize (opsn no_or ex_set 1). intros o.
    cbv -[IZR is_zero negative_num is_one is_mone Rplus Rmult Ropp Rminus Rdiv Req_EM_T]. reflexivity. }
  destruct (algsimp no_or ex_set 1 v5) as [[r s]|]; [|discriminate]. injection B as -> B. exists s. split; [apply no_or_sound|]. auto.
Qed.
Example C57_simp_apart1 : simplifies_apart v5 v5.
Proof.
  exists no_or, ex_set, 1%nat.
  assert (B : match algsimp no_or ex_set 1 v5 with Some (r, s) => (r, bad s) | None => ([], true) end = (v5, false)).
  { assert (E0 : snumM (opsn no_or ex_set 1) 0%R = makeNode no_or ex_set (Num 0)) by (cbn [opsn step snumM]; unfold snumM1; now rewrite z0).
    unfold algsimp, v5. cbn [GenAlg.mapM algsimpM]. rewrite E0. clear E0. generalize (opsn no_or ex_set 1). intros o.
    cbv -[IZR is_zero negative_num is_one is_mone Rplus Rmult Ropp Rminus Rdiv Req_EM_T]. reflexivity. }
  destruct (algsimp no_or ex_set 1 v5) as [[r s]|]; [|discriminate]. injection B as -> B. exists s. split; [apply no_or_sound|]. split; [intros _ t a b K; discriminate K|]. auto.
Qed.
Example C57_round1 : rounds v5 v2.
Proof.
  apply rounds_one. apply round_intro with (v1 := v6) (v2 := v6) (v3 := v2).
  - exists pheq0, h5, [2; 3]%nat, 20%nat. split; [exact pheq0_sound|]. split; [|split; [reflexivity|cbv -[IZR]; reflexivity]]. split.
    + intros i c. unfold h5. do 4 (destruct i as [|i]; [cbn; intuition lia|]). cbn. destruct i; intros [].
    + repeat constructor; cbn; intuition lia.
    + intros r [<-|[<-|[]]]; [exists (Locative 0 2 0), 0%nat|exists (Locative 1 3 0), 1%nat]; (split; [reflexivity|cbn; auto]).
    + intros r w x [<-|[<-|[]]] E; cbn in E; injection E as <- <-; reflexivity.
    + assert (K : forall n w, h5 n = NLoad w -> n = 0%nat).
      { intros n w. unfold h5. do 4 (destruct n as [|n]; [cbn; intros E; try discriminate; auto|]). cbn. destruct n; discriminate. }
      intros a b w _ _ E1 E2. apply K in E1, E2. congruence.
  - apply simplifies_same. cbv -[IZR is_zero negative_num is_one is_mone Rplus Rmult Ropp Rminus Rdiv Req_EM_T]. reflexivity.
  - exists pheq0, h6, [1]%nat, 20%nat. split; [exact pheq0_sound|]. split; [|split; [reflexivity|cbv -[IZR]; reflexivity]]. split.
    + intros i c. unfold h6. do 2 (destruct i as [|i]; [cbn; intuition lia|]). cbn. destruct i; intros [].
    + repeat constructor; cbn; intuition lia.
    + intros r [<-|[]]; exists (Locative 0 0 0), 0%nat; (split; [reflexivity|cbn; auto]).
    + intros r w x [<-|[]] E; cbn in E; injection E as <- <-; reflexivity.
    + assert (K : forall n w, h6 n = NLoad w -> n = 0%nat).
      { intros n w. unfold h6. do 2 (destruct n as [|n]; [cbn; intros E; try discriminate; auto|]). cbn. destruct n; discriminate. }
      intros a b w _ _ E1 E2. apply K in E1, E2. congruence.
  - apply simplifies_same. cbv -[IZR is_zero negative_num is_one is_mone Rplus Rmult Ropp Rminus Rdiv Req_EM_T]. reflexivity.
Qed.
Example C57_dropped1 : ~ In (cf_dead false 1 ex_out) (places v2).
Proof.
  assert (A := C57_simp1). assert (R := C57_round1).
  apply (C57_dropped_partial pheq0 magic_default false 1 ex_in ex_odd1 ex_out v5 v5 v2); auto; try lia; try reflexivity.
  - exact C57_r2cf1_dag.
  - repeat constructor; cbn; intuition discriminate.
  - intros p e e' He N He'. cbn in He, He'. intuition congruence.
Qed.
Example C57_printed1 : printed v2 t2.
Proof.
  eapply (printed_intro v2 t2 h2 [1]%nat magic0 (sm 0) plain no_sort 4 _ 20 _ 40 _ 20).
  - intros k c Hc. unfold h2 in Hc. do 2 (destruct k as [|k]; [cbn in Hc; intuition lia|]). rewrite nth_overflow in Hc by (cbn; lia). destruct Hc.
  - repeat constructor; cbn; intuition discriminate.
  - reflexivity.
  - discriminate.
  - intros p e [K|[]]; injection K as <- <-; reflexivity.
  - reflexivity.
  - intros _ k a b u [K|K]; exfalso; unfold h2 in K; (do 2 (destruct k as [|k]; [discriminate K|])); rewrite nth_overflow in K by (cbn; lia); discriminate.
  - intros q [<-|[]]; lia.
  - vm_compute. reflexivity.
  - apply Nat.leb_le. vm_compute. reflexivity.
  - discriminate.
  - left. vm_compute. reflexivity.
  - intros c l. unfold no_sort. apply Permutation.Permutation_refl.
  - vm_compute. reflexivity.
  - vm_compute. reflexivity.
Qed.
(** the codelet of size 1: a loop of vl copies; Ci, where the imaginary part of output 0 would be, is not touched *)
Example C57_size1 rs0 rs ioff csr csi vl ivs ovs nx (Ra Ca : loc) tab m :
  Wf nx false Ra Ca (xr2c R2HC 1 rs0 rs ioff csr csi) [mkdim vl ivs ovs] ->
  loop_gives Z.eq_dec (fun i => cf_addr (sh Ra (i * ivs)) (sh Ca (i * ovs)) rs0 rs ioff csr csi) t2 vl tab m (kr2c R2HC 1 rs0 rs ioff csr csi vl ivs ovs nx Ra Ca m).
Proof.
  intros WF. assert (A := C57_simp1). assert (R := C57_round1).
  apply (C57_r2cf_partial Z.eq_dec pheq0 magic_default false 1 ex_in ex_odd1 ex_out v5 v2 t2 _ tab rs0 rs ioff csr csi vl ivs ovs nx Ra Ca m pheq0_sound magic_default_ok); auto.
  - lia.
  - exact C57_r2cf1_dag.
  - exact (opt_loop v5 v2 v5 A R).
  - exact C57_printed1.
  - exact C57_dropped1.
  - intros i Hi. apply ex_cf_layout. lia.
Qed.
(** the same from the theorem about the whole way *)
Example C57_size1_whole rs0 rs ioff csr csi vl ivs ovs nx (Ra Ca : loc) tab m :
  Wf nx false Ra Ca (xr2c R2HC 1 rs0 rs ioff csr csi) [mkdim vl ivs ovs] ->
  loop_gives Z.eq_dec (fun i => cf_addr (sh Ra (i * ivs)) (sh Ca (i * ovs)) rs0 rs ioff csr csi) t2 vl tab m (kr2c R2HC 1 rs0 rs ioff csr csi vl ivs ovs nx Ra Ca m).
Proof.
  intros WF. assert (A := C57_simp_apart1). assert (R := C57_round1).
  apply (C57_r2cf_whole_partial Z.eq_dec pheq0 magic_default false 1 ex_in ex_odd1 ex_out v5 v5 v2 t2 _ tab rs0 rs ioff csr csi vl ivs ovs nx Ra Ca m pheq0_sound magic_default_ok); auto.
  - lia.
  - exact C57_r2cf1_dag.
  - repeat constructor; cbn; intuition discriminate.
  - exact C57_printed1.
  - intros i Hi. apply ex_cf_layout. lia.
Qed.
(** ... and the places of three transforms of size 4 in two arrays *)
Example C57_wf : Wf 2 false (0%nat, 0) (1%nat, 0) (xr2c R2HC 4 1 2 4 1 (-1)) [mkdim 3 4 4].
Proof.
  constructor.
  - cbn. lia.
  - cbn. lia.
  - repeat constructor; cbn; lia.
  - apply nodup_by. vm_compute. reflexivity.
  - apply nodup_by. vm_compute. reflexivity.
  - intros p (o & _ & ->) (o' & _ & E). discriminate.
Qed.
Print Assumptions C57_r2cf_partial.
Print Assumptions C57_dropped_partial.
Print Assumptions C57_never_stored_partial.
Print Assumptions C57_r2cf_whole_partial.
