(** * C56: the printed codelets of gen_r2cb are the halfcomplex-to-real kernels of the planner *)
From Coq Require Import Reals ZArith List Bool Lia Lra.
From Verif Require Import NumTheory Cplx Spec SpecR2R RSum TensorModel Offs XForm XKern XSeq RaceProofs TwModel DftModel RdftModel GenExpr GenCplx GenAlg GenAlgVars GenTrans GenTransProofs GenFft GenNum GenMain GenTrig GenTrigProofs.
From Verif Require Import PropGenfft PropGenreal GenTwid GenTwidProofs PropGentwid PropGenalg PropGentrans GenAlist GenExec PropGenalist GenSched GenPrint PropGenprint GenLink GenInputs GenKernel GenKernel2 PropGenlink PropGenlink2 GenKernel4.
Import ListNotations.
Open Scope Z_scope.
Notation mem := Spec.mem.

Lemma map_inj_NoDup {A B} (f : A -> B) l : NoDup (map f l) -> forall x y, In x l -> In y l -> f x = f y -> x = y.
Proof.
  induction l as [|a l IH]; intros N x y Hx Hy Exy; [destruct Hx|]. cbn [map] in N. inversion N as [|? ? N1 N2]; subst.
  destruct Hx as [->|Hx], Hy as [->|Hy]; auto; exfalso; apply N1; [rewrite Exy|rewrite <- Exy]; now apply in_map.
Qed.
Lemma cb_computes pheq M x III n inp even odd : sound_eq pheq -> magic_ok M -> 0 < n ->
  computes (gen_r2cb pheq M III 1 n inp even odd) x (map (fun k => (eo_at even odd k, Rsum n (fun j => x (hcvar III n inp j) * rk (cb_kind III) n j k)%R)) (zr n)).
Proof.
  intros Hp HM Hn. assert (Q := if III as b return computes (gen_r2cb pheq M b 1 n inp even odd) x (map (fun k => (eo_at even odd k, Rsum n (fun j => (if b then hc3_of x n inp j else hc_of x n inp j) * rk (cb_kind b) n j k)%R)) (zr n))
    then C46_r2cbIII pheq M x n inp even odd Hp HM Hn else C46_r2cb pheq M x n inp even odd Hp HM Hn).
  erewrite map_ext; [exact Q|]. intros k. cbn beta. f_equal. apply Rsum_ext. intros j Hj. f_equal. unfold hcvar, hc3_of, hc_of. destruct III.
  - now destruct (2 * j <=? n - 1).
  - now destruct (2 * j <=? n).
Qed.
Section Cb.
  Context {T : Type}.
  Variable T_dec : forall p q : T, {p = q} + {p <> q}.
  (** The arrays of a codelet of gen_r2cb, as its C code addresses them (gen_r2cb.ml:93-109): the real part of
      element j of the complex input is Cr[j*csr], its imaginary part Ci[j*csi]; element 2j of the real output is
      R0[j*rs], element 2j+1 is R1[j*rs].  Cr = Ca, Ci = Ca + ioff, R0 = Ra, R1 = Ra + rs0. *)
  Record cb_layout (III : bool) (n : Z) (inp even odd : Z -> variable * variable) (addr : variable -> loc + T) (Ca Ra : loc) (rs0 rs ioff csr csi : Z) : Prop := {
    cb_re : forall j, 0 <= j < n -> 2 * j <= (if III then n - 1 else n) -> addr (fst (inp j)) = inl (sh Ca (j * csr));
    cb_im : forall j, (if III then 0 else 1) <= j -> 2 * j < (if III then n - 1 else n) -> addr (snd (inp j)) = inl (sh Ca (ioff + j * csi));
    cb_even : forall j, 0 <= j -> 2 * j < n -> addr (fst (even j)) = inl (sh Ra (j * rs));
    cb_odd : forall j, 0 <= j -> 2 * j + 1 < n -> addr (fst (odd j)) = inl (sh Ra (rs0 + j * rs));
    cb_other : forall w, is_locative w = false -> exists u, addr w = inr u;
    cb_loc : forall w, In w (hcvars III n inp ++ map (eo_at even odd) (zr n)) -> is_locative w = true;
    cb_diff : NoDup (hcvars III n inp ++ map (eo_at even odd) (zr n))
  }.
  (** gen_r2cb.ml:112-127: for (i = v; i > 0; --i, R0 += ovs, R1 += ovs, Cr += ivs, Ci += ivs) *)
  Theorem C56_r2cb pheq M III n inp even odd v t addr tab rs0 rs ioff csr csi vl ivs ovs nx (Ca Ra : loc) m :
    sound_eq pheq -> magic_ok M -> 0 < n ->
    gen_r2cb pheq M III 1 n inp even odd = Some v -> compiled v t ->
    (forall i, 0 <= i < vl -> cb_layout III n inp even odd (addr i) (sh Ca (i * ivs)) (sh Ra (i * ovs)) rs0 rs ioff csr csi) ->
    Wf nx false Ca Ra (xr2c (cb_kind III) n rs0 rs ioff csr csi) [mkdim vl ivs ovs] ->
    loop_gives T_dec addr t vl tab m (kr2c (cb_kind III) n rs0 rs ioff csr csi vl ivs ovs nx Ca Ra m).
  Proof.
    intros Hp HM Hn E Cm LO WF. unfold kr2c, vloop. apply loop_zfor. intros i m' l Hi.
    set (X := xr2c (cb_kind III) n rs0 rs ioff csr csi) in *.
    assert (W1 : Wf nx false (sh Ca (i * ivs)) (sh Ra (i * ovs)) X []) by (eapply loop_body_wf; eauto; discriminate).
    destruct (LO i Hi) as [RE IM EV OD OTH LOC DIFF].
    set (cp := cpos (cb_kind III) n ioff csr csi). set (rp := rpos rs0 rs).
    set (row := fun k (x : Z -> R) => Rsum n (fun j => x (cp j) * rk (cb_kind III) n j k)%R).
    assert (EX : X = mkX (map cp (zr n)) (map (fun k => (rp k, row k)) (zr n))) by (unfold X, xr2c; destruct III; reflexivity).
    set (ins := map (fun j => (hcvar III n inp j, cp j)) (zr n)).
    set (outs := map (fun k => (eo_at even odd k, (rp k, row k))) (zr n)).
    assert (FI : map fst ins = hcvars III n inp) by (unfold ins, hcvars; rewrite map_map; reflexivity).
    assert (FO : map fst outs = map (eo_at even odd) (zr n)) by (unfold outs; rewrite map_map; reflexivity).
    assert (II : forall w z, In (w, z) ins -> exists j, 0 <= j < n /\ w = hcvar III n inp j /\ z = cp j).
    { intros w z Hw. apply in_map_iff in Hw. destruct Hw as (j & Ej & Hj). injection Ej as <- <-. apply in_zr in Hj. eauto. }
    assert (OO : forall p o F, In (p, (o, F)) outs -> exists k, 0 <= k < n /\ p = eo_at even odd k /\ o = rp k /\ F = row k).
    { intros p o F Hw. apply in_map_iff in Hw. destruct Hw as (k & Ek & Hk). injection Ek as <- <- <-. apply in_zr in Hk. eauto 6. }
    assert (NDo := wf_o _ _ _ _ _ _ W1). assert (NDi := wf_i _ _ _ _ _ _ W1).
    rewrite ol_nil in NDo. rewrite il_nil in NDi. rewrite EX in NDo, NDi. cbn [xi xo] in NDo, NDi. rewrite map_map in NDo. cbn [fst] in NDo.
    assert (Dup : forall f : Z -> Z, NoDup (map f (zr n)) -> forall j k, 0 <= j < n -> 0 <= k < n -> f j = f k -> j = k).
    { intros f N j k Hj Hk Ejk. apply (map_inj_NoDup f (zr n) N); auto; now apply in_zr. }
    assert (AI : forall j, 0 <= j < n -> addr i (hcvar III n inp j) = inl (sh (sh Ca (i * ivs)) (cp j))).
    { intros j Hj. unfold hcvar, cp, cpos, cb_kind. destruct III.
      - destruct (Z.leb_spec (2 * j) (n - 1)); [now apply RE|apply IM; lia].
      - destruct (Z.leb_spec (2 * j) n); [now apply RE|apply IM; lia]. }
    assert (AO : forall k, 0 <= k < n -> addr i (eo_at even odd k) = inl (sh (sh Ra (i * ovs)) (rp k))).
    { intros k Hk. unfold eo_at, rp, rpos. rewrite Zmod_even. assert (D := Z.div_mod k 2 ltac:(lia)). rewrite Zmod_even in D. destruct (Z.even k).
      - rewrite EV by lia. f_equal; f_equal; try reflexivity; try lia.
      - rewrite OD by lia. f_equal; f_equal; try reflexivity; try lia. }
    apply (real_codelet T_dec v t ins outs (addr i) tab m' X nx false); auto.
    - intros x y _ Hx. rewrite <- E.
      replace (map (fun o => (fst o, snd (snd o) y)) outs) with (map (fun k => (eo_at even odd k, Rsum n (fun j => x (hcvar III n inp j) * rk (cb_kind III) n j k)%R)) (zr n)).
      + now apply cb_computes.
      + unfold outs. rewrite map_map. apply map_ext. intros k. cbn [fst snd]. f_equal. apply Rsum_ext. intros j Hj. f_equal. apply Hx. unfold ins. apply in_map_iff. exists j. split; [reflexivity|now apply in_zr].
    - intros w Hw. left. rewrite FI. eapply gen_r2cb_loads; eauto.
    - constructor.
      + intros w z Hw. destruct (II w z Hw) as (j & Hj & -> & ->). split; [auto|]. apply LOC, in_or_app. left. unfold hcvars. apply in_map. now apply in_zr.
      + intros p o F Hw. destruct (OO p o F Hw) as (k & Hk & -> & -> & _). split; [auto|]. apply LOC, in_or_app. right. apply in_map. now apply in_zr.
      + exact OTH.
      + rewrite FO. apply NoDup_app_inv in DIFF. tauto.
      + rewrite FI, FO. apply NoDup_app_inv in DIFF. destruct DIFF as (_ & _ & D). exact D.
    - intros p o F Hw. destruct (OO p o F Hw) as (k & Hk & -> & -> & ->). destruct (cb_row III n k Hk) as (j0 & Hj0 & NZ).
      exists (fun z => if z =? cp j0 then 1%R else 0%R). unfold row.
      rewrite (Rsum_delta n j0) by (lia || (intros j Hj Nj; destruct (Z.eqb_spec (cp j) (cp j0)) as [E0|]; [exfalso; apply Nj; now apply (Dup cp)|ring])).
      rewrite Z.eqb_refl. now rewrite Rmult_1_l.
    - intros o F. rewrite EX. cbn [xo]. rewrite in_map_iff. split.
      + intros (k & Ek & Hk). exists (eo_at even odd k). apply in_map_iff. exists k. rewrite <- Ek. auto.
      + intros (p & Hw). apply in_map_iff in Hw. destruct Hw as (k & Ek & Hk). exists k. split; [congruence|exact Hk].
    - intros p q o F F' Hw Hw'. destruct (OO p o F Hw) as (k & Hk & -> & -> & _), (OO q _ F' Hw') as (k' & Hk' & -> & Eo & _).
      rewrite (Dup rp NDo k k'); auto.
    - intros w z Hw. destruct (II w z Hw) as (j & Hj & -> & ->). rewrite EX. cbn [xi]. apply in_map_iff. exists j. split; [reflexivity|now apply in_zr].
    - discriminate.
  Qed.
End Cb.

(** ** The hypotheses are met *)
(** the variables that gen_r2cb.ml:93-109 makes: Cr, Ci, R0 and R1 are the classes 0 to 3 *)
Definition ex_odd (j : Z) : variable * variable := (snd (ex_out j), snd (ex_out j)).
Definition cb_addr (Ca Ra : loc) (rs0 rs ioff csr csi : Z) (w : variable) : loc + Z :=
  match w with
  | Locative _ c j => if c =? 0 then inl (sh Ca (j * csr)) else if c =? 1 then inl (sh Ca (ioff + j * csi))
                      else if c =? 2 then inl (sh Ra (j * rs)) else inl (sh Ra (rs0 + j * rs))
  | Constant _ o => inr o
  | Temporary k => inr k
  end.
Lemma hcvar_inj III n x y : 0 <= x < n -> 0 <= y < n -> hcvar III n ex_in x = hcvar III n ex_in y -> x = y.
Proof.
  intros Hx Hy. unfold hcvar, ex_in. destruct (Z.leb_spec (2 * x) (if III then n - 1 else n)), (Z.leb_spec (2 * y) (if III then n - 1 else n));
    cbn [fst snd]; intros E; try discriminate; injection E as E; lia.
Qed.
Lemma eo_inj x y : 0 <= x -> 0 <= y -> eo_at ex_out ex_odd x = eo_at ex_out ex_odd y -> x = y.
Proof.
  intros Hx Hy. unfold eo_at, ex_odd, ex_out. assert (Dx := Z.div_mod x 2 ltac:(lia)). assert (Dy := Z.div_mod y 2 ltac:(lia)). rewrite Zmod_even in Dx, Dy.
  destruct (Z.even x), (Z.even y); cbn [fst snd]; intros E; try discriminate; injection E as E; lia.
Qed.
Lemma hcvar_class III n j : exists l c i, hcvar III n ex_in j = Locative l c i /\ (c = 0 \/ c = 1).
Proof. unfold hcvar, ex_in. destruct (_ <=? _); cbn [fst snd]; eauto 6. Qed.
Lemma eo_class j : exists l c i, eo_at ex_out ex_odd j = Locative l c i /\ (c = 2 \/ c = 3).
Proof. unfold eo_at, ex_odd, ex_out. destruct (Z.even j); cbn [fst snd]; eauto 6. Qed.
Example ex_cb_layout III n Ca Ra rs0 rs ioff csr csi : 0 <= n -> cb_layout III n ex_in ex_out ex_odd (cb_addr Ca Ra rs0 rs ioff csr csi) Ca Ra rs0 rs ioff csr csi.
Proof.
  intros Hn. constructor; try reflexivity.
  - intros w Lw; destruct w; try discriminate; cbn; eauto.
  - intros w Hw. apply in_app_or in Hw. destruct Hw as [Hw|Hw]; apply in_map_iff in Hw; destruct Hw as (k & <- & _).
    + destruct (hcvar_class III n k) as (a & b & c & -> & _). reflexivity.
    + destruct (eo_class k) as (a & b & c & -> & _). reflexivity.
  - apply NoDup_app_intro.
    + apply NoDup_map_inj; [|apply NoDup_zr]. intros x y Hx Hy. apply in_zr in Hx, Hy. now apply hcvar_inj.
    + apply NoDup_map_inj; [|apply NoDup_zr]. intros x y Hx Hy. apply in_zr in Hx, Hy. apply eo_inj; lia.
    + intros w A B. apply in_map_iff in A, B. destruct A as (a & <- & _), B as (b & B & _).
      destruct (hcvar_class III n a) as (x & y & z & E & Hy), (eo_class b) as (x' & y' & z' & E' & Hy'). rewrite E, E' in B. injection B as _ B _. lia.
Qed.
Example C56_r2cb1_dag III : gen_r2cb pheq0 magic_default III 1 1 ex_in ex_out ex_odd = Some v2.
Proof.
  destruct III; cbv -[IZR is_zero is_one is_mone Rmult Rplus Ropp Rdiv sqrt];
    repeat (progress rewrite ?z0, ?z1, ?o1', ?Rmult_0_l, ?Rmult_0_r, ?Rmult_1_l, ?Rmult_1_r, ?Ropp_0, ?Rplus_0_l, ?Rplus_0_r, ?z0, ?z1; cbv -[IZR is_zero is_one is_mone Rmult Rplus Ropp Rdiv sqrt]); reflexivity.
Qed.
(** the codelets of size 1: a loop of vl copies *)
Example C56_size1 III rs0 rs ioff csr csi vl ivs ovs nx (Ca Ra : loc) tab m :
  Wf nx false Ca Ra (xr2c (cb_kind III) 1 rs0 rs ioff csr csi) [mkdim vl ivs ovs] ->
  loop_gives Z.eq_dec (fun i => cb_addr (sh Ca (i * ivs)) (sh Ra (i * ovs)) rs0 rs ioff csr csi) t2 vl tab m (kr2c (cb_kind III) 1 rs0 rs ioff csr csi vl ivs ovs nx Ca Ra m).
Proof.
  intros WF. apply (C56_r2cb Z.eq_dec pheq0 magic_default III 1 ex_in ex_out ex_odd v2 t2 _ tab rs0 rs ioff csr csi vl ivs ovs nx Ca Ra m pheq0_sound magic_default_ok); auto.
  - lia.
  - apply C56_r2cb1_dag.
  - exact C55_size1_compiled.
  - intros i Hi. apply ex_cb_layout. lia.
Qed.
(** ... and the places of three transforms of size 4 in two arrays *)
Lemma nodup_by (l : list Z) : nodup Z.eq_dec l = l -> NoDup l.
Proof. intros <-. apply NoDup_nodup. Qed.
Example C56_wf : Wf 2 false (0%nat, 0) (1%nat, 0) (xr2c HC2R 4 1 2 4 1 (-1)) [mkdim 3 4 4].
Proof.
  constructor.
  - cbn. lia.
  - cbn. lia.
  - repeat constructor; cbn; lia.
  - apply nodup_by. vm_compute. reflexivity.
  - apply nodup_by. vm_compute. reflexivity.
  - intros q (o & _ & ->) (o' & _ & E). discriminate.
Qed.

Print Assumptions C56_r2cb.
