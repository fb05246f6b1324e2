(** * The loads of gen_r2cb: the halfcomplex input without the imaginary parts that are zero *)
From Coq Require Import Reals ZArith List Bool Lia Lra.
From Verif Require Import NumTheory Cplx Spec SpecR2R RSum TensorModel Offs XForm XKern TwModel DftModel RdftModel GenExpr GenCplx GenAlg GenAlgVars GenTrans GenTransProofs GenFft GenNum GenMain GenTrig GenTrigProofs.
From Verif Require Import PropGenfft PropGenreal GenTwid PropGenprint GenLink GenInputs PropGenlink PropGenlink2.
Import ListNotations.
Open Scope Z_scope.
Local Notation o1 := GenCplx.o1.

(** the kind of transform of a codelet of gen_r2cb: -dft-III or not *)
Definition cb_kind (III : bool) : rkind := if III then HC2RIII else HC2R.
(** the variable with element j of the halfcomplex array: the real parts of elements 0, 1, ... and
    then the imaginary parts in reverse *)
Definition hcvar (III : bool) (n : Z) (inp : Z -> variable * variable) (j : Z) : variable :=
  let n' := if III then n - 1 else n in if 2 * j <=? n' then fst (inp j) else snd (inp (n' - j)).
Definition hcvars (III : bool) (n : Z) (inp : Z -> variable * variable) : list variable := map (hcvar III n inp) (zr n).

Section Cb.
  Variable W : variable -> Prop.
  Variable pheq : expr -> expr -> bool.
  Variable M : magic.
  Notation inz := (inz W).
  Notation ino := (ino W).
  Notation ins := (ins W).
  Lemma in_load_c u : W (fst u) -> W (snd u) -> inz (load_c u).
  Proof. intros A B. split; intros w Ow; cbn in Ow; now subst w. Qed.
  Lemma in_load_r u : W (fst u) -> inz (load_r u).
  Proof. intros A. split; [|apply gd_Num]. intros w Ow. cbn in Ow. now subst w. Qed.
  Lemma in_zreal_c u : W (fst u) -> inz (zreal (load_c u)).
  Proof. intros A. split; [|apply gd_Num]. intros w Ow. cbn in Ow. now subst w. Qed.
  Lemma s_hc n inp : (forall j, 0 <= j < n -> W (hcvar false n inp j)) -> ins (hermitian n (load_array_hc pheq M n inp)).
  Proof.
    intros H. unfold hermitian. apply s_array. intros k Hk.
    assert (A : forall i, 0 < i -> 2 * i < n -> ino (load_array_hc pheq M n inp i)).
    { intros i Hi L. unfold load_array_hc, array. destruct ((0 <=? i) && (i <? n)); [|apply ino_none]. destruct (Z.ltb_spec i (n - i)); [|lia].
      assert (A := H i ltac:(lia)). assert (B := H (n - i) ltac:(lia)). unfold hcvar in A, B.
      destruct (Z.leb_spec (2 * i) n); [|lia]. destruct (Z.leb_spec (2 * (n - i)) n); [lia|]. replace (n - (n - i)) with i in B by ring.
      apply ino_some. now apply in_load_c. }
    assert (R : forall i, 0 <= i < n -> i = 0 \/ 2 * i = n -> ino (o1 zreal (load_array_hc pheq M n inp i))).
    { intros i Hi L. assert (A0 := H i Hi). unfold hcvar in A0. destruct (Z.leb_spec (2 * i) n); [|lia].
      unfold load_array_hc, array. destruct ((0 <=? i) && (i <? n)); [|apply ino_none]. destruct (Z.ltb_spec i (n - i)).
      - cbn [o1 option_map]. apply ino_some. now apply in_zreal_c.
      - destruct (Z.gtb_spec i (n - i)); [lia|]. cbn [o1 option_map]. apply ino_some. apply z_real. now apply in_load_r. }
    destruct (Z.eqb_spec k 0) as [->|Nk]; [apply R; lia|].
    destruct (Z.ltb_spec k (n - k)); [apply A; lia|]. destruct (Z.gtb_spec k (n - k)).
    - apply n_o1; [intros; now apply z_conj|]. apply A; lia.
    - apply R; lia.
  Qed.
  Lemma s_hc3 n inp : (forall j, 0 <= j < n -> W (hcvar true n inp j)) -> ins (hcdftIII pheq M 1 n (load_array_hc pheq M n inp)).
  Proof.
    intros H. unfold hcdftIII. apply s_fft. intros k.
    destruct (omod k 2 =? 0); [apply ino_some, inz_num|]. set (i := odiv (k - 1) 2). clearbody i.
    assert (A : forall i, 2 * i < n - 1 -> ino (load_array_hc pheq M n inp i)).
    { clear i. intros i L. unfold load_array_hc, array. destruct ((0 <=? i) && (i <? n)) eqn:E; [|apply ino_none]. destruct (Z.ltb_spec i (n - i)); [|lia].
      assert (A := H i ltac:(lia)). assert (B := H (n - 1 - i) ltac:(lia)). unfold hcvar in A, B.
      destruct (Z.leb_spec (2 * i) (n - 1)); [|lia]. destruct (Z.leb_spec (2 * (n - 1 - i)) (n - 1)); [lia|]. replace (n - 1 - (n - 1 - i)) with i in B by ring.
      apply ino_some. now apply in_load_c. }
    destruct (Z.ltb_spec (2 * i) (n - 1)); [now apply A|]. destruct (Z.eqb_spec (2 * i) (n - 1)) as [E|E].
    - unfold load_array_hc, array. destruct ((0 <=? i) && (i <? n)) eqn:Ei; [|apply ino_none]. destruct (Z.ltb_spec i (n - i)); [|lia].
      cbn [o1 option_map]. apply ino_some. assert (A0 := H i ltac:(lia)). unfold hcvar in A0. destruct (Z.leb_spec (2 * i) (n - 1)); [|lia]. now apply in_zreal_c.
    - apply n_o1; [intros; now apply z_conj|]. apply A. lia.
  Qed.
End Cb.
Lemma gen_r2cb_loads pheq M III n inp even odd v w : gen_r2cb pheq M III 1 n inp even odd = Some v -> loads_of v w -> In w (hcvars III n inp).
Proof.
  intros E. unfold gen_r2cb in E. set (W := fun w => In w (hcvars III n inp)). change (loads_of v w -> W w).
  assert (H : forall j, 0 <= j < n -> W (hcvar III n inp j)).
  { intros j Hj. unfold W, hcvars. apply in_map. now apply in_zr. }
  apply (store_r_loads W _ _ _ _ _ E). destruct III.
  - now apply s_hc3.
  - unfold hdft. apply s_fft. now apply s_hc.
Qed.
(** every output depends on some input *)
Lemma cb_row III n k : 0 <= k < n -> exists j, 0 <= j < n /\ rk (cb_kind III) n j k <> 0%R.
Proof.
  intros Hk. destruct III; unfold cb_kind.
  - destruct (Z.eq_dec k 0) as [->|Nk].
    + exists 0. split; [lia|]. unfold rk. destruct (Z.ltb_spec (2 * 0) (n - 1)).
      * replace (2 * PI * (0 + / 2) * 0 / IZR n)%R with 0%R by (unfold Rdiv; ring). rewrite cos_0. lra.
      * destruct (Z.eqb_spec (2 * 0) (n - 1)); [|lia]. rewrite Rmult_0_r, cos_0. lra.
    + exists (n - 1). split; [lia|]. unfold rk. destruct (Z.ltb_spec (2 * (n - 1)) (n - 1)); [lia|]. destruct (Z.eqb_spec (2 * (n - 1)) (n - 1)); [lia|].
      assert (Hs := sin_turn k n ltac:(lia) ltac:(lia)). replace (n - 1 - (n - 1)) with 0 by ring.
      replace (2 * PI * (0 + / 2) * IZR k / IZR n)%R with (PI * (IZR k / IZR n))%R by (unfold Rdiv; field; apply IZR_neq; lia). lra.
  - exists 0. split; [lia|]. unfold rk. rewrite Z.eqb_refl. lra.
Qed.
