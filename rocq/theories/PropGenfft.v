(** * C45: the code generator's symbolic DFT is the DFT *)
From Coq Require Import Reals ZArith List Lia Lra Bool Znumtheory.
From Verif Require Import NumTheory Cplx GenExpr GenCplx GenFft GenNum GenMain.
Import ListNotations.
Open Scope Z_scope.

(** ** Specification *)
(** physical equality never identifies two different expressions *)
Definition sound_eq (pheq : expr -> expr -> bool) : Prop := forall a b, pheq a b = true -> a = b.
(** the number denoted by a pair (real part, imaginary part) of expressions *)
Definition value (env : variable -> C) (x : ce) : C := (eval env (re x) + Ci * eval env (im x))%C.
(** the DFT of the given sign, not normalised *)
Definition dft_sum (sign n : Z) (x : Z -> C) (k : Z) : C :=
  Csum n (fun j => x j * cis (2 * PI * IZR (sign * j * k) / IZR n))%C.

Lemma value_evc env x : value env x = evc env true x. Proof. reflexivity. Qed.
Lemma dft_sum_eq sign n x k : dft_sum sign n x k = dft n x (- (sg true * sign) * k).
Proof.
  unfold dft_sum, dft. apply Csum_ext. intros j Hj. f_equal. unfold W. f_equal.
  unfold Rdiv. rewrite <- !Ropp_mult_distr_l_reverse. f_equal.
  replace (j * (- (sg true * sign) * k)) with (- (sign * j * k)) by (unfold sg; ring).
  rewrite opp_IZR. ring.
Qed.

Lemma dft_inverse n x k : 0 <= k < n -> Csum n (fun j => dft n x j * W n (- (j * k)))%C = (RtoC (IZR n) * x k)%C.
Proof.
  intros Hk. unfold dft.
  rewrite (Csum_ext n _ (fun j => Csum n (fun i => x i * W n (j * (i - k))))%C).
  2:{ intros j Hj. rewrite <- Csum_mul_r. apply Csum_ext. intros i Hi.
      replace (j * (i - k)) with (i * j + - (j * k)) by ring. rewrite W_add. ring. }
  rewrite Csum_swap. rewrite (Csum_delta n k); auto.
  - rewrite Csum_mul_l. rewrite W_orth_n; [ring|lia|]. replace (k - k) with 0 by ring. apply Z.divide_0_r.
  - intros i Hi Hik. rewrite Csum_mul_l. rewrite W_orth_zero; [ring|lia|].
    intros (q & Hq). assert (q = 0) by nia. lia.
Qed.

(** ** The theorem: whatever the settings of the generator, whatever sharing physical equality
    detects, and for every size and sign, the generator does not fail, and the expressions it
    builds denote the DFT of what the input expressions denote. *)
Theorem C45_generated_dft pheq M env sign n (input : Z -> ce) k :
  sound_eq pheq -> magic_ok M -> sign = 1 \/ sign = -1 -> 0 <= k < n ->
  exists out, fft_dft pheq M sign n (fun j => Some (input j)) k = Some out /\
    value env out = dft_sum sign n (fun j => value env (input j)) k.
Proof.
  intros Hp HM Hs Hk. rewrite dft_sum_eq.
  apply (fft_dft_ok pheq M env Hp HM true sign n (fun j => value env (input j)) (fun j => Some (input j)) k Hs); auto.
  intros j Hj. exists (input j). auto.
Qed.

(** The same when the input array may only be read at 0 .. n-1 (reading elsewhere raises): the
    generator never reads outside. *)
Theorem C45_generated_dft_in_bounds pheq M env sign n (input : Z -> ce) k :
  sound_eq pheq -> magic_ok M -> sign = 1 \/ sign = -1 -> 0 <= k < n ->
  exists out, fft_dft pheq M sign n (array n (fun j => Some (input j))) k = Some out /\
    value env out = dft_sum sign n (fun j => value env (input j)) k.
Proof.
  intros Hp HM Hs Hk. rewrite dft_sum_eq.
  apply (fft_dft_ok pheq M env Hp HM true sign n (fun j => value env (input j)) _ k Hs); auto.
  intros j Hj. rewrite array_in by auto. exists (input j). auto.
Qed.

(** Two settings of the generator, or two different amounts of sharing, give codelets that
    compute the same function. *)
Theorem C45_settings_irrelevant pheq pheq' M M' env sign n (input : Z -> ce) k :
  sound_eq pheq -> sound_eq pheq' -> magic_ok M -> magic_ok M' -> sign = 1 \/ sign = -1 -> 0 <= k < n ->
  exists a b, fft_dft pheq M sign n (fun j => Some (input j)) k = Some a /\
    fft_dft pheq' M' sign n (fun j => Some (input j)) k = Some b /\ value env a = value env b.
Proof.
  intros Hp Hp' HM HM' Hs Hk.
  destruct (C45_generated_dft pheq M env sign n input k Hp HM Hs Hk) as (a & Ea & Va).
  destruct (C45_generated_dft pheq' M' env sign n input k Hp' HM' Hs Hk) as (b & Eb & Vb).
  exists a, b. rewrite Va, Vb. auto.
Qed.

(** Backward after forward: the composed expressions denote n times the input. *)
Theorem C45_generated_roundtrip pheq M env n (input : Z -> ce) k :
  sound_eq pheq -> magic_ok M -> 0 <= k < n ->
  exists out, fft_dft pheq M 1 n (fft_dft pheq M (-1) n (fun j => Some (input j))) k = Some out /\
    value env out = (RtoC (IZR n) * value env (input k))%C.
Proof.
  intros Hp HM Hk.
  set (x := fun j => value env (input j)).
  assert (H1 : forall j, 0 <= j < n -> den env true (fft_dft pheq M (-1) n (fun j => Some (input j)) j) (dft n x j)).
  { intros j Hj.
    replace (dft n x j) with (dft n x (- (sg true * -1) * j)) by (f_equal; unfold sg; lia).
    apply fft_dft_ok; auto. intros i Hi. exists (input i). auto. }
  assert (H2 := fft_dft_ok pheq M env Hp HM true 1 n (dft n x) _ k (or_introl eq_refl) H1 Hk).
  destruct H2 as (out & E & V). exists out. split; [exact E|]. rewrite value_evc, V.
  change (value env (input k)) with (x k). change (- (sg true * 1) * k) with (- k). unfold dft at 1.
  rewrite (Csum_ext n _ (fun j => dft n x j * W n (- (j * k)))%C) by (intros; do 2 f_equal; lia).
  apply dft_inverse; lia.
Qed.

(** ** Non-vacuity *)
(** structural equality of the leaves is one possible answer of physical equality, "never" another *)
Definition pheq0 (a b : expr) : bool := false.
Example pheq0_sound : sound_eq pheq0. Proof. intros a b H. discriminate H. Qed.
(** the defaults of genfft/magic.ml, and settings that enable everything else *)
Definition magic_default : magic := mkMagic 13 [5] 17 false false false.
Definition magic_other : magic := mkMagic 2 [] 0 true true true.
Example magic_default_ok : magic_ok magic_default.
Proof.
  split; [cbn; lia|]. intros p [<-|[]]. apply prime_intro; [lia|]. intros q Hq.
  apply Zgcd_1_rel_prime. assert (H : q = 1 \/ q = 2 \/ q = 3 \/ q = 4) by lia.
  destruct H as [-> | [-> | [-> | ->]]]; reflexivity.
Qed.
Example magic_other_ok : magic_ok magic_other.
Proof. split; [cbn; lia|]. intros p []. Qed.
(** the input of a codelet: n complex loads *)
Definition loads (j : Z) : ce := CE (ELoad (Locative (2 * j) 0 j)) (ELoad (Locative (2 * j + 1) 1 j)).
(** hypotheses are met for a size handled by Rader, by prime factor and by split radix *)
Example C45_instance n : 0 < n -> exists out,
  fft_dft pheq0 magic_default (-1) n (array n (fun j => Some (loads j))) 0 = Some out /\
  forall (v : variable -> C), value v out = dft_sum (-1) n (fun j => value v (loads j)) 0.
Proof.
  intros Hn.
  destruct (C45_generated_dft_in_bounds pheq0 magic_default (fun _ => C0) (-1) n loads 0 pheq0_sound magic_default_ok
    (or_intror eq_refl) ltac:(lia)) as (out & E & _).
  exists out. split; [exact E|]. intros v.
  destruct (C45_generated_dft_in_bounds pheq0 magic_default v (-1) n loads 0 pheq0_sound magic_default_ok
    (or_intror eq_refl) ltac:(lia)) as (out' & E' & V).
  rewrite E in E'. injection E' as <-. exact V.
Qed.
(** the radix-2 butterfly: output 1 is x_0 - x_1, whose value is not constant *)
Example C45_butterfly : exists out,
  fft_dft pheq0 magic_default (-1) 2 (array 2 (fun j => Some (loads j))) 1 = Some out /\
  value (fun v => match v with Locative l _ _ => RtoC (IZR (l + 1)) | _ => C0 end) out = (-2, -2)%R.
Proof.
  destruct (C45_generated_dft_in_bounds pheq0 magic_default
    (fun v => match v with Locative l _ _ => RtoC (IZR (l + 1)) | _ => C0 end) (-1) 2 loads 1 pheq0_sound magic_default_ok
    (or_intror eq_refl) ltac:(lia)) as (out & E & V).
  exists out. split; [exact E|]. rewrite V. rewrite dft_sum_eq.
  change (- (sg true * -1) * 1) with 1. unfold dft, Csum. change (Z.to_nat 2) with 2%nat. cbn [nsum Z.of_nat].
  change (0 * 1) with 0. rewrite W_0.
  change (W 2 (Z.pos (Pos.of_succ_nat 0) * 1)) with (cis (- (2 * PI * 1 / 2))).
  replace (- (2 * PI * 1 / 2))%R with (- PI)%R by field. unfold cis. rewrite cos_neg, cos_PI, sin_neg, sin_PI.
  unfold value, loads. cbn [re im eval]. apply C_eq; cbn; lra.
Qed.

Print Assumptions C45_generated_dft.
Print Assumptions C45_generated_dft_in_bounds.
Print Assumptions C45_settings_irrelevant.
Print Assumptions C45_generated_roundtrip.
