(** * The store of gen_r2cf that is 0 for all inputs loads nothing, and the optimizer drops it *)
From Coq Require Import Reals ZArith List Bool Lia Lra.
From Verif Require Import NumTheory Cplx Spec SpecR2R TensorModel Offs GenExpr GenCplx GenAlg GenAlgVars GenTrans GenTransProofs GenFft GenNum GenMain GenTrig GenTrigProofs.
From Verif Require Import PropGenfft PropGenreal PropGentwid PropGenalg PropGentrans GenReal GenLink2 GenKernel5.
Import ListNotations.
Open Scope Z_scope.

Lemma omapM_at {A B} (f : A -> option B) l : forall r, omapM f l = Some r -> forall a, In a l -> exists b, f a = Some b /\ In b r.
Proof.
  induction l as [|x l IH]; intros r E a Ha; [destruct Ha|]. cbn in E. destruct (f x) as [b|] eqn:Ex; [|discriminate]. destruct (omapM f l) as [r'|] eqn:Er; [|discriminate]. injection E as <-.
  destruct Ha as [->|Ha]; [exists b; split; [exact Ex|now left]|]. destruct (IH r' eq_refl a Ha) as (b' & E' & Hb). exists b'. split; [exact E'|now right].
Qed.
(** the generator stores an expression without loads at [cf_dead], except for -dft-II with n odd, where that
    is the imaginary part of the output at frequency n/2, which the Fourier transform of size 2n computes *)
Lemma cf_dead_const pheq M II n even odd oloc v e : threemult M = false -> 0 < n -> II = false \/ Z.even n = true ->
  gen_r2cf pheq M II (-1) n even odd oloc = Some v -> NoDup (places v) -> In (EStore (cf_dead II n oloc) e) v -> nonconst e = false.
Proof.
  intros T3 Hn Hd E ND He. assert (G : exists e0, In (EStore (cf_dead II n oloc) e0) v /\ nonconst e0 = false); [|destruct G as (e0 & H0 & N0); now rewrite (places_inj _ _ ND e e0 He H0)].
  clear e He. unfold gen_r2cf in E. set (src := (if II then rdftII pheq M else rdft pheq M) (-1) n (load_array_r n (eo even odd))) in *.
  unfold store_array_hc in E. destruct (omapM _ _) as [l|] eqn:El; [|discriminate]. injection E as <-. assert (G := omapM_at _ _ _ El). cbv beta in G. rewrite interval_zr in G.
  assert (D := Z.div_mod n 2 ltac:(lia)). rewrite Zmod_even in D. unfold cf_dead. destruct II.
  - destruct Hd as [Hd|Hd]; [discriminate|]. rewrite Hd in *. assert (Hk : 0 <= n / 2 < n) by lia. destruct (G (n / 2)) as (b & Eb & Hb); [now apply in_zr|].
    destruct (Z.ltb_spec (n / 2) (n - n / 2)); [lia|]. destruct (Z.gtb_spec (n / 2) (n - n / 2)); [lia|].
    assert (Es : src (n / 2) = Some zzero). { unfold src, rdftII. destruct (Z.ltb_spec (n / 2) (n - n / 2)); [lia|]. destruct (Z.eqb_spec (2 * (n / 2) + 1) n); [lia|]. reflexivity. }
    rewrite Es in Eb. injection Eb as <-. eexists. split; [apply in_concat; eexists; split; [exact Hb|now left]|]. reflexivity.
  - destruct (G 0) as (b & Eb & Hb); [now apply in_zr|]. destruct (Z.ltb_spec 0 (n - 0)); [|lia].
    destruct (src 0) as [c|] eqn:Es; [|discriminate]. injection Eb as <-. eexists. split; [apply in_concat; eexists; split; [exact Hb|right; now left]|].
    exact (rdft_dc pheq M T3 (-1) n _ c Es).
Qed.
(** a store that loads nothing before the first transposition is not there after it *)
Lemma rounds_drop v u v' p : all_stores v -> NoDup (places v) -> simplifies v u -> rounds u v' ->
  (forall e, In (EStore p e) u -> nonconst e = false) -> ~ In p (places v').
Proof.
  intros S ND A R K Hp. destruct (simplifies_keeps v u S ND A) as [(NDu & _) _].
  assert (Q : forall w, NoDup (places u) -> round u w -> ~ In p (places w)).
  { intros w N Rw Hw. destruct (C49_round u w N Rw) as [(_ & _ & P1 & _) D]. assert (Hu := P1 p Hw). apply in_places in Hu. destruct Hu as (e & He). exact (D p e He (K e He) Hw). }
  inversion R as [a b Rw|a b c Rw Rs]; subst.
  - exact (Q v' NDu Rw Hp).
  - destruct (C49_round u b NDu Rw) as [(Nb & _) _]. destruct (rounds_keeps b v' Rs Nb) as (_ & _ & P1 & _). exact (Q b NDu Rw (P1 p Hp)).
Qed.
