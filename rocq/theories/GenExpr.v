(** * genfft: symbolic expressions, numbers and the little simplifier

    The codelets of FFTW are not in the repository as C text: they are produced by the OCaml
    program in genfft/.  This file models its arithmetic layer (number.ml, expr.ml,
    littlesimp.ml, complex.ml and the integer part of util.ml).

    Idealisations, all in this file:
    - [Number.number] (a rational kept to 50 decimal digits) is a real number; [Number.round] is
      the identity, [Number.equal] (equality up to 1e-45) is equality, and Newton's iteration in
      [primitive_root_of_unity] returns the root it converges to;
    - OCaml's 63-bit integers are unbounded;
    - exceptions (No_Generator, Negative_Power, an index outside an array, Division_by_zero) and
      non-termination are [None]; lazy evaluation is call-by-name on pure values;
    - physical equality [==] of expressions is an arbitrary function [pheq] that is only assumed
      to imply equality (in OCaml the answer also depends on sharing, which only selects between
      two results that are proved to have the same value). *)
From Coq Require Import Reals ZArith List Lia Lra Bool.
From Verif Require Import NumTheory Cplx.
Import ListNotations.
Open Scope Z_scope.

(** OCaml's [mod] and [/] truncate *)
Definition omod (a b : Z) : Z := Z.rem a b.
Definition odiv (a b : Z) : Z := Z.quot a b.

(** ** genfft/util.ml *)
(** gcd, util.ml:37-44 ([m mod 0] raises) *)
Fixpoint ugcd (fuel : nat) (n m : Z) : option Z :=
  match fuel with
  | O => None
  | S f =>
      if n >? m then ugcd f m n
      else if n =? 0 then None
      else let r := omod m n in
           if r =? 0 then Some n else ugcd f r n
  end.
Definition gcd (n m : Z) : option Z := ugcd (Z.to_nat (2 * (Z.abs n + Z.abs m) + 2)) n m.

(** lowest_terms, util.ml:47-56 *)
Definition lowest_terms (n m : Z) : option (Z * Z) :=
  if omod m n =? 0 then Some (1, 0)
  else
    let nn := Z.abs n in
    let mm := m * odiv n nn in
    let mpos := if mm >? 0 then omod mm nn
                else omod (mm + (1 + odiv (Z.abs mm) nn) * nn) nn in
    match gcd nn (Z.abs mm) with
    | Some d => Some (odiv nn d, odiv mpos d)
    | None => None
    end.

(** period and findgen inside find_generator, util.ml:63-71 *)
Fixpoint period (fuel : nat) (p x prod : Z) : option Z :=
  match fuel with
  | O => None
  | S f => if prod =? 1 then Some 1
           else match period f p x (omod (prod * x) p) with
                | Some k => Some (1 + k)
                | None => None
                end
  end.
Fixpoint findgen (fuel : nat) (p x : Z) : option Z :=
  match fuel with
  | O => None
  | S f => if x =? 0 then None
           else match period (Z.to_nat p) p x x with
                | Some k => if k =? p - 1 then Some x else findgen f p (omod (x + 1) p)
                | None => None
                end
  end.
Definition find_generator (p : Z) : option Z := findgen (Z.to_nat p) p 1.

(** pow_mod, util.ml:79-83 *)
Fixpoint upow_mod (fuel : nat) (x n p : Z) : option Z :=
  match fuel with
  | O => None
  | S f =>
      if n =? 0 then Some 1
      else if n <? 0 then None
      else if omod n 2 =? 0 then upow_mod f (omod (x * x) p) (odiv n 2) p
      else match upow_mod f x (n - 1) p with
           | Some y => Some (omod (x * y) p)
           | None => None
           end
  end.
Definition pow_mod (x n p : Z) : option Z := upow_mod (S (Z.to_nat n)) x n p.

(** suchthat, util.ml:130-131; [pred] may raise *)
Fixpoint suchthat (fuel : nat) (a : Z) (pred : Z -> option bool) : option Z :=
  match fuel with
  | O => None
  | S f => match pred a with
           | Some true => Some a
           | Some false => suchthat f (a + 1) pred
           | None => None
           end
  end.

(** interval, util.ml:142-145 *)
Definition interval (a b : Z) : list Z := zrange a (Z.to_nat (b - a)).

(** array, util.ml:151-153: out of range raises *)
Definition array {A} (n : Z) (f : Z -> option A) : Z -> option A :=
  fun i => if (0 <=? i) && (i <? n) then f i else None.

(** ** genfft/number.ml, idealised to exact reals *)
Definition is_zero (a : R) : bool := if Req_EM_T a 0 then true else false.
Definition is_one (a : R) : bool := if Req_EM_T a 1 then true else false.
Definition is_mone (a : R) : bool := if Req_EM_T a (-1) then true else false.

(** cmul, csqr, cabssq, cconj, cdiv, cinv : number.ml:103-109 *)
Definition ncmul (x y : R * R) : R * R :=
  (fst x * fst y - snd x * snd y, fst x * snd y + snd x * fst y)%R.
Definition ncsqr (x : R * R) : R * R :=
  (fst x * fst x - snd x * snd x, 2 * fst x * snd x)%R.
Definition ncinv (x : R * R) : R * R :=
  let r := (fst x * fst x + snd x * snd x)%R in (fst x / r, - snd x / r)%R.

(** ipow_cnum, number.ml:115-123 *)
Fixpoint ipow_pos (fuel : nat) (x : R * R) (n : Z) : option (R * R) :=
  match fuel with
  | O => None
  | S f =>
      if n =? 0 then Some (1, 0)%R
      else if omod n 2 =? 0 then ipow_pos f (ncsqr x) (odiv n 2)
      else match ipow_pos f x (n - 1) with
           | Some y => Some (ncmul x y)
           | None => None
           end
  end.
Definition ipow_cnum (x : R * R) (n : Z) : option (R * R) :=
  if n <? 0 then match ipow_pos (S (Z.to_nat (- n))) x (- n) with
                 | Some y => Some (ncinv y) | None => None end
  else ipow_pos (S (Z.to_nat n)) x n.

(** primitive_root_of_unity, number.ml:128-137, idealised *)
Definition primitive_root_of_unity (n : Z) : R * R :=
  (cos (2 * PI / IZR n), sin (2 * PI / IZR n))%R.

(** cexp, number.ml:139-145 *)
Definition ncexp (n i : Z) : option (R * R) :=
  if omod i n =? 0 then Some (1, 0)%R
  else match lowest_terms n i with
       | Some (n2, i2) => ipow_cnum (primitive_root_of_unity n2) i2
       | None => None
       end.

(** ** genfft/variable.ml:22-31 : the identity of a variable; the strings used to print it are
    not modelled.  [Locative loc cls i]: location token, class token, array index. *)
Inductive variable :=
| Temporary (k : Z)
| Locative (loc cls idx : Z)
| Constant (cls name : Z).
Definition var_is_constant (v : variable) : bool :=
  match v with Constant _ _ => true | _ => false end.

(** ** genfft/expr.ml:27-38.  Of the transcendents only [I] is modelled ([CONJ] is used by
    gen_hc2cdft_c.ml, [MULTI_A]/[MULTI_B] by annotate.ml for SIMD stores). *)
Inductive expr :=
| Num (a : R)
| NaNI
| Plus (l : list expr)
| Times (a b : expr)
| CTimes (a b : expr)
| CTimesJ (a b : expr)
| Uminus (a : expr)
| ELoad (v : variable)
| EStore (v : variable) (a : expr).

(** is_constant, expr.ml:79-83 *)
Definition is_constant (e : expr) : bool :=
  match e with Num _ | NaNI => true | ELoad v => var_is_constant v | _ => false end.

(** ** The meaning of an expression.  In an ordinary codelet every subexpression is a real
    number; in a SIMD codelet (the _c generators) it is a complex number, [NaN I] is the
    imaginary unit and CTimes, CTimesJ are the complex products.  One semantics covers both. *)
Definition Ci : C := (0, 1)%R.
Fixpoint eval (env : variable -> C) (e : expr) {struct e} : C :=
  match e with
  | Num a => RtoC a
  | NaNI => Ci
  | Plus l => (fix go (l : list expr) : C := match l with [] => C0 | x :: r => (eval env x + go r)%C end) l
  | Times a b => (eval env a * eval env b)%C
  | CTimes a b => (eval env a * eval env b)%C
  | CTimesJ a b => (Cplx.conj (eval env a) * eval env b)%C
  | Uminus a => (- eval env a)%C
  | ELoad v => env v
  | EStore _ a => eval env a
  end.

(** ** genfft/littlesimp.ml *)
(** makeUminus, littlesimp.ml:40-43 *)
Definition makeUminus (e : expr) : expr :=
  match e with
  | Uminus a => a
  | Num a => Num (- a)
  | a => Uminus a
  end.
(** makeTimes with a number on the left, littlesimp.ml:45-53 *)
Fixpoint makeTimesN (a : R) (y : expr) : expr :=
  match y with
  | Num b => Num (a * b)
  | Times (Num b) c => makeTimesN (a * b) c
  | _ =>
      if is_zero a then Num 0
      else if is_one a then y
      else if is_mone a then makeUminus y
      else match y with
           | Uminus b => Times (makeUminus (Num a)) b
           | _ => Times (Num a) y
           end
  end.
(** makeTimes, littlesimp.ml:45-53 *)
Definition makeTimes (x y : expr) : expr :=
  match x with
  | Num a => makeTimesN a y
  | _ => match y with
         | Num b => makeTimesN b x
         | _ => Times x y
         end
  end.
(** reduceSum on a list whose head is [Num a], littlesimp.ml:57-61 *)
Fixpoint reduceSumN (a : R) (l : list expr) : list expr :=
  match l with
  | [] => if is_zero a then [] else [Num a]
  | Num b :: c => reduceSumN (a + b) c
  | b :: c => b :: reduceSumN a c
  end.
(** reduceSum, littlesimp.ml:56-62 *)
Fixpoint reduceSum (x : list expr) : list expr :=
  match x with
  | [] => []
  | Num a :: c => reduceSumN a c
  | a :: s => a :: reduceSum s
  end.
(** makePlus on two numbers, the only recursive call (littlesimp.ml:69) *)
Definition makePlusNN (a c : R) : expr :=
  match reduceSum [Num a; Num c] with
  | [] => Num 0
  | x :: _ => x
  end.

Section Phys.
  Variable pheq : expr -> expr -> bool.
  Variable env : variable -> C.

  (** makePlus, littlesimp.ml:64-70 *)
  Definition makePlus (l : list expr) : expr :=
    match reduceSum l with
    | [] => Num 0
    | [a] => a
    | [a; b] =>
        if pheq a b then makeTimes (Num 2) a
        else match a, b with
             | Times (Num x) b', Times (Num y) d =>
                 if pheq b' d then makeTimes (makePlusNN x y) b' else Plus [a; b]
             | _, _ => Plus [a; b]
             end
    | a => Plus a
    end.

  Hypothesis pheq_eq : forall a b, pheq a b = true -> a = b.
  Notation ev := (eval env).

  Definition lsumE (l : list expr) : C := fold_right (fun x s => (ev x + s)%C) C0 l.
  Lemma eval_Plus l : ev (Plus l) = lsumE l.
  Proof. cbn. induction l as [|x l IH]; [reflexivity|]. cbn. now rewrite IH. Qed.
  Lemma RtoC_mul a b : RtoC (a * b) = (RtoC a * RtoC b)%C.
  Proof. apply C_eq; cbn; ring. Qed.
  Lemma RtoC_add a b : RtoC (a + b) = (RtoC a + RtoC b)%C.
  Proof. apply C_eq; cbn; ring. Qed.
  Lemma RtoC_opp a : RtoC (- a) = (- RtoC a)%C.
  Proof. apply C_eq; cbn; ring. Qed.
  Lemma RtoC_0 : RtoC 0 = C0. Proof. reflexivity. Qed.
  Lemma RtoC_1 : RtoC 1 = C1. Proof. reflexivity. Qed.
  Lemma is_zero_t a : is_zero a = true -> a = 0%R.
  Proof. unfold is_zero. destruct (Req_EM_T a 0); [auto|discriminate]. Qed.
  Lemma is_one_t a : is_one a = true -> a = 1%R.
  Proof. unfold is_one. destruct (Req_EM_T a 1); [auto|discriminate]. Qed.
  Lemma is_mone_t a : is_mone a = true -> a = (-1)%R.
  Proof. unfold is_mone. destruct (Req_EM_T a (-1)); [auto|discriminate]. Qed.

  Lemma eval_makeUminus e : ev (makeUminus e) = (- ev e)%C.
  Proof. destruct e; cbn [makeUminus eval]; try reflexivity; [apply RtoC_opp|ring]. Qed.

  Lemma makeTimesN_gen a y :
    ev (if is_zero a then Num 0 else if is_one a then y else if is_mone a then makeUminus y
        else match y with Uminus b => Times (makeUminus (Num a)) b | _ => Times (Num a) y end)
    = (RtoC a * ev y)%C.
  Proof.
    destruct (is_zero a) eqn:E0; [apply is_zero_t in E0; subst; cbn [eval]; rewrite RtoC_0; ring|].
    destruct (is_one a) eqn:E1; [apply is_one_t in E1; subst; rewrite RtoC_1; ring|].
    destruct (is_mone a) eqn:E2.
    { apply is_mone_t in E2; subst. rewrite eval_makeUminus. replace (-1)%R with (- (1))%R by ring. rewrite RtoC_opp, RtoC_1. ring. }
    destruct y; try reflexivity. cbn [eval makeUminus]. rewrite RtoC_opp. ring.
  Qed.
  Fixpoint eval_makeTimesN a y {struct y} : ev (makeTimesN a y) = (RtoC a * ev y)%C.
  Proof.
    destruct y.
    - apply RtoC_mul.
    - apply (makeTimesN_gen a NaNI).
    - apply (makeTimesN_gen a (Plus l)).
    - destruct y1; try apply (makeTimesN_gen a (Times _ y2)).
      cbn [makeTimesN eval]. rewrite eval_makeTimesN, RtoC_mul. ring.
    - apply (makeTimesN_gen a (CTimes y1 y2)).
    - apply (makeTimesN_gen a (CTimesJ y1 y2)).
    - apply (makeTimesN_gen a (Uminus y)).
    - apply (makeTimesN_gen a (ELoad v)).
    - apply (makeTimesN_gen a (EStore v y)).
  Qed.
  Lemma eval_makeTimes x y : ev (makeTimes x y) = (ev x * ev y)%C.
  Proof.
    destruct x; try apply eval_makeTimesN;
      (destruct y; try reflexivity; cbn [makeTimes]; rewrite eval_makeTimesN; cbn [eval]; ring).
  Qed.
  Lemma eval_reduceSumN l : forall a, lsumE (reduceSumN a l) = (RtoC a + lsumE l)%C.
  Proof.
    induction l as [|x l IH]; intros a.
    - cbn [reduceSumN]. destruct (is_zero a) eqn:E; [|reflexivity]. apply is_zero_t in E; subst. cbn. apply C_eq; cbn; ring.
    - destruct x; cbn [reduceSumN lsumE fold_right]; try (rewrite IH, RtoC_add; cbn [eval]; unfold lsumE; ring);
        fold (lsumE (reduceSumN a l)); rewrite IH; unfold lsumE; ring.
  Qed.
  Lemma eval_reduceSum l : lsumE (reduceSum l) = lsumE l.
  Proof.
    induction l as [|x l IH]; [reflexivity|].
    destruct x; cbn [reduceSum]; try apply eval_reduceSumN; cbn [lsumE fold_right]; unfold lsumE in IH; rewrite IH; reflexivity.
  Qed.
  Lemma lsumE_two a b : lsumE [a; b] = (ev a + ev b)%C.
  Proof. cbn. ring. Qed.
  Lemma eval_makePlusNN x y : ev (makePlusNN x y) = RtoC (x + y).
  Proof.
    unfold makePlusNN. cbn [reduceSum reduceSumN]. destruct (is_zero (x + y)) eqn:E; [|reflexivity].
    apply is_zero_t in E. rewrite E. reflexivity.
  Qed.
  Lemma eval_makePlus l : ev (makePlus l) = lsumE l.
  Proof.
    rewrite <- eval_reduceSum. unfold makePlus. destruct (reduceSum l) as [|a [|b [|c r]]].
    - reflexivity.
    - cbn. ring.
    - destruct (pheq a b) eqn:E.
      { apply pheq_eq in E. subst b. rewrite eval_makeTimes, lsumE_two. cbn [eval].
        replace 2%R with (1 + 1)%R by ring. rewrite RtoC_add, RtoC_1. ring. }
      destruct a as [| | |a1 a2| | | | |]; try apply eval_Plus.
      destruct a1; try apply eval_Plus.
      destruct b as [| | |b1 b2| | | | |]; try apply eval_Plus.
      destruct b1; try apply eval_Plus.
      destruct (pheq a2 b2) eqn:E2; [|apply eval_Plus].
      apply pheq_eq in E2. subst b2. rewrite eval_makeTimes, eval_makePlusNN, lsumE_two, RtoC_add. cbn [eval]. ring.
    - apply eval_Plus.
  Qed.
End Phys.
