(** * genfft: the algebraic simplifier (algsimp.ml, first part), with its tables

    Conventions of this file:
    - OCaml's state monad (monads.ml:30-60) becomes [M A := st -> option (A * st)]; [None] is an
      exception or the end of the fuel that stands for unbounded recursion;
    - physical equality is the oracle [pheq]: its answer may be different at each call (it gets
      the number of the call), and is only assumed to imply structural equality.  The same holds
      for [vsame] (Variable.same, variable.ml:34, also physical), and the hash functions and the
      sign oracle may give any answer at any time;
    - [Number.number] is an exact real, as in GenExpr.v;
    - [bad] is a ghost bit of the state that no computation reads: it is set at the two places
      where the code is only right under a condition it does not check (see [structurallyEqualCSE]
      and [splitDuplicates]). *)
From Coq Require Import Reals ZArith List Lia Lra Bool.
From Verif Require Import NumTheory Cplx GenExpr.
Import ListNotations.
Open Scope Z_scope.

(** ** assoctable.ml:35-65 *)
Inductive elem (A : Type) :=
| Leaf
| Node (h : Z) (left right : elem A) (this : list (expr * A)).
Arguments Leaf {A}. Arguments Node {A}.

Record st := mkst { tick : nat; bad : bool; simp : elem expr; cse : elem expr }.
Definition M (A : Type) := st -> option (A * st).
(** returnM, >>=, mapM: monads.ml:32-49 *)
Definition ret {A} (a : A) : M A := fun s => Some (a, s).
Definition bind {A B} (m : M A) (k : A -> M B) : M B :=
  fun s => match m s with Some (a, s') => k a s' | None => None end.
Definition fail {A} : M A := fun _ => None.
Notation "x <- m ;; k" := (bind m (fun x => k)) (at level 61, m at next level, right associativity).
Section MapM.
  Context {A B : Type}.
  Variable f : A -> M B.
  Fixpoint mapM (l : list A) : M (list B) :=
    match l with
    | [] => ret []
    | a :: b => a' <- f a ;; b' <- mapM b ;; ret (a' :: b')
    end.
End MapM.
(** &&, ||, List.exists, List.for_all with conditions that consult an oracle *)
Definition andM (a b : M bool) : M bool := x <- a ;; if x : bool then b else ret false.
Definition orM (a b : M bool) : M bool := x <- a ;; if x : bool then ret true else b.
Section Exists.
  Context {A : Type}.
  Variable f : A -> M bool.
  Fixpoint existsM (l : list A) : M bool :=
    match l with [] => ret false | a :: b => orM (f a) (existsM b) end.
  Fixpoint for_allM (l : list A) : M bool :=
    match l with [] => ret true | a :: b => andM (f a) (for_allM b) end.
End Exists.
(** the call number *)
Definition tickM {A} (f : nat -> A) : M A :=
  fun s => Some (f (tick s), mkst (S (tick s)) (bad s) (simp s) (cse s)).
(** ghost: remember that the condition [ok] failed *)
Definition ghost (ok : bool) : M unit :=
  fun s => Some (tt, mkst (tick s) (bad s || negb ok) (simp s) (cse s)).

(** lookup, assoctable.ml:41-52 *)
Section Look.
  Context {A : Type}.
  Variable equal : expr -> expr -> M bool.
  Variable key : expr.
  Fixpoint lookl (l : list (expr * A)) : M (option A) :=
    match l with
    | [] => ret None
    | (a, b) :: rest => e <- equal key a ;; if e : bool then ret (Some b) else lookl rest
    end.
  Fixpoint look (h : Z) (t : elem A) : M (option A) :=
    match t with
    | Leaf => ret None
    | Node hk l r this => if hk <? h then look h l else if hk >? h then look h r else lookl this
    end.
  (** insert, assoctable.ml:54-65 *)
  Fixpoint ins (h : Z) (v : A) (t : elem A) : elem A :=
    match t with
    | Leaf => Node h Leaf Leaf [(key, v)]
    | Node hk l r this =>
        if hk <? h then Node hk (ins h v l) r this
        else if hk >? h then Node hk l (ins h v r) this
        else Node hk l r ((key, v) :: this)
    end.
End Look.

(** structural equality of expressions; only used for the ghost bit *)
Definition var_eq_dec (a b : variable) : {a = b} + {a <> b}.
Proof. decide equality; apply Z.eq_dec. Defined.
Fixpoint expr_eqb (a b : expr) {struct a} : bool :=
  match a, b with
  | Num x, Num y => if Req_EM_T x y then true else false
  | NaNI, NaNI => true
  | Plus l, Plus m =>
      (fix go (l m : list expr) {struct l} : bool :=
         match l, m with
         | [], [] => true
         | x :: l', y :: m' => expr_eqb x y && go l' m'
         | _, _ => false
         end) l m
  | Times x y, Times z w => expr_eqb x z && expr_eqb y w
  | CTimes x y, CTimes z w => expr_eqb x z && expr_eqb y w
  | CTimesJ x y, CTimesJ z w => expr_eqb x z && expr_eqb y w
  | Uminus x, Uminus y => expr_eqb x y
  | ELoad u, ELoad v => if var_eq_dec u v then true else false
  | EStore u x, EStore v y => (if var_eq_dec u v then true else false) && expr_eqb x y
  | _, _ => false
  end.
Fixpoint remove1 (x : expr) (l : list expr) : option (list expr) :=
  match l with
  | [] => None
  | y :: r => if expr_eqb x y then Some r else option_map (cons y) (remove1 x r)
  end.
(** [a] and [b] have the same elements with the same multiplicities *)
Fixpoint is_perm (a b : list expr) : bool :=
  match a with
  | [] => match b with [] => true | _ => false end
  | x :: r => match remove1 x b with Some b' => is_perm r b' | None => false end
  end.
Definition is_Num0 (e : expr) : bool := match e with Num a => is_zero a | _ => false end.

(** ** Settings (magic.ml:41-44) and oracles *)
Record asettings := mkset { randomized_cse : bool; enable_fma : bool; deep_collect_depth : Z }.
Record oracles := mkor {
  pheq : nat -> expr -> expr -> bool;          (* == on expressions *)
  vsame : nat -> variable -> variable -> bool; (* == on variables *)
  ehash : nat -> expr -> Z;                    (* Expr.hash, expr.ml:55-64 *)
  ohash : nat -> expr -> Z;                    (* Oracle.hash, oracle.ml:142-144 *)
  random_equal : nat -> expr -> expr -> bool;  (* the randomised test, oracle.ml:104-122 *)
  flip_sign : nat -> expr -> bool              (* Oracle.should_flip_sign, oracle.ml:89-92 *)
}.

(** Number.negative, Number.greater: number.ml:83, 86 *)
Definition negative_num (a : R) : bool := if Rlt_dec a 0 then true else false.
Definition greater_num (a b : R) : bool := negative_num (b - a).
Definition num_equal (a b : R) : bool := if Req_EM_T a b then true else false.
(** is_known_constant, expr.ml:85-88 *)
Definition is_known_constant (e : expr) : bool := match e with Num _ | NaNI => true | _ => false end.
(** collectible1, algsimp.ml:170-173 *)
Fixpoint collectible1 (e : expr) : bool :=
  match e with NaNI => false | Uminus x => collectible1 x | _ => true end.
(** negative, algsimp.ml:256-258 *)
Definition negative (e : expr) : bool := match e with Uminus _ => true | _ => false end.
(** reorder_uminus, algsimp.ml:216-219 *)
Fixpoint reorder_uminus (l : list expr) : list expr :=
  match l with
  | [] => []
  | (Uminus _ as a') :: b => reorder_uminus b ++ [a']
  | a :: b => a :: reorder_uminus b
  end.
(** is_multiplication, separate: algsimp.ml:227-242 *)
Definition is_multiplication (e : expr) : bool :=
  match e with Times (Num _) _ | Uminus (Times (Num _) _) => true | _ => false end.
Fixpoint fma_separate (l : list expr) : list expr * list expr * R :=
  match l with
  | [] => ([], [], 0%R)
  | this :: c =>
      let '(x, y, max) := fma_separate c in
      match this with
      | Times (Num a) _ | Uminus (Times (Num a) _) => (this :: x, y, if greater_num a max then a else max)
      | _ => (x, this :: y, max)
      end
  end.
(** fma_heuristics, algsimp.ml:330-341 *)
Definition fma_heuristics (fma : bool) (x : list expr) : option bool :=
  if fma then
    match x with
    | [Uminus (Times _ _); Times _ _] => Some false
    | [Times _ _; Uminus (Times _ _)] => Some false
    | [Uminus _; Times _ _] => Some true
    | [Times _ _; Uminus (Plus _)] => Some true
    | [_; Uminus (Times _ _)] => Some false
    | [Uminus (Times _ _); _] => Some false
    | _ => None
    end
  else None.
(** findTerms, algsimp.ml:272-277 *)
Fixpoint findTerms (depth : Z) (x : expr) {struct x} : list expr :=
  match x with
  | Uminus y => findTerms depth y
  | Times (Num _) b => findTerms (depth - 1) b
  | Plus l => if depth >? 0 then x :: flat_map (findTerms (depth - 1)) l else [x]
  | _ => [x]
  end.

Section Alg.
  Variable Or : oracles.
  Variable Mg : asettings.

  Definition eqM (a b : expr) : M bool := tickM (fun t => pheq Or t a b).
  (** subset, algsimp.ml:51-52 *)
  Definition subset (a b : list expr) : M bool := for_allM (fun x => existsM (fun y => eqM x y) b) a.
  (** structurallyEqualCSE, algsimp.ml:54-67.  Two sums are equal when each one's terms are among
      the other's: the multiplicities are not compared, so that x+x+y would be equal to x+y+y *)
  Definition structurallyEqualCSE (a b : expr) : M bool :=
    match a, b with
    | Num x, Num y => ret (num_equal x y)
    | NaNI, NaNI => ret true
    | ELoad u, ELoad v => tickM (fun t => vsame Or t u v)
    | Times x x', Times y y' => orM (andM (eqM x y) (eqM x' y')) (andM (eqM x y') (eqM x' y))
    | CTimes x x', CTimes y y' => orM (andM (eqM x y) (eqM x' y')) (andM (eqM x y') (eqM x' y))
    | CTimesJ x x', CTimesJ y y' => andM (eqM x y) (eqM x' y')
    | Plus x, Plus y =>
        e <- andM (subset x y) (subset y x) ;;
        _ <- ghost (negb e || is_perm x y) ;;
        ret e
    | Uminus x, Uminus y => eqM x y
    | _, _ => ret false
    end.
  (** Oracle.likely_equal, oracle.ml:123-140 *)
  Definition likely_equal (a b : expr) : M bool :=
    match a, b with
    | EStore _ _, _ => ret false
    | _, EStore _ _ => ret false
    | Uminus (EStore _ _), _ => ret false
    | _, Uminus (EStore _ _) => ret false
    | _, _ => tickM (fun t => random_equal Or t a b)
    end.
  (** hashCSE, equalCSE: algsimp.ml:70-79 *)
  Definition hashCSE (x : expr) : M Z :=
    if randomized_cse Mg then tickM (fun t => ohash Or t x) else tickM (fun t => ehash Or t x).
  Definition equalCSE (a b : expr) : M bool :=
    if randomized_cse Mg then orM (structurallyEqualCSE a b) (likely_equal a b) else structurallyEqualCSE a b.
  (** lookupSimpM, insertSimpM, lookupCSEM, insertCSEM: algsimp.ml:39-48, 81-90; node_insert,
      node_lookup: algsimp.ml:26-27 *)
  Definition lookupSimpM (key : expr) : M (option expr) :=
    h <- tickM (fun t => ehash Or t key) ;; fun s => look eqM key h (simp s) s.
  Definition insertSimpM (key value : expr) : M unit :=
    h <- tickM (fun t => ehash Or t key) ;;
    fun s => Some (tt, mkst (tick s) (bad s) (ins key h value (simp s)) (cse s)).
  Definition lookupCSEM (key : expr) : M (option expr) :=
    h <- hashCSE key ;; fun s => look equalCSE key h (cse s) s.
  Definition insertCSEM (key value : expr) : M unit :=
    h <- hashCSE key ;;
    fun s => Some (tt, mkst (tick s) (bad s) (simp s) (ins key h value (cse s))).
  (** memoizing lookupCSEM insertCSEM returnM, monads.ml:68-75 *)
  Definition memo (x : expr) : M expr :=
    v <- lookupCSEM x ;;
    match v with
    | Some value => ret value
    | None => _ <- insertCSEM x x ;; ret x
    end.
  (** identityM, makeNode: algsimp.ml:94-100 *)
  Definition makeNode (x : expr) : M expr :=
    match x with
    | Uminus _ => memo x
    | _ => x' <- memo x ;; _ <- memo (Uminus x') ;; ret x'
    end.

  (** The mutually recursive simplifiers: [ops] holds the functions for the recursive calls *)
  Record ops := mkops {
    snumM : R -> M expr;
    suminusM : expr -> M expr;
    stimesM : expr -> expr -> M expr;
    sctimesM : expr -> expr -> M expr;
    sctimesjM : expr -> expr -> M expr;
    reduce_sumM : list expr -> M (list expr);
    collectM : bool -> list expr -> M (list expr);
    mangleSumM : list expr -> M (list expr);
    splusM : list expr -> M expr
  }.
  Section Step.
    Variable o : ops.

    (** snumM, algsimp.ml:103-108 *)
    Definition snumM1 (n : R) : M expr :=
      if is_zero n then makeNode (Num 0)
      else if negative_num n then x <- makeNode (Num (- n)) ;; suminusM o x
      else makeNode (Num n).
    (** suminusM, algsimp.ml:110-113 *)
    Definition suminusM1 (x : expr) : M expr :=
      match x with
      | Uminus x => makeNode x
      | Num a => if is_zero a then snumM o 0%R else makeNode (Uminus x)
      | a => makeNode (Uminus a)
      end.
    (** stimesM, algsimp.ml:115-130.  The cases are tried in the order of the code; the test of
        the last but one is made by [times_last] *)
    Definition times_last (a b : expr) : M expr :=
      if is_known_constant b && negb (is_known_constant a) then stimesM o b a
      else makeNode (Times a b).
    Definition stimesM1 (a b : expr) : M expr :=
      match a, b with
      | Uminus a, b => x <- stimesM o a b ;; suminusM o x
      | a, Uminus b => x <- stimesM o a b ;; suminusM o x
      | NaNI, CTimes a b => ib <- stimesM o NaNI b ;; sctimesM o a ib
      | NaNI, CTimesJ a b => ib <- stimesM o NaNI b ;; sctimesjM o a ib
      | Num a, Num b => snumM o (a * b)%R
      | Num a, Times (Num b) c => x <- snumM o (a * b)%R ;; stimesM o x c
      | Num a', b =>
          if is_zero a' then snumM o 0%R
          else if is_one a' then makeNode b
          else if is_mone a' then suminusM o b
          else times_last a b
      | a, b => times_last a b
      end.
    (** sctimesM, sctimesjM: algsimp.ml:132-140 *)
    Definition sctimesM1 (a b : expr) : M expr :=
      match a, b with
      | Uminus a, b => x <- sctimesM o a b ;; suminusM o x
      | a, Uminus b => x <- sctimesM o a b ;; suminusM o x
      | a, b => makeNode (CTimes a b)
      end.
    Definition sctimesjM1 (a b : expr) : M expr :=
      match a, b with
      | Uminus a, b => x <- sctimesjM o a b ;; suminusM o x
      | a, Uminus b => x <- sctimesjM o a b ;; suminusM o x
      | a, b => makeNode (CTimesJ a b)
      end.
    (** reduce_sumM, algsimp.ml:142-168 *)
    Definition reduce_sumM1 (x : list expr) : M (list expr) :=
      match x with
      | [] => ret []
      | [Num a] => if is_zero a then ret [] else ret x
      | [Uminus (Num a)] => if is_zero a then ret [] else ret x
      | Num a :: Num b :: s => y <- snumM o (a + b)%R ;; reduce_sumM o (y :: s)
      | Num a :: Uminus (Num b) :: s => y <- snumM o (a - b)%R ;; reduce_sumM o (y :: s)
      | Uminus (Num a) :: Num b :: s => y <- snumM o (b - a)%R ;; reduce_sumM o (y :: s)
      | Uminus (Num a) :: Uminus (Num b) :: s =>
          y <- snumM o (a + b)%R ;; z <- suminusM o y ;; reduce_sumM o (z :: s)
      | Num a :: b :: s => reduce_sumM o (b :: Num a :: s)
      | Uminus (Num a) :: b :: s => reduce_sumM o (b :: Uminus (Num a) :: s)
      | a :: s => s' <- reduce_sumM o s ;; ret (a :: s')
      end.
    (** findCoeffM, algsimp.ml:178-184; [w] = true is the identity, false the swap *)
    Definition which (w : bool) (p : expr * expr) : expr * expr := if w then p else (snd p, fst p).
    Fixpoint findCoeffM (w : bool) (x : expr) : M (expr * expr) :=
      match x with
      | Uminus y =>
          cb <- findCoeffM w y ;; m <- suminusM o (fst cb) ;; ret (m, snd cb)
      | Times a b =>
          if collectible1 (fst (which w (a, b))) then ret (which w (a, b))
          else one <- snumM o 1%R ;; ret (one, x)
      | _ => one <- snumM o 1%R ;; ret (one, x)
      end.
    (** separateM, algsimp.ml:185-196 *)
    Fixpoint separateM (xpr : expr) (l : list expr) : M (list expr * list expr) :=
      match l with
      | [] => ret ([], [])
      | a :: b =>
          wwo <- separateM xpr b ;;
          cx <- findCoeffM true a ;;
          e <- andM (eqM xpr (snd cx)) (ret (collectible1 (fst cx))) ;;
          if e : bool then ret (fst cx :: fst wwo, snd wwo)
          else
            cx <- findCoeffM false a ;;
            e <- andM (eqM xpr (snd cx)) (ret (collectible1 (fst cx))) ;;
            if e : bool then ret (fst cx :: fst wwo, snd wwo) else ret (fst wwo, a :: snd wwo)
      end.
    (** collectM, algsimp.ml:177-206 *)
    Definition collectM1 (w : bool) (x : list expr) : M (list expr) :=
      match x with
      | [] => ret x
      | [a] => ret x
      | a :: b =>
          cx <- findCoeffM w a ;;
          let xpr := snd cx in
          wwo <- separateM xpr x ;;
          wo' <- collectM o w (snd wwo) ;;
          w' <- splusM o (fst wwo) ;;
          t' <- stimesM o w' xpr ;;
          ret (t' :: wo')
      end.
    (** generateFusedMultAddM, algsimp.ml:226-253; a division by zero raises *)
    Definition generateFusedMultAddM (l : list expr) : M expr :=
      if enable_fma Mg && (2 <=? Z.of_nat (length (filter is_multiplication l))) then
        let '(w, wo, max) := fma_separate l in
        if num_equal max 0 then fail
        else
          invmax' <- snumM o (1 / max)%R ;;
          max' <- snumM o max ;;
          ws <- mapM (fun x => stimesM o invmax' x) w ;;
          pw' <- splusM o ws ;;
          mw' <- stimesM o max' pw' ;;
          splusM o (wo ++ [mw'])
      else makeNode (Plus l).
    (** canonicalizeM, algsimp.ml:221-224 *)
    Definition canonicalizeM (l : list expr) : M expr :=
      match l with
      | [] => snumM o 0%R
      | [a] => makeNode a
      | a => generateFusedMultAddM (reorder_uminus a)
      end.
    (** List.memq; duplicates, algsimp.ml:278-281 *)
    Definition memq (a : expr) (l : list expr) : M bool := existsM (fun y => eqM a y) l.
    Fixpoint duplicates (l : list expr) : M (list expr) :=
      match l with
      | [] => ret []
      | a :: b =>
          e <- memq a b ;;
          if e : bool then d <- duplicates b ;; ret (a :: d) else duplicates b
      end.
    (** splitDuplicates, algsimp.ml:283-311: (p, q) with x = p + q.  In the case of a product, with
        a = a' + xa and b = b' + xb, the second part is xa*b + a*xb + xa*xb, which is right (it
        should be xa*b + a*xb - xa*xb) only if xa*xb = 0 *)
    Fixpoint splitDuplicates (depth : Z) (d : list expr) (x : expr) {struct x} : M (expr * expr) :=
      e <- memq x d ;;
      if e : bool then zero <- snumM o 0%R ;; ret (zero, x)
      else
        match x with
        | Times a b =>
            pa <- splitDuplicates (depth - 1) d a ;;
            pb <- splitDuplicates (depth - 1) d b ;;
            ab <- stimesM o (fst pa) (fst pb) ;;
            xb' <- stimesM o a (snd pb) ;;
            xa' <- stimesM o (snd pa) b ;;
            xab <- stimesM o (snd pa) (snd pb) ;;
            _ <- ghost (is_Num0 xab) ;;
            y <- splusM o [xa'; xb'; xab] ;;
            ret (ab, y)
        | Uminus a =>
            p <- splitDuplicates depth d a ;;
            ux <- suminusM o (fst p) ;;
            uy <- suminusM o (snd p) ;;
            ret (ux, uy)
        | Plus l =>
            if depth >? 0 then
              ld <- (fix go (l : list expr) : M (list (expr * expr)) :=
                       match l with
                       | [] => ret []
                       | a :: b => a' <- splitDuplicates (depth - 1) d a ;; b' <- go b ;; ret (a' :: b')
                       end) l ;;
              p <- splusM o (map fst ld) ;;
              q <- splusM o (map snd ld) ;;
              ret (p, q)
            else zero <- snumM o 0%R ;; ret (x, zero)
        | _ => zero <- snumM o 0%R ;; ret (x, zero)
        end.
    (** flattenPlusM, algsimp.ml:320-324 *)
    Fixpoint flattenPlusM (x : expr) : M (list expr) :=
      match x with
      | Plus l => ret l
      | Uminus y => l <- flattenPlusM y ;; mapM (suminusM o) l
      | _ => ret [x]
      end.
    (** deepCollectM, algsimp.ml:271-327 *)
    Definition deepCollectM (maxdepth : Z) (l : list expr) : M (list expr) :=
      d <- duplicates (flat_map (findTerms maxdepth) l) ;;
      match d with
      | [] => ret l
      | _ =>
          ld <- mapM (splitDuplicates maxdepth d) l ;;
          l'' <- splusM o (map fst ld) ;;
          d'' <- mapM flattenPlusM (map snd ld) ;;
          d''' <- splusM o (concat d'') ;;
          mangleSumM o [l''; d''']
      end.
    (** mangleSumM, algsimp.ml:208-214 *)
    Definition mangleSumM1 (x : list expr) : M (list expr) :=
      x <- reduce_sumM o x ;;
      x <- collectM o true x ;;
      x <- collectM o false x ;;
      x <- reduce_sumM o x ;;
      x <- deepCollectM (deep_collect_depth Mg) x ;;
      reduce_sumM o x.
    (** splusM, algsimp.ml:329-359 *)
    Definition splusM1 (l : list expr) : M expr :=
      l' <- mangleSumM o l ;;
      if negb (existsb negative l') then canonicalizeM l'
      else
        let negate := m <- mapM (suminusM o) l' ;; p <- splusM o m ;; suminusM o p in
        if forallb negative l' then negate
        else
          match fma_heuristics (enable_fma Mg) l' with
          | Some true => negate
          | Some false => canonicalizeM l'
          | None =>
              e <- (if randomized_cse Mg then ret false else tickM (fun t => flip_sign Or t (Plus l'))) ;;
              if e : bool then negate else canonicalizeM l'
          end.
    Definition step : ops :=
      mkops snumM1 suminusM1 stimesM1 sctimesM1 sctimesjM1 reduce_sumM1 collectM1 mangleSumM1 splusM1.
  End Step.
  Definition ops0 : ops :=
    mkops (fun _ => fail) (fun _ => fail) (fun _ _ => fail) (fun _ _ => fail) (fun _ _ => fail)
      (fun _ => fail) (fun _ _ => fail) (fun _ => fail) (fun _ => fail).
  Fixpoint opsn (fuel : nat) : ops := match fuel with O => ops0 | S f => step (opsn f) end.

  (** algsimpM, algsimp.ml:362-387 *)
  Section Top.
    Variable o : ops.
    Fixpoint algsimpM (x : expr) {struct x} : M expr :=
      v <- lookupSimpM x ;;
      match v with
      | Some value => ret value
      | None =>
          value <- match x with
                   | Num a => snumM o a
                   | NaNI => makeNode x
                   | Plus l =>
                       l' <- (fix go (l : list expr) : M (list expr) :=
                                match l with
                                | [] => ret []
                                | a :: b => a' <- algsimpM a ;; b' <- go b ;; ret (a' :: b')
                                end) l ;;
                       splusM o l'
                   | Times a b => a' <- algsimpM a ;; b' <- algsimpM b ;; stimesM o a' b'
                   | CTimes a b => a' <- algsimpM a ;; b' <- algsimpM b ;; sctimesM o a' b'
                   | CTimesJ a b => a' <- algsimpM a ;; b' <- algsimpM b ;; sctimesjM o a' b'
                   | Uminus a => a' <- algsimpM a ;; suminusM o a'
                   | EStore v a => a' <- algsimpM a ;; makeNode (EStore v a')
                   | ELoad _ => makeNode x
                   end ;;
          _ <- insertSimpM x value ;;
          ret value
      end.
  End Top.
  (** algsimp, algsimp.ml:389-391: both tables are empty at the beginning *)
  Definition algsimp (fuel : nat) (roots : list expr) : option (list expr * st) :=
    mapM (algsimpM (opsn fuel)) roots (mkst 0 false Leaf Leaf).
End Alg.
