(** * genfft: printing expressions and blocks as C text (c.ml) *)
From Coq Require Import Reals ZArith List Bool Lia.
From Verif Require Import Cplx GenExpr GenCplx GenAlg GenAlist GenSched GenAnnot.
Import ListNotations.
Open Scope nat_scope.

(** ** The text.  A variable (Variable.unparse: T3, ri[WS(is, 1)], W[2]) and a constant (Number.to_konst:
    KP500000000, declared by DK with its value, c.ml:269-278) are one token each; spaces and comments
    are no tokens *)
Inductive macro := M_FMA | M_FMS | M_FNMA | M_FNMS.
Inductive token := TVar (v : variable) | TNum (a : R) | TPlus | TMinus | TStar | TLpar | TRpar | TComma | TMac (m : macro).

(** ** unparse_expr_c, c.ml:75-126 *)
Definition ocat (x y : option (list token)) : option (list token) :=
  match x, y with Some a, Some b => Some (a ++ b) | _, _ => None end.
Notation "x +++ y" := (ocat x y) (at level 60, right associativity).
Definition tok (t : token) : option (list token) := Some [t].

(** what one case of unparse_plus prints: an operation on three expressions, a minus sign or nothing before an expression *)
Inductive piece := POp (m : macro) (a b c : expr) | PMinus (a : expr) | PExpr (a : expr).
(** the cases of unparse_plus in order, c.ml:83-102: what is printed first, and the rest of the list *)
Definition pick (l : list expr) : option (piece * list expr) :=
  match l with
  | [] => None
  | Uminus (Times a b) :: Uminus c :: d => Some (POp M_FNMA a b c, d)
  | Uminus c :: Uminus (Times a b) :: d => Some (POp M_FNMA a b c, d)
  | Uminus (Times a b) :: c :: d => Some (POp M_FNMS a b c, d)
  | c :: Uminus (Times a b) :: d => Some (POp M_FNMS a b c, d)
  | Times a b :: Uminus c :: d => Some (POp M_FMS a b c, d)
  | Uminus c :: Times a b :: d => Some (POp M_FMS a b c, d)
  | Times a b :: c :: d => Some (POp M_FMA a b c, d)
  | c :: Times a b :: d => Some (POp M_FMA a b c, d)
  | Uminus a :: b => Some (PMinus a, b)
  | a :: b => Some (PExpr a, b)
  end.
Section Plus.
  Variable unparse : expr -> option (list token).
  (** parenthesize and op, c.ml:103-109 *)
  Definition parenthesize (x : expr) : option (list token) :=
    match x with
    | ELoad _ => unparse x
    | Num _ => unparse x
    | _ => tok TLpar +++ unparse x +++ tok TRpar
    end.
  Definition op (m : macro) (a b c : expr) : option (list token) :=
    tok (TMac m) +++ tok TLpar +++ unparse a +++ tok TComma +++ unparse b +++ tok TComma +++ unparse c +++ tok TRpar.
  Definition maybe (yes : bool) : option (list token) := if yes then tok TPlus else Some [].
  Definition unparse_piece (yes : bool) (p : piece) : option (list token) :=
    match p with
    | POp m a b c => maybe yes +++ op m a b c
    | PMinus a => tok TMinus +++ parenthesize a
    | PExpr a => maybe yes +++ parenthesize a
    end.
  (** unparse_plus, c.ml:78-102; each case leaves a shorter list, [n] is its length *)
  Fixpoint unparse_plus (n : nat) (yes : bool) (l : list expr) : option (list token) :=
    match pick l, n with
    | None, _ => Some []
    | Some (p, d), S n' => unparse_piece yes p +++ unparse_plus n' true d
    | _, _ => None
    end.
End Plus.
(** the function at the end of unparse_expr_c, c.ml:111-126.  failwith is None; [fuel] bounds the depth of the
    recursion.  0.0 is the constant 0 *)
Fixpoint unparse_expr (fuel : nat) (e : expr) : option (list token) :=
  match fuel with
  | O => None
  | S f =>
      match e with
      | ELoad v => tok (TVar v)
      | Num a => tok (TNum a)
      | Plus [] => tok (TNum 0%R)
      | Plus [a] => unparse_expr f a
      | Plus l => unparse_plus (unparse_expr f) (length l) false l
      | Times a b => parenthesize (unparse_expr f) a +++ tok TStar +++ parenthesize (unparse_expr f) b
      | Uminus (Plus [a; Uminus b]) => unparse_plus (unparse_expr f) 2 false [b; Uminus a]
      | Uminus a => tok TMinus +++ parenthesize (unparse_expr f) a
      | _ => None
      end
  end.

(** ** Specification: how a C compiler reads the text of an expression *)
Inductive cexp :=
| CVar (v : variable) | CNum (a : R) | CNeg (x : cexp) | CAdd (x y : cexp) | CSub (x y : cexp) | CMul (x y : cexp)
| CMac (m : macro) (x y z : cexp).
(** the grammar of C: primary expressions, unary, multiplicative and additive expressions.  The macros FMA, FMS, FNMA
    and FNMS of kernel/ifftw.h put parentheses around their arguments and around the whole *)
Inductive level := Prim | Unary | Mul | Add.
Inductive reads : level -> list token -> cexp -> Prop :=
| r_var v : reads Prim [TVar v] (CVar v)
| r_num a : reads Prim [TNum a] (CNum a)
| r_paren t x : reads Add t x -> reads Prim (TLpar :: t ++ [TRpar]) x
| r_macro m t u w x y z : reads Add t x -> reads Add u y -> reads Add w z ->
    reads Prim (TMac m :: TLpar :: t ++ TComma :: u ++ TComma :: w ++ [TRpar]) (CMac m x y z)
| r_unary t x : reads Prim t x -> reads Unary t x
| r_minus t x : reads Unary t x -> reads Unary (TMinus :: t) (CNeg x)
| r_factor t x : reads Unary t x -> reads Mul t x
| r_times t u x y : reads Mul t x -> reads Unary u y -> reads Mul (t ++ TStar :: u) (CMul x y)
| r_term t x : reads Mul t x -> reads Add t x
| r_plus t u x y : reads Add t x -> reads Mul u y -> reads Add (t ++ TPlus :: u) (CAdd x y)
| r_sub t u x y : reads Add t x -> reads Mul u y -> reads Add (t ++ TMinus :: u) (CSub x y).
(** the macros of kernel/ifftw.h:1131-1134 *)
Definition macro_value (m : macro) (a b c : C) : C :=
  match m with
  | M_FMA => ((a * b) + c)%C
  | M_FMS => ((a * b) - c)%C
  | M_FNMA => (- ((a * b) + c))%C
  | M_FNMS => (c - (a * b))%C
  end.
(** the value, None when a variable has none (it is not declared) *)
Section Value.
  Variable env : variable -> option C.
  Definition lift1 (f : C -> C) (x : option C) : option C := match x with Some a => Some (f a) | None => None end.
  Definition lift2 (f : C -> C -> C) (x y : option C) : option C := match x, y with Some a, Some b => Some (f a b) | _, _ => None end.
  Fixpoint cval (e : cexp) : option C :=
    match e with
    | CVar v => env v
    | CNum a => Some (RtoC a)
    | CNeg x => lift1 copp (cval x)
    | CAdd x y => lift2 cadd (cval x) (cval y)
    | CSub x y => lift2 csub (cval x) (cval y)
    | CMul x y => lift2 cmul (cval x) (cval y)
    | CMac m x y z => match cval x with Some a => lift2 (macro_value m a) (cval y) (cval z) | None => None end
    end.
End Value.

(** ** unparse_annotated, c.ml:158-189: a block with the temporaries it declares *)
Inductive ctext := CBlock (decl : list variable) (body : cbody)
with cbody := CEmpty | CAssign (v : variable) (t : list token) | CSeq (a b : ctext).
Fixpoint unparse_annotated (fuel : nat) (x : annotated) : option ctext :=
  match x with
  | Annotate _ _ decl _ code =>
      match
        match code with
        | ADone => Some CEmpty
        | AInstr (v, e) => match unparse_expr fuel e with Some t => Some (CAssign v t) | None => None end
        | ASeq a b => match unparse_annotated fuel a, unparse_annotated fuel b with Some s, Some t => Some (CSeq s t) | _, _ => None end
        end
      with
      | Some body => Some (CBlock (filter is_temporary decl) body)
      | None => None
      end
  end.

(** ** Specification: what a C block does.  The state: the local variables that are declared, with their values, and
    the memory.  A declaration makes a new variable with any value ([junk]); at the end of the block
    it is gone and an outer variable of the same name is visible again *)
Section Exec.
  Variable A : Type.
  Variable A_dec : forall p q : A, {p = q} + {p <> q}.
  Variable addr : variable -> A.
  Definition locals := variable -> option C.
  Definition cstate : Type := locals * (A -> C).
  Definition look (s : cstate) (v : variable) : option C := if is_temporary v then fst s v else Some (snd s (addr v)).
  Definition assign (v : variable) (z : C) (s : cstate) : option cstate :=
    if is_temporary v then
      match fst s v with Some _ => Some (fun w => if var_eq_dec w v then Some z else fst s w, snd s) | None => None end
    else Some (fst s, fun p => if A_dec p (addr v) then z else snd s p).
  Inductive cruns : ctext -> cstate -> cstate -> Prop :=
  | run_block decl body junk s s' :
      NoDup decl ->
      bruns body (fun w => if in_dec var_eq_dec w decl then Some (junk w) else fst s w, snd s) s' ->
      cruns (CBlock decl body) s (fun w => if in_dec var_eq_dec w decl then fst s w else fst s' w, snd s')
  with bruns : cbody -> cstate -> cstate -> Prop :=
  | run_empty s : bruns CEmpty s s
  | run_assign v t x z s s' : reads Add t x -> cval (look s) x = Some z -> assign v z s = Some s' -> bruns (CAssign v t) s s'
  | run_seq a b s s' s'' : cruns a s s' -> cruns b s' s'' -> bruns (CSeq a b) s s''.
End Exec.
