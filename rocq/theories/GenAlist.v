(** * genfft: from the dag of a codelet to a list of assignments (to_alist.ml)

    The dag is a heap of numbered nodes as in GenTrans.v (physical equality is equality of
    numbers); the expressions of the assignments are trees. *)
From Coq Require Import Reals ZArith List Bool Lia.
From Verif Require Import Cplx GenExpr GenCplx GenAlg GenTrans.
Import ListNotations.
Open Scope nat_scope.

(** ** expr.ml:40, 67-75 and variable.ml:35-45 *)
(** Assign (v, x) *)
Definition assignment : Type := (variable * expr)%type.
(** is_temporary and is_locative, variable.ml:39-45 *)
Definition is_temporary (v : variable) : bool := match v with Temporary _ => true | _ => false end.
Definition is_locative (v : variable) : bool := match v with Locative _ _ _ => true | _ => false end.
(** find_vars, expr.ml:67-75 *)
Fixpoint find_vars (e : expr) : list variable :=
  match e with
  | ELoad y => [y]
  | Plus l => (fix go (l : list expr) := match l with [] => [] | x :: r => find_vars x ++ go r end) l
  | Times a b | CTimes a b | CTimesJ a b => find_vars a ++ find_vars b
  | Uminus a => find_vars a
  | _ => []
  end.

(** ** The settings of magic.ml that to_alist.ml reads, magic.ml:32-62 *)
Record amagic := {
  inline_single : bool;
  inline_loads : bool;
  inline_loads_constants : bool;
  inline_constants : bool;
  trivial_stores : bool;
  strength_reduce_mul : bool;
  enable_fma : bool;
  generate_bytw : bool
}.

Section Alist.
  Variable Mg : amagic.
  Variable H : heap.

  (** the fma type, to_alist.ml:110-114; [good_for_fma], lines 116-124 *)
  Inductive fma := NO_FMA | FMA (a b c : nat) | FMS (a b c : nat) | FNMS (a b c : nat).
  Definition is_nan (n : nat) : bool := match H n with NNaN => true | _ => false end.
  Definition good1 (n : nat) : bool :=
    match H n with NNaN => true | NTimes a b => negb (is_nan a) && negb (is_nan b) | _ => true end.
  Definition good_for_fma (a b : nat) : bool := good1 a && good1 b.
  (** a node that is Uminus (Times (b, c)), or Times (b, c), with (b, c) good *)
  Definition as_times (n : nat) : option (nat * nat) :=
    match H n with NTimes b c => if good_for_fma b c then Some (b, c) else None | _ => None end.
  Definition as_uminus (n : nat) : option nat := match H n with NUminus a => Some a | _ => None end.
  Definition as_utimes (n : nat) : option (nat * nat) := match as_uminus n with Some t => as_times t | None => None end.
  (** build_fma, to_alist.ml:126-135: the six cases in order *)
  Definition build_fma (l : list nat) : fma :=
    if negb (enable_fma Mg) then NO_FMA
    else match l with
         | [p; q] =>
             match as_utimes q with Some (b, c) => FNMS p b c | None =>
             match as_utimes p with Some (b, c) => FNMS q b c | None =>
             match as_uminus p, as_times q with Some a, Some (b, c) => FMS a b c | _, _ =>
             match as_times p, as_uminus q with Some (b, c), Some a => FMS a b c | _, _ =>
             match as_times q with Some (b, c) => FMA p b c | None =>
             match as_times p with Some (b, c) => FMA q b c | None => NO_FMA end end end end end end
         | _ => NO_FMA
         end.
  (** children_fma, to_alist.ml:137-141 *)
  Definition children_fma (l : list nat) : option (nat * nat * nat) :=
    match build_fma l with FMA a b c | FMS a b c | FNMS a b c => Some (a, b, c) | NO_FMA => None end.

  (** ** The first visit counts the uses of the nodes.  The table: None for a node that is not in it *)
  Definition ctable := nat -> option nat.
  Definition cinsert (n : nat) (c : nat) (t : ctable) : ctable := fun m => if m =? n then Some c else t m.
  Section Body.
    Variable vis : nat -> ctable -> option ctable.
    Fixpoint visits (l : list nat) (t : ctable) : option ctable :=
      match l with [] => Some t | x :: r => match vis x t with Some t => visits r t | None => None end end.
    (** the function given to counting in visitM, to_alist.ml:145-160 *)
    Definition visit_body (n : nat) (t : ctable) : option ctable :=
      match H n with
      | NLoad _ | NNum _ | NNaN => Some t
      | NStore _ x => visits [x] t
      | NPlus l => match children_fma l with None => visits l t | Some (a, b, c) => visits [a; a; b; b; c; c] t end
      | NTimes a b | NCTimes a b | NCTimesJ a b => visits [a; b] t
      | NUminus a => visits [a] t
      end.
  End Body.
  (** counting and visitM, to_alist.ml:72-88, 144-161.  [fuel] bounds the recursion (None: not
      enough; the node number plus one is enough) *)
  Fixpoint visitM (fuel : nat) (n : nat) (t : ctable) : option ctable :=
    match fuel with
    | O => None
    | S f =>
        match t n with
        | Some count =>
            match H n with
            | NUminus y => match visit_body (visitM f) y t with Some t => Some (cinsert n (count + 1) t) | None => None end
            | _ => Some (cinsert n (count + 1) t)
            end
        | None => match visit_body (visitM f) n t with Some t => Some (cinsert n 1 t) | None => None end
        end
    end.

  (** ** The second visit makes the assignments.  The state: the list of the assignments made, the
      last one first, the table of the expressions made, and the number of temporaries made so
      far (tmp_count of variable.ml:61-66, a global counter) *)
  Record state := mkst { al : list assignment; vis' : nat -> option expr; tmp_count : Z }.
  Definition M (A : Type) := state -> option (A * state).
  Definition ret {A} (x : A) : M A := fun s => Some (x, s).
  Definition bind {A B} (m : M A) (k : A -> M B) : M B := fun s => match m s with Some (a, s') => k a s' | None => None end.
  Definition mfail {A} : M A := fun _ => None.

  (** with_varM, to_alist.ml:90-91 *)
  Definition with_varM (v : variable) (x : expr) : M expr :=
    fun s => Some (ELoad v, mkst ((v, x) :: al s) (vis' s) (tmp_count s)).
  (** fresh, to_alist.ml:43 and variable.ml:61-66 *)
  Definition fresh : M variable :=
    fun s => Some (Temporary (tmp_count s + 1), mkst (al s) (vis' s) (tmp_count s + 1)).
  (** inlineM, to_alist.ml:93 *)
  Definition inlineM (x : expr) : M expr := ret x.
  (** with_tempM, to_alist.ml:95-97 *)
  Definition with_tempM (x : expr) : M expr :=
    match x with
    | ELoad v => if is_temporary v then inlineM x else bind fresh (fun t => with_varM t x)
    | _ => bind fresh (fun t => with_varM t x)
    end.

  Variable counts : ctable.
  (** with_temp_maybeM, to_alist.ml:100-109; failwith is None *)
  Definition with_temp_maybeM (node : nat) (x : expr) : M expr :=
    match counts node with
    | Some count => if (count =? 1) && inline_single Mg then inlineM x else with_tempM x
    | None => mfail
    end.

  Section EBody.
    Variable eon : nat -> M expr.
    Fixpoint mapM (l : list nat) : M (list expr) :=
      match l with [] => ret [] | a :: b => bind (eon a) (fun a' => bind (mapM b) (fun b' => ret (a' :: b'))) end.
    Definition is_load (n : nat) : option expr := match H n with NLoad v => Some (ELoad v) | _ => None end.
    (** the function memoized by expr_of_nodeM, to_alist.ml:168-239 *)
    Definition expr_body (x : nat) : M expr :=
      match H x with
      | NLoad v =>
          if is_temporary v then inlineM (ELoad v)
          else if is_locative v && inline_loads Mg then inlineM (ELoad v)
          else if var_is_constant v && inline_loads_constants Mg then inlineM (ELoad v)
          else with_tempM (ELoad v)
      | NNum a => if inline_constants Mg then inlineM (Num a) else with_temp_maybeM x (Num a)
      | NNaN => inlineM NaNI
      | NStore v y =>
          bind (eon y) (fun y' => bind ((if trivial_stores Mg then with_tempM else inlineM) y') (fun y'' => with_varM v y''))
      | NPlus l =>
          match build_fma l with
          | FMA a b c => bind (eon a) (fun a' => bind (eon b) (fun b' => bind (eon c) (fun c' =>
              with_temp_maybeM x (Plus [a'; Times b' c']))))
          | FMS a b c => bind (eon a) (fun a' => bind (eon b) (fun b' => bind (eon c) (fun c' =>
              with_temp_maybeM x (Plus [Times b' c'; Uminus a']))))
          | FNMS a b c => bind (eon a) (fun a' => bind (eon b) (fun b' => bind (eon c) (fun c' =>
              with_temp_maybeM x (Plus [a'; Uminus (Times b' c')]))))
          | NO_FMA => bind (mapM l) (fun l' => with_temp_maybeM x (Plus l'))
          end
      | NCTimes a b =>
          match (if generate_bytw Mg then is_load a else None) with
          | Some a' => bind (eon b) (fun b' => with_tempM (CTimes a' b'))
          | None => bind (eon a) (fun a' => bind (eon b) (fun b' => with_tempM (CTimes a' b')))
          end
      | NCTimesJ a b =>
          match (if generate_bytw Mg then is_load a else None) with
          | Some a' => bind (eon b) (fun b' => with_tempM (CTimesJ a' b'))
          | None => bind (eon a) (fun a' => bind (eon b) (fun b' => with_tempM (CTimesJ a' b')))
          end
      | NTimes a b =>
          bind (eon a) (fun a' => bind (eon b) (fun b' =>
            match a' with
            | Num a'' =>
                if strength_reduce_mul Mg && (if Req_EM_T a'' 2%R then true else false)
                then bind (inlineM b') (fun b'' => with_temp_maybeM x (Plus [b''; b'']))
                else with_temp_maybeM x (Times a' b')
            | _ => with_temp_maybeM x (Times a' b')
            end))
      | NUminus a => bind (eon a) (fun a' => inlineM (Uminus a'))
      end.
  End EBody.
  (** expr_of_nodeM, to_alist.ml:166-240, with memoizing of monads.ml:66-73 *)
  Fixpoint expr_of_nodeM (fuel : nat) (x : nat) : M expr :=
    fun s =>
    match fuel with
    | O => None
    | S f =>
        match vis' s x with
        | Some e => Some (e, s)
        | None =>
            match expr_body (expr_of_nodeM f) x s with
            | Some (e, s') => Some (e, mkst (al s') (fun m => if m =? x then Some e else vis' s' m) (tmp_count s'))
            | None => None
            end
        end
    end.
End Alist.

(** to_assignments, to_alist.ml:163, 242-254 (visit_rootsM, expr_of_rootsM, peek_alistM): [tmp] is the value of the
    counter of temporaries before the call *)
Definition to_assignments (Mg : amagic) (H : heap) (fuel : nat) (tmp : Z) (roots : list nat) : option (list assignment) :=
  match visits (visitM Mg H fuel) roots (fun _ => None) with
  | None => None
  | Some counts =>
      match mapM (expr_of_nodeM Mg H counts fuel) roots (mkst [] (fun _ => None) tmp) with
      | Some (_, s) => Some (rev (al s))
      | None => None
      end
  end.
