(** * Model of rank-0 real transforms (copies and in-place transposes):
    rdft/rank0.c, rdft/nop.c, rdft/vrank-geq1.c, rdft/vrank3-transpose.c, and of
    the problem constructor rdft/problem.c for rank-0 problems.

    A solver is modelled by the set of pairs (problem it accepts, execution
    function of the plan it builds).  Tests that only prune the search
    (NO_UGLY, NO_SLOW, ... heuristics, redundancy with a "buddy" solver) are
    dropped: the model accepts more problems than the code.  [TAINT] only
    marks pointers for alignment purposes and is dropped. *)
From Coq Require Import Reals ZArith List Lia Bool.
From Verif Require Import NumTheory Cplx Spec Base PrimesModel TensorModel Offs XForm XKern CopyModel.
Import ListNotations.
Open Scope Z_scope.

Definition MAXRNK : nat := 32%nat.   (* rdft/rank0.c:30 *)

(** rdft/rank0.c:49-68 fill_iodim: [vl] and [d] are the plan's fields. *)
Fixpoint fill_loop (vl : Z) (d : list iodim) (dims : list iodim) : option (Z * list iodim) :=
  match dims with
  | [] => Some (vl, d)
  | x :: t =>
      if (vl =? 1) && (dis x =? 1) && (dos x =? 1) then fill_loop (dn x) d t
      else if Nat.eqb (length d) MAXRNK then None
      else fill_loop vl (d ++ [x]) t
  end.
Definition fill_iodim (vec : list iodim) : option (Z * list iodim) := fill_loop 1 [] vec.

(** rdft/rank0.c:71-83 copy.  [cp] is the 2d copy function; rank < 2 is excluded
    by the assertion. *)
Definition cpy2d_func := Z -> Z -> Z -> Z -> Z -> Z -> Z -> rapply.
Fixpoint copy_nd (d : list iodim) (vl : Z) (cp : cpy2d_func) : rapply :=
  match d with
  | [] => fun _ _ _ m => m
  | d0 :: t =>
      match t with
      | [] => fun _ _ _ m => m
      | [d1] => cp (dn d0) (dis d0) (dos d0) (dn d1) (dis d1) (dos d1) vl
      | _ => vloop (dn d0) (dis d0) (dos d0) (copy_nd t vl cp)
      end
  end.

(** rdft/rank0.c:86-97 transposep (for rank >= 2) *)
Fixpoint transposep (d : list iodim) : bool :=
  match d with
  | [] => false
  | a :: t =>
      match t with
      | [] => false
      | [b] => (dn a =? dn b) && (dis a =? dos b) && (dos a =? dis b)
      | _ => (dis a =? dos a) && transposep t
      end
  end.

(** rdft/rank0.c:101-113 transpose.  [tr nx I n s0 s1 vl m] is the 2d in-place transpose. *)
Definition transpose_func := nat -> loc -> Z -> Z -> Z -> Z -> mem -> mem.
Fixpoint transpose_nd (d : list iodim) (vl : Z) (tr : transpose_func) : rapply :=
  match d with
  | [] => fun _ _ _ m => m
  | a :: t =>
      match t with
      | [] => fun _ _ _ m => m
      | [b] => fun nx I _ m => tr nx I (dn a) (dis a) (dos a) vl m
      | _ => fun nx I _ m => zfor (dn a) (fun i m => transpose_nd t vl tr nx (sh I (i * dis a)) (sh I (i * dis a)) m) m
      end
  end.

(** rdft/rank0.c:217-228 memcpy_loop; memcpy of [vl] reals is [mv vl]. *)
Fixpoint memcpy_loop (d : list iodim) (vl : Z) : rapply :=
  match d with
  | [] => fun _ _ _ m => m
  | [d0] => fun _ I O m => zfor (dn d0) (fun i => mv vl (sh I (i * dis d0)) (sh O (i * dos d0))) m
  | d0 :: t => vloop (dn d0) (dis d0) (dos d0) (memcpy_loop t vl)
  end.

(** The nine rank-0 solvers: for a problem with [I == O] iff [ip], extracted
    contiguous length [vl] and remaining dimensions [d], what [applicable] accepts
    and what [apply] does (rdft/rank0.c:117-303, table at 352-372). *)
Inductive rank0_solver (ip : bool) (vl : Z) (d : list iodim) : rapply -> Prop :=
| R0_memcpy :                                    (* rank0.c:195-210 *)
    ip = false -> d = [] -> 2 < vl -> rank0_solver ip vl d (fun _ I O m => mv vl I O m)
| R0_memcpy_loop :                               (* rank0.c:230-241 *)
    ip = false -> (0 < length d)%nat -> 2 < vl -> rank0_solver ip vl d (memcpy_loop d vl)
| R0_iter0 :                                     (* rank0.c:117-140, case 0 *)
    ip = false -> d = [] -> rank0_solver ip vl d (cpy1d vl 1 1 1)
| R0_iter1 d0 :                                  (* case 1 *)
    ip = false -> d = [d0] -> rank0_solver ip vl d (cpy1d (dn d0) (dis d0) (dos d0) vl)
| R0_iter :                                      (* default *)
    ip = false -> (2 <= length d)%nat -> rank0_solver ip vl d (copy_nd d vl cpy2d_ci)
| R0_cpy2dco :                                   (* rank0.c:144-162 *)
    ip = false -> (2 <= length d)%nat -> rank0_solver ip vl d (copy_nd d vl cpy2d_co)
| R0_tiled :                                     (* rank0.c:166-181 *)
    ip = false -> (2 <= length d)%nat -> 4 < compute_tilesz vl 1 -> rank0_solver ip vl d (copy_nd d vl cpy2d_tiled)
| R0_tiledbuf :                                  (* rank0.c:185-191 *)
    ip = false -> (2 <= length d)%nat -> 4 < compute_tilesz vl 1 -> rank0_solver ip vl d (copy_nd d vl cpy2d_tiledbuf)
| R0_ip_sq :                                     (* rank0.c:245-259 *)
    ip = true -> (2 <= length d)%nat -> transposep d = true ->
    rank0_solver ip vl d (transpose_nd d vl (fun _ => transpose))
| R0_ip_sq_tiled :                               (* rank0.c:263-278 *)
    ip = true -> (2 <= length d)%nat -> transposep d = true -> 4 < compute_tilesz vl 2 ->
    rank0_solver ip vl d (transpose_nd d vl (fun _ => transpose_tiled))
| R0_ip_sq_tiledbuf :                            (* rank0.c:282-289 *)
    ip = true -> (2 <= length d)%nat -> transposep d = true -> 4 < compute_tilesz vl 2 ->
    rank0_solver ip vl d (transpose_nd d vl transpose_tiledbuf).

(** ** rdft/vrank3-transpose.c *)

(** :60-70 gcd: do { r = a % b; a = b; b = r; } while (r != 0).  Fuel: [b] decreases. *)
Fixpoint gcd_fuel (fuel : nat) (a b : Z) : Z :=
  match fuel with
  | O => a
  | S f => let r := Z.rem a b in if r =? 0 then b else gcd_fuel f b r
  end.
Definition cgcd (a b : Z) : Z := gcd_fuel (S (Z.to_nat b)) a b.

(** :74-80 Ntuple_transposable *)
Definition Ntuple_transposable (a b : iodim) (vl vs : Z) : bool :=
  (vs =? 1) && (dis b =? vl) && (dos a =? vl) &&
  (((dn a =? dn b) && (dis a =? dos b) && (dn b <=? dis a) && (Z.rem (dis a) vl =? 0))
   || ((dis a =? dn b * vl) && (dos b =? dn a * vl))).

(** :173-225 apply_gcd.  [n], [m], [d] are nd, md, d; MALLOC'd [buf] is block nx. *)
Definition apply_gcd (n m d vl : Z) (cld1 cld2 cld3 : rapply) : rapply := fun nx I O mm =>
  let buf := (nx, 0) in
  let num_el := n * m * d * vl in
  let m1 := if 1 <? n
            then zfor d (fun i mm => mv num_el buf (sh I (i * num_el)) (cld1 (S nx) (sh I (i * num_el)) buf mm)) mm
            else mm in
  let m2 := cld2 (S nx) I I m1 in
  if 1 <? m
  then zfor d (fun i mm => mv num_el buf (sh I (i * num_el)) (cld3 (S nx) (sh I (i * num_el)) buf mm)) m2
  else m2.

(** :324-358 apply_cut; [zford n] runs i = n-1 .. 0. *)
Definition zford (n : Z) (body : Z -> mem -> mem) (m : mem) : mem :=
  zfor n (fun i => body (n - 1 - i)) m.
Definition apply_cut (n m nc mc vl : Z) (cld1 cld2 cld3 : rapply) : rapply := fun nx I O mm =>
  let buf1 := (nx, 0) in
  let m1 := if mc <? m then
              zfor nc (fun i => mv (mc * vl) (sh I (m * vl * i)) (sh I (mc * vl * i)))
                (cld1 (S nx) (sh I (mc * vl)) buf1 mm)
            else mm in
  let m2 := cld2 (S nx) I I m1 in
  let m3 := if nc <? n then
              let buf2 := sh buf1 ((m - mc) * (nc * vl)) in
              let m3a := mv ((n - nc) * (m * vl)) (sh I (nc * (m * vl))) buf2 m2 in
              let m3b := zford mc (fun i => mv (n * vl) (sh I (nc * vl * i)) (sh I (n * vl * i))) m3a in
              cld3 (S nx) buf2 (sh I (nc * vl)) m3b
            else m2 in
  if mc <? m then
    if nc <? n
    then zfor (m - mc) (fun j => mv (nc * vl) (sh buf1 (j * (nc * vl))) (sh I ((mc + j) * (n * vl)))) m3
    else mv ((m - mc) * (n * vl)) buf1 (sh I (mc * (n * vl))) m3
  else m3.

(** :361-365 cut1; MINBUFDIV, MAXBUF, CUT_NSRCH at :111-112,367 *)
Definition cut1 (n m vl : Z) : bool :=
  (Z.abs (n - m) * 9 <=? Z.max n m) || (Z.min n m * Z.abs (n - m) * vl <=? 65536).
(** :404-419, the search for the cut with the largest gcd.  Inner loop over [ns],
    with [cnt] iterations left; the result is (dc, nc, mc). *)
Fixpoint cut_inner (cnt : nat) (ns ms : Z) (st : Z * Z * Z) : Z * Z * Z :=
  match cnt with
  | O => st
  | S c =>
      if 0 <? ns then
        let '(dc, nc, mc) := st in
        let ds := cgcd ms ns in
        if dc <? ds then
          if ds =? Z.min ns ms then (ds, ns, ms) else cut_inner c (ns - 1) ms (ds, ns, ms)
        else cut_inner c (ns - 1) ms st
      else st
  end.
Fixpoint cut_outer (cnt : nat) (n ms : Z) (st : Z * Z * Z) : Z * Z * Z :=
  match cnt with
  | O => st
  | S c =>
      if 0 <? ms then
        let st' := cut_inner 32 n ms st in
        if fst (fst st') =? Z.min n ms then st' else cut_outer c n (ms - 1) st'
      else st
  end.
(** :399-421 the choice of (nc, mc) in mkcldrn_cut *)
Definition choose_cut (n m vl : Z) : Z * Z :=
  if cut1 n m vl then (Z.min n m, Z.min n m)
  else let '(_, nc, mc) := cut_outer 32 n m (cgcd m n, n, m) in (nc, mc).

(** :516-647 transpose_toms513.  An element is a tuple of [N] reals; a tuple move
    loads and stores [N] reals ([mv N]).  [move] is a separate byte map instead of
    the tail of the buffer.  The three nested loops carry a bound ([bits mn], at
    least [mn] iterations each); [None] means that the bound was reached, which the
    theorems exclude. *)
Section Toms.
  Context (a buf : loc) (nx ny N move_size : Z).
  Let k := ny * nx - 1.
  Let el (i : Z) : loc := sh a (N * i).
  (** :567 and :624 *)
  Definition toms_next (i1 : Z) : Z := ny * i1 - k * Z.quot i1 nx.
  Definition set_move (mv_ : Z -> bool) (i : Z) : Z -> bool :=
    if i <? move_size then fun x => if x =? i then true else mv_ x else mv_.

  Record rot := mkrot { r_i1 : Z; r_i1c : Z; r_move : Z -> bool; r_cnt : Z; r_m : mem }.
  (** :566-600, one turn of the rearranging loop; the boolean says whether b and c
      are exchanged on exit. *)
  Definition rot_body (i : Z) (s : rot) : stepres rot (rot * bool) :=
    let i2 := toms_next (r_i1 s) in
    let i2c := k - i2 in
    let mv2 := set_move (set_move (r_move s) (r_i1 s)) (r_i1c s) in
    let cnt := r_cnt s + 2 in
    if i2 =? i then Done (mkrot (r_i1 s) (r_i1c s) mv2 cnt (r_m s), false)
    else if i2 =? k - i then Done (mkrot (r_i1 s) (r_i1c s) mv2 cnt (r_m s), true)
    else Cont (mkrot i2 i2c mv2 cnt
                 (mv N (el i2c) (el (r_i1c s)) (mv N (el i2) (el (r_i1 s)) (r_m s)))).

  (** :623-626 while (i2 > i && i2 < max) i2 = next(i2) *)
  Definition chase_body (i max : Z) (i2 : Z) : stepres Z Z :=
    if (i <? i2) && (i2 <? max) then Cont (toms_next i2) else Done i2.

  (** :612-634, one turn of the search loop; state (i, im) *)
  Definition search_body (move : Z -> bool) (s : Z * Z) : stepres (Z * Z) (option (Z * Z)) :=
    let '(i0, im0) := s in
    let max := k - i0 in
    let i := i0 + 1 in
    let im1 := im0 + ny in
    let im := if k <? im1 then im1 - k else im1 in
    if i =? im then Cont (i, im)
    else if move_size <=? i then
      match loop (bits (k + 1)) (chase_body i max) im with
      | Done i2 => if i2 =? i then Done (Some (i, im)) else Cont (i, im)
      | Cont _ => Done None
      end
    else if negb (move i) then Done (Some (i, im)) else Cont (i, im).

  Record toms := mktoms { t_i : Z; t_im : Z; t_move : Z -> bool; t_cnt : Z; t_b : loc; t_c : loc; t_m : mem }.
  (** :548-637, one turn of the outer loop *)
  Definition toms_body (s : toms) : stepres toms (option mem) :=
    let i := t_i s in
    let kmi := k - i in
    let m1 := mv N (el kmi) (t_c s) (mv N (el i) (t_b s) (t_m s)) in
    match loop (bits (k + 1)) (rot_body i) (mkrot i kmi (t_move s) (t_cnt s) m1) with
    | Cont _ => Done None
    | Done (r, swp) =>
        let b := if swp then t_c s else t_b s in
        let c := if swp then t_b s else t_c s in
        let m2 := mv N c (el (r_i1c r)) (mv N b (el (r_i1 r)) (r_m r)) in
        if ny * nx <=? r_cnt r then Done (Some m2)
        else match loop (bits (k + 1)) (search_body (r_move r)) (i, t_im s) with
             | Cont _ | Done None => Done None
             | Done (Some (i', im')) => Cont (mktoms i' im' (r_move r) (r_cnt r) b c m2)
             end
    end.
  (** :529-547 initialisation *)
  Definition transpose_toms513 (m : mem) : option mem :=
    let ncount := 2 + (if (3 <=? ny) && (3 <=? nx) then cgcd (ny - 1) (nx - 1) - 1 else 0) in
    match loop (bits (k + 1)) toms_body (mktoms 1 ny (fun _ => false) ncount buf (sh buf N) m) with
    | Done r => r
    | Cont _ => None
    end.
End Toms.

(** :649-658 apply_toms513; the MALLOC'd buffer is block nx. *)
Definition apply_toms513 (n m vl : Z) : rapply := fun nx I _ mm =>
  match transpose_toms513 I (nx, 0) n m vl (Z.quot (n + m) 2) mm with
  | Some m' => m'
  | None => mm
  end.

(** ** The plans

    [rplanned0 qs ip vec f]: for a rank-0 rdft problem with vector tensor [vec]
    (as stored in the problem, i.e. canonical) and [I == O] iff [ip], the planner
    may return a plan whose apply function is [f].
    [rchild0]: the same for arguments of X(mkproblem_rdft), rdft/problem.c:135-206
    (which checks the in-place condition and canonicalises the tensor). *)
Section Plans.
  Context (qs : qsort_t).

  (** the dimensions (dim0, dim1, dim2) found by pickdim and get_transpose_vec
      (rdft/vrank3-transpose.c:90-109,148-157): [vec] has rank 2, or rank 3 and a
      vector dimension of equal strides. *)
  Inductive tr_dims (vec : list iodim) : iodim -> iodim -> Z -> Z -> Prop :=
  | TD2 a b : Permutation.Permutation vec [a; b] -> tr_dims vec a b 1 1
  | TD3 a b c : Permutation.Permutation vec [a; b; c] -> dis c = dos c -> tr_dims vec a b (dn c) (dis c).

  Inductive rplanned0 : bool -> list iodim -> rapply -> Prop :=
  | RP_nop vec :                         (* rdft/nop.c:33-48 case 2, apply :26-31 *)
      tensor_inplace_strides vec = true -> rplanned0 true vec (fun _ _ _ m => m)
  | RP_rank0 ip vec vl d f :             (* rdft/rank0.c:292-339 *)
      fill_iodim vec = Some (vl, d) -> rank0_solver ip vl d f -> rplanned0 ip vec f
  | RP_vrank ip vec i d f :              (* rdft/vrank-geq1.c:54-64, 86-104, 150-196; kernel/pickdim.c:28-59 *)
      nth_error vec i = Some d -> (ip = true -> dis d = dos d) ->
      rchild0 ip (tensor_copy_except vec i) f ->
      rplanned0 ip vec (vloop (dn d) (dis d) (dos d) f)
  | RP_gcd vec a b vl vs d c1 c2 c3 :    (* rdft/vrank3-transpose.c:173-294,722-758 *)
      tr_dims vec a b vl vs -> dn a <> dn b -> Ntuple_transposable a b vl vs = true ->
      d = cgcd (dn a) (dn b) -> 1 < d ->
      forall n m, n = Z.quot (dn a) d -> m = Z.quot (dn b) d ->
      (1 < n -> rchild0 false [mkdim n (d * m * vl) (m * vl); mkdim d (m * vl) (n * m * vl); mkdim (m * vl) 1 1] c1) ->
      rchild0 true [mkdim d (d * n * m * vl) (n * m * vl); mkdim d (n * m * vl) (d * n * m * vl); mkdim (n * m * vl) 1 1] c2 ->
      (1 < m -> rchild0 false [mkdim (d * n) (m * vl) vl; mkdim m vl (d * n * vl); mkdim vl 1 1] c3) ->
      rplanned0 true vec (apply_gcd n m d vl c1 c2 c3)
  | RP_cut vec a b vl vs nc mc c1 c2 c3 :  (* rdft/vrank3-transpose.c:324-472,722-758 *)
      tr_dims vec a b vl vs -> dn a <> dn b -> Ntuple_transposable a b vl vs = true ->
      choose_cut (dn a) (dn b) vl = (nc, mc) ->
      forall n m, n = dn a -> m = dn b ->
      (mc < m -> rchild0 false [mkdim nc (m * vl) vl; mkdim (m - mc) vl (nc * vl); mkdim vl 1 1] c1) ->
      rchild0 true [mkdim nc (mc * vl) vl; mkdim mc vl (nc * vl); mkdim vl 1 1] c2 ->
      (nc < n -> rchild0 false [mkdim (n - nc) (m * vl) vl; mkdim m vl (n * vl); mkdim vl 1 1] c3) ->
      rplanned0 true vec (apply_cut n m nc mc vl c1 c2 c3)
  | RP_toms vec a b vl vs :              (* rdft/vrank3-transpose.c:649-683,722-758 *)
      tr_dims vec a b vl vs -> dn a <> dn b -> Ntuple_transposable a b vl vs = true ->
      rplanned0 true vec (apply_toms513 (dn a) (dn b) vl)
  with rchild0 : bool -> list iodim -> rapply -> Prop :=
  | RC_empty ip vec :                    (* rdft/nop.c:38-39 case 1 *)
      (ip = true -> tensor_inplace_locations qs [] vec = true) ->
      tensor_compress_contiguous qs vec = None -> rchild0 ip vec (fun _ _ _ m => m)
  | RC_plan ip vec vec' f :
      (ip = true -> tensor_inplace_locations qs [] vec = true) ->
      tensor_compress_contiguous qs vec = Some vec' -> rplanned0 ip vec' f -> rchild0 ip vec f.
End Plans.
Scheme rplanned0_mut := Minimality for rplanned0 Sort Prop
  with rchild0_mut := Minimality for rchild0 Sort Prop.
Combined Scheme rplanned0_ind2 from rplanned0_mut, rchild0_mut.
