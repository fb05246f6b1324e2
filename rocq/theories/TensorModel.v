(** * Model of the tensor operations, kernel/tensor*.c

    A tensor of finite rank is the list of its dimensions; a tensor of rank
    RNK_MINFTY (kernel/ifftw.h:441-442) is [None].  INT arithmetic is modelled
    in Z (overflow of sizes and strides is not modelled here). *)
From Coq Require Import ZArith List Lia Bool Permutation.
From Verif Require Import Spec.
Import ListNotations.
Open Scope Z_scope.

(** The C library's qsort, of which the code uses only that it permutes its
    argument into an order in which no element is followed by one that must
    precede it.  The model is parameterised by it. *)
Definition qsort_t := (iodim -> iodim -> Z) -> list iodim -> list iodim.
Definition qsort_perm (qs : qsort_t) : Prop :=
  forall cmp l, Permutation l (qs cmp l).
(** sorted with respect to a comparison function: c(a,b) <= 0 for adjacent a, b *)
Fixpoint adj_sorted (cmp : iodim -> iodim -> Z) (l : list iodim) : Prop :=
  match l with
  | a :: ((b :: _) as t) => cmp a b <= 0 /\ adj_sorted cmp t
  | _ => True
  end.
(** A concrete qsort: insertion sort (stable). *)
Fixpoint insert (cmp : iodim -> iodim -> Z) (x : iodim) (l : list iodim) : list iodim :=
  match l with
  | [] => [x]
  | y :: t => if cmp x y <=? 0 then x :: l else y :: insert cmp x t
  end.
Definition isort : qsort_t := fun cmp l => fold_right (insert cmp) [] l.

(** X(tensor_sz), kernel/tensor.c:61-72 *)
Fixpoint tensor_sz (t : list iodim) : Z :=
  match t with [] => 1 | d :: t' => dn d * tensor_sz t' end.

(** X(tensor_tornk1), kernel/tensor.c:90-103, for rank <= 1 *)
Definition tensor_tornk1 (t : list iodim) : option (Z * Z * Z) :=
  match t with
  | [] => Some (1, 0, 0)
  | [d] => Some (dn d, dis d, dos d)
  | _ => None
  end.

(** X(tensor_max_index), X(tensor_min_istride), X(tensor_min_ostride),
    X(tensor_min_stride), kernel/tensor4.c:24-54 *)
Definition tensor_max_index (t : list iodim) : Z :=
  Z.max (fold_right (fun d s => (dn d - 1) * Z.abs (dis d) + s) 0 t)
        (fold_right (fun d s => (dn d - 1) * Z.abs (dos d) + s) 0 t).
Definition tensor_min_xstride (xs : iodim -> Z) (t : list iodim) : Z :=
  match t with
  | [] => 0
  | d :: t' => fold_left (fun s e => Z.min s (Z.abs (xs e))) t' (Z.abs (xs d))
  end.
Definition tensor_min_istride := tensor_min_xstride dis.
Definition tensor_min_ostride := tensor_min_xstride dos.
Definition tensor_min_stride (t : list iodim) : Z :=
  Z.min (tensor_min_istride t) (tensor_min_ostride t).

(** X(tensor_inplace_strides), X(tensor_inplace_strides2), kernel/tensor4.c:56-71 *)
Definition tensor_inplace_strides (t : list iodim) : bool :=
  forallb (fun d => dis d =? dos d) t.
Definition tensor_inplace_strides2 (a b : list iodim) : bool :=
  tensor_inplace_strides a && tensor_inplace_strides b.

(** inplace_kind, kernel/ifftw.h:449 *)
Inductive inplace_kind := INPLACE_IS | INPLACE_OS.

(** X(tensor_strides_decrease), kernel/tensor4.c:73-105 *)
Definition tensor_strides_decrease1 (t : list iodim) (k : inplace_kind) : bool :=
  existsb (fun d => (dos d - dis d) * (match k with INPLACE_OS => 1 | INPLACE_IS => -1 end) <? 0) t.
Definition tensor_strides_decrease (sz vecsz : list iodim) (k : inplace_kind) : bool :=
  tensor_strides_decrease1 sz k || (tensor_inplace_strides sz && tensor_strides_decrease1 vecsz k).

(** X(tensor_copy_inplace), kernel/tensor5.c:41-54 *)
Definition dim_inplace (k : inplace_kind) (d : iodim) : iodim :=
  match k with
  | INPLACE_OS => mkdim (dn d) (dos d) (dos d)
  | INPLACE_IS => mkdim (dn d) (dis d) (dis d)
  end.
Definition tensor_copy_inplace (t : list iodim) (k : inplace_kind) : list iodim :=
  map (dim_inplace k) t.

(** X(tensor_copy_except), kernel/tensor5.c:58-68 *)
Definition tensor_copy_except (t : list iodim) (i : nat) : list iodim :=
  firstn i t ++ skipn (S i) t.

(** X(tensor_copy_sub), kernel/tensor5.c:72-80 *)
Definition tensor_copy_sub (t : list iodim) (start rnk : nat) : list iodim :=
  firstn rnk (skipn start t).

(** X(tensor_append), kernel/tensor5.c:82-92 *)
Definition tensor_append (a b : option (list iodim)) : option (list iodim) :=
  match a, b with Some a, Some b => Some (a ++ b) | _, _ => None end.

(** X(tensor_split), kernel/tensor7.c:171-177 *)
Definition tensor_split (t : list iodim) (arnk : nat) : list iodim * list iodim :=
  (tensor_copy_sub t 0 arnk, tensor_copy_sub t arnk (length t - arnk)).

(** X(dimcmp), kernel/tensor7.c:24-52 *)
Definition dimcmp (a b : iodim) : Z :=
  let sai := Z.abs (dis a) in let sbi := Z.abs (dis b) in
  let sao := Z.abs (dos a) in let sbo := Z.abs (dos b) in
  let sam := Z.min sai sao in let sbm := Z.min sbi sbo in
  if negb (sam =? sbm) then Z.sgn (sbm - sam)
  else if negb (sbi =? sai) then Z.sgn (sbi - sai)
  else if negb (sbo =? sao) then Z.sgn (sbo - sao)
  else Z.sgn (dn a - dn b).

(** canonicalize, kernel/tensor7.c:54-60 *)
Definition canonicalize (qs : qsort_t) (t : list iodim) : list iodim :=
  if Nat.ltb 1 (length t) then qs dimcmp t else t.

(** compare_by_istride, kernel/tensor7.c:62-68 *)
Definition compare_by_istride (a b : iodim) : Z := Z.sgn (Z.abs (dis b) - Z.abs (dis a)).

(** really_compress, kernel/tensor7.c:70-88 (its assertion n > 0 is a
    hypothesis of the theorems) *)
Definition really_compress (t : list iodim) : list iodim :=
  filter (fun d => negb (dn d =? 1)) t.

(** X(tensor_compress), kernel/tensor7.c:99-104 *)
Definition tensor_compress (qs : qsort_t) (t : list iodim) : list iodim :=
  canonicalize qs (really_compress t).

(** strides_contig, kernel/tensor7.c:108-111 *)
Definition strides_contig (a b : iodim) : bool :=
  (dis a =? dis b * dn b) && (dos a =? dos b * dn b).

(** The merging loop of X(tensor_compress_contiguous), kernel/tensor7.c:146-164.
    [prev] is sz2->dims[i-1], [cur] is x->dims[rnk-1], the dimension being
    accumulated; the first pass that only computes the final rank is not
    needed with lists. *)
Fixpoint merge_loop (prev cur : iodim) (rest : list iodim) : list iodim :=
  match rest with
  | [] => [cur]
  | d :: rest' =>
      if strides_contig prev d
      then merge_loop d (mkdim (dn cur * dn d) (dis d) (dos d)) rest'
      else cur :: merge_loop d d rest'
  end.

(** X(tensor_compress_contiguous), kernel/tensor7.c:116-167 *)
Definition tensor_compress_contiguous (qs : qsort_t) (t : list iodim) : option (list iodim) :=
  if tensor_sz t =? 0 then None
  else
    let sz2 := really_compress t in
    if Nat.leb (length sz2) 1 then Some sz2
    else match qs compare_by_istride sz2 with
         | [] => Some []
         | d :: rest => Some (canonicalize qs (merge_loop d d rest))
         end.

(** X(tensor_equal), kernel/tensor7.c:180-197 *)
Definition dim_eqb (a b : iodim) : bool :=
  (dn a =? dn b) && (dis a =? dis b) && (dos a =? dos b).
Fixpoint dims_equal (a b : list iodim) : bool :=
  match a, b with
  | [], [] => true
  | x :: a', y :: b' => dim_eqb x y && dims_equal a' b'
  | _, _ => false
  end.
Definition tensor_equal (a b : option (list iodim)) : bool :=
  match a, b with
  | None, None => true
  | Some a, Some b => dims_equal a b
  | _, _ => false
  end.

(** X(tensor_inplace_locations), kernel/tensor7.c:201-215 *)
Definition tensor_inplace_locations (qs : qsort_t) (sz vecsz : list iodim) : bool :=
  let t := sz ++ vecsz in
  tensor_equal (tensor_compress_contiguous qs (tensor_copy_inplace t INPLACE_IS))
               (tensor_compress_contiguous qs (tensor_copy_inplace t INPLACE_OS)).

(** X(tensor_kosherp), kernel/tensor9.c:24-37 *)
Definition tensor_kosherp (t : list iodim) : bool := forallb (fun d => negb (dn d <? 0)) t.
