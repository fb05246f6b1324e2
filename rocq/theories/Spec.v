(** * Specification of the transforms, independent of FFTW's algorithms.

    This file contains no model of C code.  It fixes what an array
    descriptor (FFTW "guru" dimensions, doc/reference.texi, "Guru vector and
    transform sizes") means, and what it means to be the unnormalised
    multi-dimensional DFT with sign -1. *)
From Coq Require Import Reals ZArith List Lia Bool.
From Verif Require Import Cplx.
Import ListNotations.
Open Scope Z_scope.

(** One dimension: length, input stride, output stride (struct fftw_iodim). *)
Record iodim := mkdim { dn : Z; dis : Z; dos : Z }.

(** A multi-index [ks] lies in the box described by the dimensions. *)
Fixpoint in_box (t : list iodim) (ks : list Z) : Prop :=
  match t, ks with
  | [], [] => True
  | d :: t', k :: ks' => 0 <= k < dn d /\ in_box t' ks'
  | _, _ => False
  end.

(** Input / output offset of a multi-index. *)
Fixpoint ioff (t : list iodim) (ks : list Z) : Z :=
  match t, ks with
  | d :: t', k :: ks' => k * dis d + ioff t' ks'
  | _, _ => 0
  end.
Fixpoint ooff (t : list iodim) (ks : list Z) : Z :=
  match t, ks with
  | d :: t', k :: ks' => k * dos d + ooff t' ks'
  | _, _ => 0
  end.

(** [mdft sz x ks] = sum over all multi-indices js of
      x(ioff sz js) * prod_d exp(-2 pi i js_d ks_d / n_d),
    where [x o] is the input element stored at offset [o]. *)
Fixpoint mdft (sz : list iodim) (x : Z -> C) (ks : list Z) : C :=
  match sz, ks with
  | d :: sz', k :: ks' =>
      Csum (dn d) (fun j => mdft sz' (fun o => x (j * dis d + o)%Z) ks' * W (dn d) (j * k)%Z)%C
  | _, _ => x 0
  end.

(** ** Memory

    A location is a block (an allocation unit: a user array or a buffer
    allocated by the library) and an offset counted in real numbers.  A memory
    assigns a real number to every location. *)
Definition loc : Type := (nat * Z)%type.
Definition mem : Type := loc -> R.
Definition sh (p : loc) (o : Z) : loc := (fst p, snd p + o).

(** A complex array is given by two pointers, to its real and its imaginary
    parts (FFTW's "split" format; the interleaved format is the special case
    [im = re + 1]). *)
Definition cptr : Type := (loc * loc)%type.
Definition csh (p : cptr) (o : Z) : cptr := (sh (fst p) o, sh (snd p) o).

(** The complex number at offset [o]. *)
Definition rdc (m : mem) (p : cptr) (o : Z) : C := (m (sh (fst p) o), m (sh (snd p) o)).

(** [l] is one of the locations of the array [p] over the offsets of [t]. *)
Definition in_loc (p : cptr) (t : list iodim) (l : loc) : Prop :=
  exists ks, in_box t ks /\ (l = sh (fst p) (ioff t ks) \/ l = sh (snd p) (ioff t ks)).
Definition out_loc (p : cptr) (t : list iodim) (l : loc) : Prop :=
  exists ks, in_box t ks /\ (l = sh (fst p) (ooff t ks) \/ l = sh (snd p) (ooff t ks)).

(** The output array contains, for every element of the vector loop [vec], the
    multi-dimensional DFT over [sz] of the input array. *)
Definition is_transform (sz vec : list iodim) (pi po : cptr) (m m' : mem) : Prop :=
  forall vs ks, in_box vec vs -> in_box sz ks ->
    rdc m' po (ooff vec vs + ooff sz ks) =
    mdft sz (fun o => rdc m pi (ioff vec vs + o)) ks.

(** Conditions on the arrays under which a transform may be planned: lengths
    are positive (vector lengths may be 0), distinct indices name distinct
    locations, real and imaginary parts do not overlap, and input and output
    arrays are either exactly the same set of locations or disjoint. *)
Definition distinct_in (p : cptr) (t : list iodim) : Prop :=
  (forall ks js, in_box t ks -> in_box t js -> ioff t ks = ioff t js -> ks = js) /\
  (forall ks js, in_box t ks -> in_box t js -> sh (fst p) (ioff t ks) <> sh (snd p) (ioff t js)).
Definition distinct_out (p : cptr) (t : list iodim) : Prop :=
  (forall ks js, in_box t ks -> in_box t js -> ooff t ks = ooff t js -> ks = js) /\
  (forall ks js, in_box t ks -> in_box t js -> sh (fst p) (ooff t ks) <> sh (snd p) (ooff t js)).

Record good_arrays (sz vec : list iodim) (pi po : cptr) : Prop := {
  ga_sz : Forall (fun d => 0 < dn d) sz;
  ga_vec : Forall (fun d => 0 <= dn d) vec;
  ga_in : distinct_in pi (sz ++ vec);
  ga_out : distinct_out po (sz ++ vec);
  ga_overlap : pi = po \/ (forall l, in_loc pi (sz ++ vec) l -> out_loc po (sz ++ vec) l -> False)
}.
