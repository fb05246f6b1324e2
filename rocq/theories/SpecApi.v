(** * Specification of the user-visible interleaved interface.

    No model of C code here.  Sizes and strides are those the user passes
    (counted in complex numbers); a complex array is the location of its first
    real number, real and imaginary parts alternating. *)
From Coq Require Import Reals ZArith List Lia Bool.
From Verif Require Import Cplx Spec.
Import ListNotations.
Open Scope Z_scope.

(** complex element number [o] of the array at [p] *)
Definition celt (m : mem) (p : loc) (o : Z) : C := (m (sh p (2 * o)), m (sh p (2 * o + 1))).

(** exp(s * 2 pi i k / n) *)
Definition root (s n k : Z) : C := cis (IZR s * (2 * PI * IZR k / IZR n))%R.

(** [sdft s dims x ks]: sum over all multi-indices js of
      x(ioff dims js) * prod_d exp(s * 2 pi i js_d ks_d / n_d) *)
Fixpoint sdft (s : Z) (dims : list iodim) (x : Z -> C) (ks : list Z) : C :=
  match dims, ks with
  | d :: dims', k :: ks' =>
      Csum (dn d) (fun j => sdft s dims' (fun o => x (j * dis d + o)%Z) ks' * root s (dn d) (j * k)%Z)%C
  | _, _ => x 0
  end.

(** after execution the output array holds, for every howmany index, the
    transform of what the input array held before *)
Definition transforms (s : Z) (dims hm : list iodim) (inp out : loc) (m m' : mem) : Prop :=
  forall vs ks, in_box hm vs -> in_box dims ks ->
    celt m' out (ooff hm vs + ooff dims ks) = sdft s dims (fun o => celt m inp (ioff hm vs + o)) ks.

(** the real locations of the arrays *)
Definition in_array (p : loc) (t : list iodim) (l : loc) : Prop :=
  exists ks, in_box t ks /\ (l = sh p (2 * ioff t ks) \/ l = sh p (2 * ioff t ks + 1)).
Definition out_array (p : loc) (t : list iodim) (l : loc) : Prop :=
  exists ks, in_box t ks /\ (l = sh p (2 * ooff t ks) \/ l = sh p (2 * ooff t ks + 1)).

(** Distinct indices name distinct elements, on both sides. *)
Definition distinct_indices (t : list iodim) : Prop :=
  (forall ks js, in_box t ks -> in_box t js -> ioff t ks = ioff t js -> ks = js) /\
  (forall ks js, in_box t ks -> in_box t js -> ooff t ks = ooff t js -> ks = js).

(** The arrays are the same or do not overlap. *)
Definition same_or_disjoint (t : list iodim) (inp out : loc) : Prop :=
  inp = out \/ (forall l, in_array inp t l -> out_array out t l -> False).

(** All strides of the dimensions of length other than 1 of one side have the same sign,
    and in place also both sides agree.  (Negative strides are allowed, but not
    mixed with positive ones on the same side.) *)
Definition sign_consistent (inplace : Prop) (t : list iodim) : Prop :=
  exists a b, (a = 1 \/ a = -1) /\ (b = 1 \/ b = -1) /\ (inplace -> a = b) /\
    Forall (fun d => dn d <> 1 -> 0 <= a * dis d /\ 0 <= b * dos d) t.

(** ** Multi-indices *)
(** the transform as a function of multi-indices, for sizes [ns] *)
Fixpoint idft (s : Z) (ns : list Z) (x : list Z -> C) (ks : list Z) : C :=
  match ns, ks with
  | n :: ns', k :: ks' => Csum n (fun j => idft s ns' (fun js => x (j :: js)) ks' * root s n (j * k)%Z)%C
  | _, _ => x []
  end.

(** row-major position of the multi-index ks in an array whose dimensions
    i, i+1, ... have lengths e i, e (i+1), ...:
    (((k_i * e_{i+1} + k_{i+1}) * e_{i+2} + ...)) *)
Fixpoint horner (e : Z -> Z) (i : Z) (acc : Z) (ks : list Z) : Z :=
  match ks with
  | [] => acc
  | k :: ks' => horner e (i + 1) (acc * e i + k) ks'
  end.
Fixpoint prodfrom (e : Z -> Z) (i : Z) (k : nat) : Z :=   (* e_i * ... * e_{i+k-1} *)
  match k with O => 1 | S k' => e i * prodfrom e (i + 1) k' end.
(** dimension i of a row-major array embedded in ei (input) and eo (output) *)
Definition rm_dim (n ei eo : Z -> Z) (is os last i : Z) : iodim :=
  mkdim (n i) (is * prodfrom ei (i + 1) (Z.to_nat (last - i))) (os * prodfrom eo (i + 1) (Z.to_nat (last - i))).
Definition rowmajor (rank : Z) (n inembed onembed : Z -> Z) (istride ostride : Z) : list iodim :=
  map (rm_dim n inembed onembed istride ostride (rank - 1)) (map Z.of_nat (seq 0 (Z.to_nat rank))).
(** number of elements *)
Definition total (rank : Z) (n : Z -> Z) : Z := prodfrom n 0 (Z.to_nat rank).
