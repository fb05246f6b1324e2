(** * Specification of the real-to-complex and complex-to-real transforms
    (doc/reference.texi, "Real-data DFTs" and "Real-data DFT Array Format").

    No model of C code here.  A real array holds the n_1 x ... x n_d elements; a
    complex array holds only those coefficients whose last index is at most
    n_d/2.  For r2c the input strides refer to the real array and the output
    strides to the complex one; for c2r it is the other way round.  A complex
    array is given by the locations of the real and of the imaginary part of its first element. *)
From Coq Require Import Reals ZArith List Lia Bool.
From Verif Require Import Cplx Spec SpecApi SpecR2R.
Import ListNotations.
Open Scope Z_scope.

(** offsets in the real and in the complex array *)
Definition roff (c2r : bool) : list iodim -> list Z -> Z := if c2r then ooff else ioff.
Definition coff (c2r : bool) : list iodim -> list Z -> Z := if c2r then ioff else ooff.
Definition rstride (c2r : bool) (d : iodim) : Z := if c2r then dos d else dis d.
Definition cstride (c2r : bool) (d : iodim) : Z := if c2r then dis d else dos d.

(** the last dimension (a transform of rank 0 has one element) and the others *)
Definition row_of (sz : list iodim) : iodim := last sz (mkdim 1 0 0).
Definition outer_of (sz : list iodim) : list iodim := removelast sz.
(** the indices of the complex array: the last dimension is cut to n/2+1 *)
Definition half (sz : list iodim) : list iodim :=
  match sz with
  | [] => []
  | _ => outer_of sz ++ [mkdim (dn (row_of sz) / 2 + 1) (dis (row_of sz)) (dos (row_of sz))]
  end.

(** ** r2c: the output holds the coefficients of the forward DFT of the real input *)
Definition is_r2c (sz vec : list iodim) (inp : loc) (out : cptr) (m m' : mem) : Prop :=
  forall vs ks, in_box vec vs -> in_box (half sz) ks ->
    rdc m' out (ooff vec vs + ooff sz ks) = sdft (-1) sz (fun o => RtoC (m (sh inp (ioff vec vs + o)%Z))) ks.

(** ** c2r: the input is the half of an array H with H(-k) = conj H(k), and the
    output is its (real, unnormalised) backward DFT *)
Fixpoint mirror (sz : list iodim) (ks : list Z) : list Z :=
  match sz, ks with
  | d :: sz', k :: ks' => (- k) mod dn d :: mirror sz' ks'
  | _, _ => []
  end.
Definition hermitian (sz : list iodim) (H : list Z -> C) : Prop :=
  forall ks, in_box sz ks -> H (mirror sz ks) = Cplx.conj (H ks).
Definition is_c2r (sz vec : list iodim) (inp : cptr) (out : loc) (m m' : mem) : Prop :=
  forall vs H, in_box vec vs -> hermitian sz H ->
    (forall ks, in_box (half sz) ks -> H ks = rdc m inp (ioff vec vs + ioff sz ks)) ->
    forall js, in_box sz js -> RtoC (m' (sh out (ooff vec vs + ooff sz js))) = idft 1 (map dn sz) H js.

(** ** Arrays *)
Definition real_loc (c2r : bool) (r : loc) (t : list iodim) (l : loc) : Prop :=
  exists ks, in_box t ks /\ l = sh r (roff c2r t ks).
Definition cplx_loc (c2r : bool) (c : cptr) (t : list iodim) (l : loc) : Prop :=
  exists ks, in_box t ks /\ (l = sh (fst c) (coff c2r t ks) \/ l = sh (snd c) (coff c2r t ks)).
(** the locations that the row number ps occupies in either array *)
Definition row_loc (c2r : bool) (sz vec : list iodim) (r : loc) (c : cptr) (ps : list Z) (l : loc) : Prop :=
  let t := outer_of sz ++ vec in let d := row_of sz in
  (exists j, 0 <= j < dn d /\ l = sh r (roff c2r t ps + j * rstride c2r d)) \/
  (exists k, 0 <= k < dn d / 2 + 1 /\
     (l = sh (fst c) (coff c2r t ps + k * cstride c2r d) \/ l = sh (snd c) (coff c2r t ps + k * cstride c2r d))).

(** Distinct indices name distinct elements; the arrays do not overlap, or they
    start at the same location, and then different rows stay apart and the strides
    from row to row are the same in both arrays. *)
Record good_rc (c2r : bool) (sz vec : list iodim) (r : loc) (c : cptr) : Prop := {
  grc_sz : Forall (fun d => 0 < dn d) sz;
  grc_vec : Forall (fun d => 0 <= dn d) vec;
  grc_r : forall ks js, in_box (sz ++ vec) ks -> in_box (sz ++ vec) js ->
            roff c2r (sz ++ vec) ks = roff c2r (sz ++ vec) js -> ks = js;
  grc_c : forall ks js, in_box (half sz ++ vec) ks -> in_box (half sz ++ vec) js ->
            (coff c2r (half sz ++ vec) ks = coff c2r (half sz ++ vec) js -> ks = js) /\
            sh (fst c) (coff c2r (half sz ++ vec) ks) <> sh (snd c) (coff c2r (half sz ++ vec) js);
  grc_overlap :
    (r <> fst c /\ forall l, real_loc c2r r (sz ++ vec) l -> cplx_loc c2r c (half sz ++ vec) l -> False) \/
    (r = fst c /\ same_strides (outer_of sz ++ vec) /\
     forall ps qs l, in_box (outer_of sz ++ vec) ps -> in_box (outer_of sz ++ vec) qs ->
       row_loc c2r sz vec r c ps l -> row_loc c2r sz vec r c qs l -> ps = qs);
  (* strides of the complex array: not both positive and negative ones *)
  grc_sign : exists s, (s = 1 \/ s = -1) /\ Forall (fun d => dn d <> 1 -> 0 <= s * cstride c2r d) (sz ++ vec)
}.

(** what is left alone: everything but the output array and, unless [nd], the input array *)
Definition untouched_r2c (nd : bool) (nx : nat) (sz vec : list iodim) (r : loc) (c : cptr) (m m' : mem) : Prop :=
  forall l, (fst l < nx)%nat -> ~ cplx_loc false c (half sz ++ vec) l ->
    (nd = true \/ ~ real_loc false r (sz ++ vec) l) -> m' l = m l.
Definition untouched_c2r (nd : bool) (nx : nat) (sz vec : list iodim) (c : cptr) (r : loc) (m m' : mem) : Prop :=
  forall l, (fst l < nx)%nat -> ~ real_loc true r (sz ++ vec) l ->
    (nd = true \/ ~ cplx_loc true c (half sz ++ vec) l) -> m' l = m l.

(** ** Interleaved complex arrays: strides of the complex array count complex numbers *)
Definition in_reals (c2r : bool) (t : list iodim) : list iodim :=
  map (fun d => if c2r then mkdim (dn d) (2 * dis d) (dos d) else mkdim (dn d) (dis d) (2 * dos d)) t.
Definition is_r2c_il (sz hm : list iodim) (inp out : loc) (m m' : mem) : Prop :=
  forall vs ks, in_box hm vs -> in_box (half sz) ks ->
    celt m' out (ooff hm vs + ooff sz ks) = sdft (-1) sz (fun o => RtoC (m (sh inp (ioff hm vs + o)%Z))) ks.
Definition is_c2r_il (sz hm : list iodim) (inp out : loc) (m m' : mem) : Prop :=
  forall vs H, in_box hm vs -> hermitian sz H ->
    (forall ks, in_box (half sz) ks -> H ks = celt m inp (ioff hm vs + ioff sz ks)) ->
    forall js, in_box sz js -> RtoC (m' (sh out (ooff hm vs + ooff sz js))) = idft 1 (map dn sz) H js.

(** ** The same in terms of sizes only *)
Fixpoint negidx (ns ks : list Z) : list Z :=
  match ns, ks with
  | n :: ns', k :: ks' => (- k) mod n :: negidx ns' ks'
  | _, _ => []
  end.
(** H(-k) = conj H(k), indices modulo the sizes *)
Definition hermitian_n (ns : list Z) (H : list Z -> C) : Prop :=
  forall ks, Forall2 (fun n k => 0 <= k < n) ns ks -> H (negidx ns ks) = Cplx.conj (H ks).
(** multi-indices of an array with dimensions n 0, ..., n (rank-1) *)
Definition inrange (rank : Z) (n : Z -> Z) (ks : list Z) : Prop :=
  Z.of_nat (length ks) = rank /\ forall i, (i < length ks)%nat -> 0 <= nth i ks 0 < n (Z.of_nat i).
