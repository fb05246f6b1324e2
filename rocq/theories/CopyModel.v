(** * Model of the copy and square-transpose kernels (kernel/cpy1d.c,
    kernel/cpy2d.c, kernel/cpy2d-pair.c, kernel/tile2d.c, kernel/transpose.c).

    Pointers are [loc]s, [R] elements are reals.  Stack buffers are modelled as
    fresh blocks: block [nx] is the first unused one.  A [for] loop that steps a
    pointer ([I += is0]) is modelled by indexing ([I + i * is0]). *)
From Coq Require Import Reals ZArith List Lia Bool.
From Verif Require Import NumTheory Cplx Spec Base PrimesModel TensorModel Offs XForm XKern.
Import ListNotations.
Open Scope Z_scope.

(** Load I[0..k-1] into registers, then store them to O[0..k-1]
    (the unrolled loop bodies of kernel/cpy1d.c:32-33,41-46,53-62 and
    kernel/cpy2d.c:46-49,65-68,81-84,87-92,98-103; the WIDE_TYPE and double accesses move the
    same two reals). *)
Definition mv (k : Z) (I O : loc) (m : mem) : mem :=
  stores O (map (fun v => (v, m (sh I v))) (zr k)) m.

(** kernel/cpy1d.c:24-70.  The [switch] falls through from case 1 to case 2 to
    case 4, merging contiguous elements. *)
Definition cpy1d_4 (I O : loc) (n0 is0 os0 : Z) (m : mem) : mem :=
  zfor n0 (fun i => mv 4 (sh I (i * is0)) (sh O (i * os0))) m.
Definition cpy1d_2 (I O : loc) (n0 is0 os0 : Z) (m : mem) : mem :=
  if Z.odd n0 || negb (is0 =? 2) || negb (os0 =? 2)
  then zfor n0 (fun i => mv 2 (sh I (i * is0)) (sh O (i * os0))) m
  else cpy1d_4 I O (Z.quot n0 2) 4 4 m.
Definition cpy1d_1 (I O : loc) (n0 is0 os0 : Z) (m : mem) : mem :=
  if Z.odd n0 || negb (is0 =? 1) || negb (os0 =? 1)
  then zfor n0 (fun i => mv 1 (sh I (i * is0)) (sh O (i * os0))) m
  else cpy1d_2 I O (Z.quot n0 2) 2 2 m.
Definition cpy1d (n0 is0 os0 vl : Z) : rapply := fun _ I O m =>
  if vl =? 1 then cpy1d_1 I O n0 is0 os0 m
  else if vl =? 2 then cpy1d_2 I O n0 is0 os0 m
  else if vl =? 4 then cpy1d_4 I O n0 is0 os0 m
  else zfor n0 (fun i0 => zfor vl (fun v => mv 1 (sh I (i0 * is0 + v)) (sh O (i0 * os0 + v)))) m.

(** kernel/cpy2d.c:36-105.  The three variants of case 2 differ only in the
    width of the machine accesses. *)
Definition cpy2d (n0 is0 os0 n1 is1 os1 vl : Z) : rapply := fun _ I O m =>
  if vl =? 1 then
    zfor n1 (fun i1 => zfor n0 (fun i0 => mv 1 (sh I (i0 * is0 + i1 * is1)) (sh O (i0 * os0 + i1 * os1)))) m
  else if vl =? 2 then
    zfor n1 (fun i1 => zfor n0 (fun i0 => mv 2 (sh I (i0 * is0 + i1 * is1)) (sh O (i0 * os0 + i1 * os1)))) m
  else
    zfor n1 (fun i1 => zfor n0 (fun i0 => zfor vl (fun v =>
      mv 1 (sh I (i0 * is0 + i1 * is1 + v)) (sh O (i0 * os0 + i1 * os1 + v))))) m.

(** kernel/cpy2d.c:108-117 *)
Definition cpy2d_ci (n0 is0 os0 n1 is1 os1 vl : Z) : rapply :=
  if Z.abs is0 <? Z.abs is1 then cpy2d n0 is0 os0 n1 is1 os1 vl else cpy2d n1 is1 os1 n0 is0 os0 vl.
(** kernel/cpy2d.c:120-129 *)
Definition cpy2d_co (n0 is0 os0 n1 is1 os1 vl : Z) : rapply :=
  if Z.abs os0 <? Z.abs os1 then cpy2d n0 is0 os0 n1 is1 os1 vl else cpy2d n1 is1 os1 n0 is0 os0 vl.

(** kernel/tile2d.c:24-47, with explicit fuel (see [tile2d]).  [f n0l n0u n1l n1u]
    is the callback. *)
Fixpoint tile2d_fuel (fuel : nat) (n0l n0u n1l n1u tilesz : Z) (f : Z -> Z -> Z -> Z -> mem -> mem) (m : mem) : mem :=
  match fuel with
  | O => m
  | S fu =>
      let d0 := n0u - n0l in let d1 := n1u - n1l in
      if (d1 <=? d0) && (tilesz <? d0) then
        let n0m := Z.quot (n0u + n0l) 2 in
        tile2d_fuel fu n0m n0u n1l n1u tilesz f (tile2d_fuel fu n0l n0m n1l n1u tilesz f m)
      else if tilesz <? d1 then
        let n1m := Z.quot (n1u + n1l) 2 in
        tile2d_fuel fu n0l n0u n1m n1u tilesz f (tile2d_fuel fu n0l n0u n1l n1m tilesz f m)
      else f n0l n0u n1l n1u m
  end.
(** The recursion depth of the C function is bounded by the sum of the side
    lengths when [tilesz > 0] (asserted at kernel/tile2d.c:30); the fuel is that bound.
    The theorems show that it is enough. *)
Definition tile2d (n0l n0u n1l n1u tilesz : Z) (f : Z -> Z -> Z -> Z -> mem -> mem) (m : mem) : mem :=
  tile2d_fuel (S (Z.to_nat (n0u - n0l + (n1u - n1l)))) n0l n0u n1l n1u tilesz f m.

Definition CACHESIZE : Z := 8192.    (* kernel/ifftw.h:959 *)
Definition sizeof_R : Z := 8.         (* kernel/ifftw.h:77, double precision build *)
Definition INTMAX : Z := 2 ^ 63 - 1.  (* INT is ptrdiff_t, kernel/ifftw.h:85 *)

(** kernel/tile2d.c:49-53 *)
Definition compute_tilesz (vl how_many : Z) : Z :=
  match isqrt INTMAX (Z.quot CACHESIZE (sizeof_R * vl * how_many)) with Ret g => g | _ => 0 end.

(** kernel/cpy2d.c:139-147 dotile *)
Definition cpy_dotile (I O : loc) (is0 os0 is1 os1 vl : Z) (n0l n0u n1l n1u : Z) (m : mem) : mem :=
  cpy2d (n0u - n0l) is0 os0 (n1u - n1l) is1 os1 vl 0%nat
    (sh I (n0l * is0 + n1l * is1)) (sh O (n0l * os0 + n1l * os1)) m.
(** kernel/cpy2d.c:149-166 dotile_buf *)
Definition cpy_dotile_buf (buf I O : loc) (is0 os0 is1 os1 vl : Z) (n0l n0u n1l n1u : Z) (m : mem) : mem :=
  let m1 := cpy2d_ci (n0u - n0l) is0 vl (n1u - n1l) is1 (vl * (n0u - n0l)) vl 0%nat
              (sh I (n0l * is0 + n1l * is1)) buf m in
  cpy2d_co (n0u - n0l) vl os0 (n1u - n1l) (vl * (n0u - n0l)) os1 vl 0%nat
    buf (sh O (n0l * os0 + n1l * os1)) m1.
(** kernel/cpy2d.c:169-186 *)
Definition cpy2d_tiled (n0 is0 os0 n1 is1 os1 vl : Z) : rapply := fun _ I O m =>
  tile2d 0 n0 0 n1 (compute_tilesz vl 2) (cpy_dotile I O is0 os0 is1 os1 vl) m.
(** kernel/cpy2d.c:188-207; the stack array [buf] is block [nx]. *)
Definition cpy2d_tiledbuf (n0 is0 os0 n1 is1 os1 vl : Z) : rapply := fun nx I O m =>
  tile2d 0 n0 0 n1 (compute_tilesz vl 2) (cpy_dotile_buf (nx, 0) I O is0 os0 is1 os1 vl) m.

(** kernel/cpy2d-pair.c:24-37 *)
Definition cpy2d_pair (n0 is0 os0 n1 is1 os1 : Z) (I0 I1 O0 O1 : loc) (m : mem) : mem :=
  zfor n1 (fun i1 => zfor n0 (fun i0 m =>
    let x0 := m (sh I0 (i0 * is0 + i1 * is1)) in
    let x1 := m (sh I1 (i0 * is0 + i1 * is1)) in
    upd (upd m (sh O0 (i0 * os0 + i1 * os1)) x0) (sh O1 (i0 * os0 + i1 * os1)) x1)) m.
(** kernel/cpy2d-pair.c:49-57 *)
Definition cpy2d_pair_ci (n0 is0 os0 n1 is1 os1 : Z) (I0 I1 O0 O1 : loc) (m : mem) : mem :=
  if Z.abs is0 <? Z.abs is1 then cpy2d_pair n0 is0 os0 n1 is1 os1 I0 I1 O0 O1 m
  else cpy2d_pair n1 is1 os1 n0 is0 os0 I0 I1 O0 O1 m.
(** kernel/cpy2d-pair.c:60-68 *)
Definition cpy2d_pair_co (n0 is0 os0 n1 is1 os1 : Z) (I0 I1 O0 O1 : loc) (m : mem) : mem :=
  if Z.abs os0 <? Z.abs os1 then cpy2d_pair n0 is0 os0 n1 is1 os1 I0 I1 O0 O1 m
  else cpy2d_pair n1 is1 os1 n0 is0 os0 I0 I1 O0 O1 m.

(** Swap the [k] cells at [p] with the [k] cells at [q]: load both, store both. *)
Definition swapk (k : Z) (p q : loc) (m : mem) : mem :=
  stores p (map (fun v => (v, m (sh q v))) (zr k)) (stores q (map (fun v => (v, m (sh p v))) (zr k)) m).

(** One (i0,i1) iteration of the loops in kernel/transpose.c:24-66: case 1, case 2
    and the default case's inner loop over v. *)
Definition tr_step (I : loc) (s0 s1 vl i0 i1 : Z) (m : mem) : mem :=
  if vl =? 1 then swapk 1 (sh I (i1 * s0 + i0 * s1)) (sh I (i1 * s1 + i0 * s0)) m
  else if vl =? 2 then swapk 2 (sh I (i1 * s0 + i0 * s1)) (sh I (i1 * s1 + i0 * s0)) m
  else zfor vl (fun v => swapk 1 (sh I (i1 * s0 + i0 * s1 + v)) (sh I (i1 * s1 + i0 * s0 + v))) m.

(** kernel/transpose.c:24-66 X(transpose); the loop [for (i1 = 1; i1 < n; ++i1)]
    is run as [i1 = j + 1]. *)
Definition transpose (I : loc) (n s0 s1 vl : Z) (m : mem) : mem :=
  zfor (n - 1) (fun j => zfor (j + 1) (fun i0 => tr_step I s0 s1 vl i0 (j + 1))) m.

(** kernel/transpose.c:74-118 dotile *)
Definition tr_dotile (I : loc) (s0 s1 vl n0l n0u n1l n1u : Z) (m : mem) : mem :=
  zfor (n1u - n1l) (fun j1 => zfor (n0u - n0l) (fun j0 => tr_step I s0 s1 vl (n0l + j0) (n1l + j1))) m.
(** kernel/transpose.c:120-143 dotile_buf *)
Definition tr_dotile_buf (buf0 buf1 : loc) (I : loc) (s0 s1 vl n0l n0u n1l n1u : Z) (m : mem) : mem :=
  let m1 := cpy2d_ci (n0u - n0l) s0 vl (n1u - n1l) s1 (vl * (n0u - n0l)) vl 0%nat
              (sh I (n0l * s0 + n1l * s1)) buf0 m in
  let m2 := cpy2d_ci (n0u - n0l) s1 vl (n1u - n1l) s0 (vl * (n0u - n0l)) vl 0%nat
              (sh I (n0l * s1 + n1l * s0)) buf1 m1 in
  let m3 := cpy2d_co (n0u - n0l) vl s0 (n1u - n1l) (vl * (n0u - n0l)) s1 vl 0%nat
              buf1 (sh I (n0l * s0 + n1l * s1)) m2 in
  cpy2d_co (n0u - n0l) vl s1 (n1u - n1l) (vl * (n0u - n0l)) s0 vl 0%nat
    buf0 (sh I (n0l * s1 + n1l * s0)) m3.

(** kernel/transpose.c:145-158 transpose_rec; [f I n0l n0u n1l n1u] is the tile
    callback with closure field [I].  Fuel as for [tile2d]: [n] strictly decreases. *)
Fixpoint transpose_rec_fuel (fuel : nat) (I : loc) (n s0 s1 tilesz : Z) (f : loc -> Z -> Z -> Z -> Z -> mem -> mem) (m : mem) : mem :=
  match fuel with
  | O => m
  | S fu =>
      if 1 <? n then
        let n2 := Z.quot n 2 in
        let m1 := tile2d 0 n2 n2 n tilesz (f I) m in
        let m2 := transpose_rec_fuel fu I n2 s0 s1 tilesz f m1 in
        transpose_rec_fuel fu (sh I (n2 * (s0 + s1))) (n - n2) s0 s1 tilesz f m2
      else m
  end.
Definition transpose_rec (I : loc) (n s0 s1 tilesz : Z) (f : loc -> Z -> Z -> Z -> Z -> mem -> mem) (m : mem) : mem :=
  transpose_rec_fuel (Z.to_nat n) I n s0 s1 tilesz f m.
(** kernel/transpose.c:160-170 *)
Definition transpose_tiled (I : loc) (n s0 s1 vl : Z) (m : mem) : mem :=
  transpose_rec I n s0 s1 (compute_tilesz vl 2) (fun I => tr_dotile I s0 s1 vl) m.
(** kernel/transpose.c:172-190; [buf0], [buf1] are blocks [nx] and [nx+1]. *)
Definition transpose_tiledbuf (nx : nat) (I : loc) (n s0 s1 vl : Z) (m : mem) : mem :=
  transpose_rec I n s0 s1 (compute_tilesz vl 2) (fun I => tr_dotile_buf (nx, 0) (S nx, 0) I s0 s1 vl) m.
