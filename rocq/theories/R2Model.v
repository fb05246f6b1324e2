(** * Model of the real-to-complex and complex-to-real solvers (problem_rdft2),
    rdft/problem2.c, rdft/*2.c and threads/vrank-geq1-rdft2.c

    A problem_rdft2 has pointers r0, r1 (even and odd elements of the real array)
    and cr, ci, a kind (R2HC or HC2R), and tensors sz and vecsz, whose input
    strides refer to the real array if the kind is R2HC and to the complex one if
    it is HC2R.  Only the last dimension of sz is halved.

    An apply function gets I and O: (r0, cr) for R2HC, (cr, r0) for HC2R; [dr] is
    r1 - r0 and [dc] is ci - cr (a plan is only executed with the differences it
    was planned for).  The tensor sz is given by its last dimension [row] and the
    other ones, [outer].  A tensor of rank 0 is represented by outer = [] and a row of
    length 1: rdft/problem2.c:168-181 removes a row of length 1 exactly if no outer
    dimension remains, so "sz->rnk == 0" is [outer = [] /\ dn row = 1].

    [r2planned qs nd ip c2r dr dc outer row vec f]: for the canonical problem with
    these parameters, r0 == cr iff [ip], and NO_DESTROY_INPUT set iff [nd], some
    solver can return a plan whose apply function is [f].  Conditions that only
    prune the search are omitted.  The kinds R2HCII and HC2RIII do not arise
    (they are used only by rdft/ct-hc2c-direct.c, which is not modelled). *)
From Coq Require Import Reals ZArith Permutation List Lia Bool.
From Verif Require Import NumTheory Cplx Spec SpecR2R Base PrimesModel TensorModel Offs XForm XKern CopyModel Rank0Model DftModel RdftModel.
Import ListNotations.
Open Scope Z_scope.

(** ** rdft/rdft2-strides.c *)
(** X(rdft2_strides), rdft/rdft2-strides.c:27-38: the strides on the real and on the complex side *)
Definition rstr (c2r : bool) (d : iodim) : Z := if c2r then dos d else dis d.
Definition cstr (c2r : bool) (d : iodim) : Z := if c2r then dis d else dos d.

(** ** rdft/rdft2-inplace-strides.c *)
Definition prodn (t : list iodim) : Z := fold_right (fun d p => dn d * p) 1 t.
(** X(rdft2_inplace_strides)(p, vdim) for one vector dimension, rdft/rdft2-inplace-strides.c:30-64 *)
Definition r2_ips_dim (c2r : bool) (outer : list iodim) (row v : iodim) : bool :=
  forallb (fun d => dis d =? dos d) outer &&
  (if (match outer with [] => true | _ => false end) && (dn row =? 1) then dis v =? dos v
   else
     let N := prodn outer * dn row in
     let Nc := Z.quot N (dn row) * (Z.quot (dn row) 2 + 1) in
     (dis v =? dos v) && (Z.max (2 * Nc * Z.abs (cstr c2r row)) (N * Z.abs (rstr c2r row)) <=? Z.abs (2 * dos v))).
(** X(rdft2_inplace_strides)(p, RNK_MINFTY), rdft/rdft2-inplace-strides.c:30-64 *)
Definition r2_ips (c2r : bool) (outer : list iodim) (row : iodim) (vec : list iodim) : bool :=
  forallb (fun d => dis d =? dos d) outer && forallb (r2_ips_dim c2r outer row) vec.

(** ** rdft/rank0-rdft2.c *)
(** apply_r2hc, rdft/rank0-rdft2.c:59-88: four at a time, loads first; then the rest one by one *)
Definition rank0_r2hc (dc vl ivs ovs : Z) : rapply := fun nx I O m =>
  let cnt := nsteps 4 (vl + 1) 4 in
  let m := zfor cnt (fun q m =>
    let r0 := sh I (4 * q * ivs) in let cr := sh O (4 * q * ovs) in let ci := sh cr dc in
    let x0 := m r0 in let x1 := m (sh r0 ivs) in let x2 := m (sh r0 (2 * ivs)) in let x3 := m (sh r0 (3 * ivs)) in
    let m := upd (upd m cr x0) ci 0%R in
    let m := upd (upd m (sh cr ovs) x1) (sh ci ovs) 0%R in
    let m := upd (upd m (sh cr (2 * ovs)) x2) (sh ci (2 * ovs)) 0%R in
    upd (upd m (sh cr (3 * ovs)) x3) (sh ci (3 * ovs)) 0%R) m in
  zfor (vl - 4 * cnt) (fun q m =>
    let r0 := sh I ((4 * cnt + q) * ivs) in let cr := sh O ((4 * cnt + q) * ovs) in let ci := sh cr dc in
    upd (upd m cr (m r0)) ci 0%R) m.
(** apply_r2hc_inplace, rdft/rank0-rdft2.c:91-108 (the unrolling by four does not
    change the sequence of stores and is not modelled) *)
Definition rank0_r2hc_inplace (dc vl ovs : Z) : rapply := fun nx I O m =>
  zfor vl (fun q m => upd m (sh (sh O (q * ovs)) dc) 0%R) m.

(** ** rdft/direct2.c *)
(** apply and apply_r2hc, rdft/direct2.c:43-62; parameters from mkplan :115-161 *)
Definition direct2_apply (c2r : bool) (dr dc : Z) (row : iodim) (vl ivs ovs : Z) : rapply := fun nx I O m =>
  let n := dn row in let rs := rstr c2r row in let cs := cstr c2r row in
  if c2r then kr2c HC2R n dr rs dc cs cs vl ivs ovs nx I O m
  else
    let m := kr2c R2HC n dr rs dc cs cs vl ivs ovs nx I O m in
    let ilast := if Z.rem n 2 =? 0 then Z.quot n 2 * dos row else 0 in
    zfor vl (fun i m => let ci := sh (sh O dc) (i * ovs) in upd (upd m (sh ci ilast) 0%R) ci 0%R) m.

(** ** rdft/rdft2-rdft.c *)
(** hc2c, rdft/rdft2-rdft.c:42-58 *)
Definition hc2c (n dc os : Z) : rapply := fun nx r rio m =>
  let iio := sh rio dc in
  let m := upd m rio (m r) in
  let m := upd m iio 0%R in
  let m := pairs n (fun i m =>
    let m := upd m (sh rio (i * os)) (m (sh r i)) in
    upd m (sh iio (i * os)) (m (sh r (n - i)))) m in
  middle n (fun i m => upd (upd m (sh rio (i * os)) (m (sh r i))) (sh iio (i * os)) 0%R) m.
(** c2hc, rdft/rdft2-rdft.c:61-74 *)
Definition c2hc (n dc is : Z) : rapply := fun nx rio r m =>
  let iio := sh rio dc in
  let m := upd m r (m rio) in
  let m := pairs n (fun i m =>
    let m := upd m (sh r i) (m (sh rio (i * is))) in
    upd m (sh r (n - i)) (m (sh iio (i * is)))) m in
  middle n (fun i m => upd m (sh r i) (m (sh rio (i * is)))) m.
(** min_nbuf, rdft/rdft2-rdft.c:157-183 *)
Definition min_nbuf (c2r ip : bool) (dc : Z) (row : iodim) (vec : list iodim) (vl : Z) : Z :=
  if negb ip then 1
  else if r2_ips c2r [] row vec then 1
  else match vec with
  | [v] =>
      let n := dn row in
      let is := rstr c2r row in let os := cstr c2r row in
      let ivs := rstr c2r v in let ovs := cstr c2r v in
      if (n * Z.abs is <=? Z.abs ivs) && ((Z.quot n 2 + 1) * Z.abs os <=? Z.abs ovs)
         && ((- dc <=? Z.abs os) || (dc <=? Z.abs os)) && (0 <? ivs) && (0 <? ovs)
      then let vsmin := Z.min ivs ovs in let vsmax := Z.max ivs ovs in
           Z.quot ((vsmax - vsmin) * vl + vsmin - 1) vsmin
      else vl
  | _ => vl
  end.
(** nbuf in mkplan, rdft/rdft2-rdft.c:220-316 *)
Definition r2r_nbuf (c2r ip : bool) (dc : Z) (row : iodim) (vec : list iodim) (vl : Z) : Z :=
  Z.max (nbuf (dn row) vl 0) (min_nbuf c2r ip dc row vec vl).
(** apply_r2hc, rdft/rdft2-rdft.c:78-103: buffers as in rdft/buffered.c (rbuffered_apply), with hc2c as copy *)
Definition r2r_apply_r2hc (n dc cs vl nb bd ivs ovs : Z) (cld cldrest : rapply) : rapply :=
  rbuffered_apply vl nb ivs ovs cld (vloop nb bd ovs (hc2c n dc cs)) cldrest.
(** apply_hc2r, rdft/rdft2-rdft.c:105-130 *)
Definition r2r_apply_hc2r (n dc cs vl nb bd ivs ovs : Z) (cld cldrest : rapply) : rapply :=
  rbuffered_apply vl nb ivs ovs (vloop nb ivs bd (c2hc n dc cs)) cld cldrest.

Section Plans.
  Context (qs : qsort_t).

  Inductive r2planned : bool -> bool -> bool -> Z -> Z -> list iodim -> iodim -> list iodim -> rapply -> Prop :=
  (* rdft/nop2.c:28-56, case 2 *)
  | R2_nop nd dr dc row vec :
      dn row = 1 -> r2_ips true [] row vec = true ->
      r2planned nd true true dr dc [] row vec (fun _ _ _ m => m)
  (* rdft/rank0-rdft2.c:59-88, applicable :41-57, mkplan :144-187 *)
  | R2_rank0 nd dr dc row vec vl ivs ovs :
      dn row = 1 -> tensor_tornk1 vec = Some (vl, ivs, ovs) ->
      r2planned nd false false dr dc [] row vec (rank0_r2hc dc vl ivs ovs)
  (* rdft/rank0-rdft2.c:91-108, 41-57, 144-187 *)
  | R2_rank0_inplace nd dr dc row vec vl ivs ovs :
      dn row = 1 -> tensor_tornk1 vec = Some (vl, ivs, ovs) -> r2_ips false [] row vec = true ->
      r2planned nd true false dr dc [] row vec (rank0_r2hc_inplace dc vl ovs)
  (* rdft/rank0-rdft2.c:112-119, 41-57, 144-187 *)
  | R2_rank0_hc2r nd ip dr dc row vec f :
      dn row = 1 -> rchild qs nd ip [] vec f ->
      r2planned nd ip true dr dc [] row vec f
  (* rdft/direct2.c:43-62, 81-113, 115-161 *)
  | R2_direct nd ip c2r dr dc row vec vl ivs ovs :
      dn row <> 1 -> tensor_tornk1 vec = Some (vl, ivs, ovs) ->
      ip = false \/ vec = [] \/ r2_ips c2r [] row vec = true ->
      r2planned nd ip c2r dr dc [] row vec (direct2_apply c2r dr dc row vl ivs ovs)
  (* rdft/vrank-geq1-rdft2.c:55-66, 88-145, 147-196; kernel/pickdim.c:29-82 *)
  | R2_vrank nd ip c2r dr dc outer row vec i d f :
      nth_error vec i = Some d -> (ip = true -> r2_ips_dim c2r outer row d = true) ->
      r2child nd ip c2r dr dc outer row (tensor_copy_except vec i) f ->
      r2planned nd ip c2r dr dc outer row vec (vloop (dn d) (dis d) (dos d) f)
  (* threads/vrank-geq1-rdft2.c:47-72, 104-141, 143-213; the blocks run in any order *)
  | R2_thr_vrank nd ip c2r dr dc outer row vec i d nthr fs ord :
      1 < nthr -> nth_error vec i = Some d -> (ip = true -> r2_ips_dim c2r outer row d = true) ->
      (forall j, 0 <= j < thr_nb (dn d) nthr ->
         r2child nd ip c2r dr dc outer row (set_nth vec i (mkdim (thr_cnt (dn d) nthr j) (dis d) (dos d))) (fs j)) ->
      Permutation ord (zr (thr_nb (dn d) nthr)) ->
      r2planned nd ip c2r dr dc outer row vec (thr_vrank_apply (dn d) (dis d) (dos d) nthr fs ord)
  (* rdft/rank-geq2-rdft2.c:40-53, 93-152, 154-217, R2HC: real transforms, then complex ones in place *)
  | R2_rank2_r2hc nd ip dr dc outer row vec k f1 f2 :
      (0 < k <= length outer)%nat ->
      r2child nd ip false dr dc (skipn k outer) row (vec ++ firstn k outer) f1 ->
      child qs nd true dc dc (tensor_copy_inplace (firstn k outer) INPLACE_OS)
        (tensor_copy_inplace vec INPLACE_OS ++
         (tensor_copy_inplace (skipn k outer) INPLACE_OS ++ [mkdim (Z.quot (dn row) 2 + 1) (dos row) (dos row)])) f2 ->
      r2planned nd ip false dr dc outer row vec (fun nx I O m => f2 nx O O (f1 nx I O m))
  (* rdft/rank-geq2-rdft2.c:55-69, 93-152, 154-217, HC2R: complex transforms in place, with real and
     imaginary parts exchanged, then real ones *)
  | R2_rank2_hc2r nd ip dr dc outer row vec k f1 f2 :
      (0 < k <= length outer)%nat -> ip = true \/ nd = false ->
      r2child nd ip true dr dc (skipn k outer) row (vec ++ firstn k outer) f2 ->
      child qs nd true (- dc) (- dc) (tensor_copy_inplace (firstn k outer) INPLACE_IS)
        (tensor_copy_inplace vec INPLACE_IS ++
         (tensor_copy_inplace (skipn k outer) INPLACE_IS ++ [mkdim (Z.quot (dn row) 2 + 1) (dis row) (dis row)])) f1 ->
      r2planned nd ip true dr dc outer row vec (fun nx I O m => f2 nx I O (f1 nx (sh I dc) (sh I dc) m))
  (* rdft/rdft2-rdft.c:78-103, 185-218, 220-316, R2HC *)
  | R2_rdft_r2hc nd ip dr dc row vec vl ivs ovs nb bd f fr :
      dn row <> 1 -> tensor_tornk1 vec = Some (vl, ivs, ovs) -> 2 * dr = dis row ->
      nb = r2r_nbuf false ip dc row vec vl -> bd = bufdist (dn row) vl -> dn row <= INTMAX ->
      rchild qs (nd && negb ip) false [(R2HC, mkdim (dn row) (Z.quot (dis row) 2) 1)] [mkdim nb ivs bd] f ->
      r2child nd (ip && (ivs * (nb * Z.quot vl nb) =? ovs * (nb * Z.quot vl nb))) false dr dc [] row
              [mkdim (Z.rem vl nb) ivs ovs] fr ->
      r2planned nd ip false dr dc [] row vec (r2r_apply_r2hc (dn row) dc (dos row) vl nb bd ivs ovs f fr)
  (* rdft/rdft2-rdft.c:105-130, 185-218, 220-316, HC2R *)
  | R2_rdft_hc2r nd ip dr dc row vec vl ivs ovs nb bd f fr :
      dn row <> 1 -> tensor_tornk1 vec = Some (vl, ivs, ovs) -> 2 * dr = dos row ->
      nb = r2r_nbuf true ip dc row vec vl -> bd = bufdist (dn row) vl -> dn row <= INTMAX ->
      rchild qs false false [(HC2R, mkdim (dn row) 1 (Z.quot (dos row) 2))] [mkdim nb bd ovs] f ->
      r2child nd (ip && (ivs * (nb * Z.quot vl nb) =? ovs * (nb * Z.quot vl nb))) true dr dc [] row
              [mkdim (Z.rem vl nb) ivs ovs] fr ->
      r2planned nd ip true dr dc [] row vec (r2r_apply_hc2r (dn row) dc (dis row) vl nb bd ivs ovs f fr)
  (* rdft/buffered2.c:44-71, 132-222, 224-360, R2HC; the copy is a rank-0 dft *)
  | R2_buffered_r2hc nd ip dr dc row vec vl ivs ovs maxnb nb bd roffset fb fc fr :
      dn row <> 1 -> Z.rem (dn row) 2 = 0 -> tensor_tornk1 vec = Some (vl, ivs, ovs) ->
      maxnb = 8 \/ maxnb = 256 ->
      nb = nbuf (dn row) vl maxnb -> bd = bufdist (dn row + 2) vl -> dn row + 2 <= INTMAX ->
      roffset = (if dc <? 0 then 1 else 0) ->
      (ip = false /\ 2 < dos row) \/ (ip = true /\ (r2_ips false [] row vec = true \/ vec = [] \/ nb = vl)) ->
      r2child (nd && negb ip) false false dr (1 - 2 * roffset) [] (mkdim (dn row) (dis row) 2) [mkdim nb ivs bd] fb ->
      child qs nd false (1 - 2 * roffset) dc [] [mkdim nb bd ovs; mkdim (Z.quot (dn row) 2 + 1) 2 (dos row)] fc ->
      r2child nd (ip && (ivs * (nb * Z.quot vl nb) =? ovs * (nb * Z.quot vl nb))) false dr dc [] row
              [mkdim (Z.rem vl nb) ivs ovs] fr ->
      r2planned nd ip false dr dc [] row vec (buffered_apply vl nb ivs ovs roffset fb fc fr)
  (* rdft/buffered2.c:76-103, 132-222, 224-360, HC2R *)
  | R2_buffered_hc2r nd ip dr dc row vec vl ivs ovs maxnb nb bd roffset fb fc fr :
      dn row <> 1 -> Z.rem (dn row) 2 = 0 -> tensor_tornk1 vec = Some (vl, ivs, ovs) ->
      maxnb = 8 \/ maxnb = 256 ->
      nb = nbuf (dn row) vl maxnb -> bd = bufdist (dn row + 2) vl -> dn row + 2 <= INTMAX ->
      roffset = (if dc <? 0 then 1 else 0) ->
      (ip = false /\ nd = true) \/ (ip = true /\ (r2_ips true [] row vec = true \/ vec = [] \/ nb = vl)) ->
      r2child false false true dr (1 - 2 * roffset) [] (mkdim (dn row) 2 (dos row)) [mkdim nb bd ovs] fb ->
      child qs nd false dc (1 - 2 * roffset) [] [mkdim nb ivs bd; mkdim (Z.quot (dn row) 2 + 1) (dis row) 2] fc ->
      r2child nd (ip && (ivs * (nb * Z.quot vl nb) =? ovs * (nb * Z.quot vl nb))) true dr dc [] row
              [mkdim (Z.rem vl nb) ivs ovs] fr ->
      r2planned nd ip true dr dc [] row vec (buffered_apply vl nb ivs ovs roffset fc fb fr)

  (* X(mkplan)(plnr, X(mkproblem_rdft2)(...)), rdft/problem2.c:145-191 (the refusal of
     r0 == ci, :157-158, is omitted) *)
  with r2child : bool -> bool -> bool -> Z -> Z -> list iodim -> iodim -> list iodim -> rapply -> Prop :=
  | R2C_empty nd ip c2r dr dc outer row vec :    (* rdft/nop2.c:43-44, case 1 *)
      tensor_compress_contiguous qs vec = None -> r2child nd ip c2r dr dc outer row vec (fun _ _ _ m => m)
  | R2C_plan nd ip c2r dr dc outer row vec vec' f :
      tensor_compress_contiguous qs vec = Some vec' ->
      r2planned nd ip c2r dr dc (tensor_compress qs outer) row vec' f -> r2child nd ip c2r dr dc outer row vec f.
End Plans.
Scheme r2planned_mut := Minimality for r2planned Sort Prop
  with r2child_mut := Minimality for r2child Sort Prop.
Combined Scheme r2planned_ind2 from r2planned_mut, r2child_mut.
