(** * Model of the real-to-real solvers, rdft/*.c and reodft/*.c

    A problem_rdft (rdft/problem.c) is a transform tensor whose dimensions carry a
    kind ([sz : list (rkind * iodim)]), a vector tensor [vec], and pointers I, O.
    Memory holds exact real numbers.  MALLOC'ed and BUF_ALLOC'ed scratch arrays
    are blocks numbered from [nx].  The codelets generated by genfft
    (rdft/scalar) are ideal kernels: load all inputs, compute the
    transform, store all outputs.

    [rplanned qs nd ip sz vec f]: for the (canonical) problem with these
    parameters, [I == O] iff [ip], and NO_DESTROY_INPUT set iff [nd], some solver
    can return a plan whose apply function is [f].  As in DftModel.v, conditions
    that only prune the search are omitted. *)
From Coq Require Import Reals ZArith Permutation List Lia Bool.
From Verif Require Import NumTheory Cplx Spec SpecR2R Base PrimesModel TensorModel Offs XForm XKern CopyModel Rank0Model DftModel HcModel.
Import ListNotations.
Open Scope Z_scope.

(** ** Kinds *)
Definition rkind_eqb (a b : rkind) : bool :=
  match a, b with
  | R2HC, R2HC | HC2R, HC2R | DHT, DHT | REDFT00, REDFT00 | REDFT01, REDFT01 | REDFT10, REDFT10 | REDFT11, REDFT11
  | RODFT00, RODFT00 | RODFT01, RODFT01 | RODFT10, RODFT10 | RODFT11, RODFT11 | R2HCII, R2HCII | HC2RIII, HC2RIII => true
  | _, _ => false
  end.
(** R2HC_KINDP and HC2R_KINDP, rdft/rdft.h, for the kinds in use *)
Definition R2HC_KINDP (k : rkind) : bool := match k with R2HC | R2HCII => true | _ => false end.
Definition HC2R_KINDP (k : rkind) : bool := match k with HC2R | HC2RIII => true | _ => false end.

(** ** X(mkproblem_rdft), rdft/problem.c:131-207 *)
(** nontrivial, rdft/problem.c:125-129 *)
Definition nontrivial (kd : rdim) : bool :=
  (1 <? dn (snd kd)) || (reodft (fst kd) && negb (rkind_eqb (fst kd) REDFT01) && negb (rkind_eqb (fst kd) RODFT01)).
(** the inner loop of the exchange sort, rdft/problem.c:181-191: [x] = element i,
    [l] = elements i+1 ...; returns the final element i and the others *)
Fixpoint exch (x : rdim) (l : list rdim) : rdim * list rdim :=
  match l with
  | [] => (x, [])
  | y :: l' =>
      if 0 <? dimcmp (snd x) (snd y)
      then let (h, t) := exch y l' in (h, x :: t)
      else let (h, t) := exch x l' in (h, y :: t)
  end.
(** the outer loop, rdft/problem.c:179-192 (fuel: the number of dimensions) *)
Fixpoint exch_sort (fuel : nat) (l : list rdim) : list rdim :=
  match fuel, l with
  | S fu, x :: l' => let (h, t) := exch x l' in h :: exch_sort fu t
  | _, _ => l
  end.
(** "size-2 transforms are equivalent", rdft/problem.c:194-198 *)
Definition kind2 (kd : rdim) : rdim :=
  if (dn (snd kd) =? 2) && (rkind_eqb (fst kd) REDFT00 || rkind_eqb (fst kd) DHT || rkind_eqb (fst kd) HC2R)
  then (R2HC, snd kd) else kd.
Definition rcompress (sz : list rdim) : list rdim :=
  let t := filter nontrivial sz in map kind2 (exch_sort (length t) t).
(** tensor_copy_inplace of a kinded tensor *)
Definition rip (sz : list rdim) (k : inplace_kind) : list rdim :=
  map (fun kd => (fst kd, match k with INPLACE_IS => mkdim (dn (snd kd)) (dis (snd kd)) (dis (snd kd))
                                     | INPLACE_OS => mkdim (dn (snd kd)) (dos (snd kd)) (dos (snd kd)) end)) sz.

(** ** Codelets *)
(** kr2r, rdft/codelet-rdft.h: vl transforms of size n (rdft/direct-r2r.c:41-46) *)
Definition xr2r (kd : rkind) (n is os : Z) : xform :=
  mkX (map (fun j => j * is) (zr n))
      (map (fun k => (k * os, fun x => Rsum n (fun j => x (j * is)%Z * rk kd n j k)%R)) (zr n)).
Definition kr2r (kd : rkind) (n is os vl ivs ovs : Z) : rapply := vloop vl ivs ovs (kern (xr2r kd n is os)).
(** kr2c, rdft/codelet-rdft.h:84-86: the real array is in R0 (even elements) and R1 = R0 + rs0
    (odd elements) with stride rs, the real and imaginary parts of the transform in
    Cr and Ci = Cr + ioff with strides csr and csi.  [rpos j] is the place of real
    element j relative to R0, [cpos k] the place of element k of the halfcomplex
    array relative to Cr. *)
Definition rpos (rs0 rs j : Z) : Z := (j mod 2) * rs0 + (j / 2) * rs.
Definition cpos (kd : rkind) (n ioff csr csi k : Z) : Z :=
  match kd with
  | R2HC | HC2R => if 2 * k <=? n then k * csr else ioff + (n - k) * csi
  | _ => if 2 * k <=? n - 1 then k * csr else ioff + (n - 1 - k) * csi
  end.
Definition xr2c (kd : rkind) (n rs0 rs ioff csr csi : Z) : xform :=
  let r := rpos rs0 rs in let c := cpos kd n ioff csr csi in
  let (i, o) := if R2HC_KINDP kd then (r, c) else (c, r) in
  mkX (map i (zr n)) (map (fun k => (o k, fun x => Rsum n (fun j => x (i j) * rk kd n j k)%R)) (zr n)).
(** k(R0, R1, Cr, Ci, rs, csr, csi, vl, ivs, ovs) with R0, Cr = I, O or O, I *)
Definition kr2c (kd : rkind) (n rs0 rs ioff csr csi vl ivs ovs : Z) : rapply :=
  vloop vl ivs ovs (kern (xr2c kd n rs0 rs ioff csr csi)).

(** ** rdft/direct-r2c.c *)
(** ioffset, rdft/direct-r2c.c:185-188 *)
Definition ioffset (kd : rkind) (n s : Z) : Z :=
  s * (if rkind_eqb kd R2HC || rkind_eqb kd HC2R then n else n - 1).
(** apply_r2hc, apply_hc2r, rdft/direct-r2c.c:46-62, parameters from mkplan :277-301 *)
Definition r2c_apply (kd : rkind) (n is os vl ivs ovs : Z) : rapply :=
  let '(rs, cs) := if R2HC_KINDP kd then (is, os) else (os, is) in
  kr2c kd n rs (2 * rs) (ioffset kd n cs) cs (- cs) vl ivs ovs.
(** dobatch_r2hc, rdft/direct-r2c.c:77-101 *)
Definition r2c_dobatch_f (kd : rkind) (n is os ivs ovs B bsz : Z) (nx : nat) (buf I O : loc) (m : mem) : mem :=
  let m1 := cpy2d_ci n is B bsz ivs 1 1 nx I buf m in
  if Z.abs os <? Z.abs ovs
  then kr2c kd n B (2 * B) (ioffset kd n os) os (- os) bsz 1 ovs nx buf O m1
  else
    let m2 := kr2c kd n B (2 * B) (ioffset kd n B) B (- B) bsz 1 1 nx buf buf m1 in
    cpy2d_co n B os bsz 1 ovs 1 nx buf O m2.
(** dobatch_hc2r, rdft/direct-r2c.c:103-124 *)
Definition r2c_dobatch_b (kd : rkind) (n is os ivs ovs B bsz : Z) (nx : nat) (buf I O : loc) (m : mem) : mem :=
  let m2 :=
    if Z.abs is <? Z.abs ivs
    then kr2c kd n B (2 * B) (ioffset kd n is) is (- is) bsz ivs 1 nx I buf m
    else
      let m1 := cpy2d_ci n is B bsz ivs 1 1 nx I buf m in
      kr2c kd n B (2 * B) (ioffset kd n B) B (- B) bsz 1 1 nx buf buf m1 in
  cpy2d_co n B os bsz 1 ovs 1 nx buf O m2.
(** iterate, apply_buf_r2hc, apply_buf_hc2r, rdft/direct-r2c.c:126-158 *)
Definition r2c_apply_buf (kd : rkind) (n is os vl ivs ovs : Z) : rapply := fun nx I O m =>
  let B := compute_batchsize n in
  let dobatch := if R2HC_KINDP kd then r2c_dobatch_f else r2c_dobatch_b in
  let cnt := nsteps 0 (vl - B) B in
  let m1 := zfor cnt (fun i => dobatch kd n is os ivs ovs B B (S nx) (nx, 0)
                                 (sh I (i * (B * ivs))) (sh O (i * (B * ovs)))) m in
  dobatch kd n is os ivs ovs B (vl - cnt * B) (S nx) (nx, 0)
    (sh I (cnt * (B * ivs))) (sh O (cnt * (B * ovs))) m1.

(** ** rdft/buffered.c *)
(** apply, rdft/buffered.c:40-67, and apply_hc2r, :72-99: two child plans through the buffer *)
Definition rbuffered_apply (vl nb ivs ovs : Z) (cld1 cld2 cldrest : rapply) : rapply := fun nx I O m =>
  let bufs := (nx, 0) in
  let cnt := nsteps nb (vl + 1) nb in
  let m1 := zfor cnt (fun i m =>
      let m := cld1 (S nx) (sh I (i * (ivs * nb))) bufs m in
      cld2 (S nx) bufs (sh O (i * (ovs * nb))) m) m in
  cldrest nx (sh I (cnt * (ivs * nb))) (sh O (cnt * (ovs * nb))) m1.

(** ** Loops over pairs: for (i = 1; i < n - i; ++i) runs for i = 1 .. hcnt n, and
    leaves i = hcnt n + 1 *)
Definition hcnt (n : Z) : Z := Z.quot (n - 1) 2.
Definition pairs (n : Z) (body : Z -> mem -> mem) (m : mem) : mem := zfor (hcnt n) (fun i' => body (i' + 1)) m.
(** if (i == n - i) after such a loop *)
Definition middle (n : Z) (body : Z -> mem -> mem) (m : mem) : mem :=
  let i := hcnt n + 1 in if i =? n - i then body i m else m.

(** ** rdft/dht-r2hc.c *)
(** apply, rdft/dht-r2hc.c:38-61 *)
Definition dht_r2hc_apply (n os : Z) (cld : rapply) : rapply := fun nx I O m =>
  pairs n (fun i m =>
    let a := m (sh O (i * os)) in let b := m (sh O ((n - i) * os)) in
    upd (upd m (sh O (i * os)) (a - b)%R) (sh O ((n - i) * os)) (a + b)%R) (cld nx I O m).

(** ** rdft/rdft-dht.c *)
(** apply_r2hc, rdft/rdft-dht.c:40-64 *)
Definition r2hc_dht_apply (n os : Z) (cld : rapply) : rapply := fun nx I O m =>
  pairs n (fun i m =>
    let a := (/ 2 * m (sh O (i * os)))%R in let b := (/ 2 * m (sh O ((n - i) * os)%Z))%R in
    upd (upd m (sh O (i * os)) (a + b)%R) (sh O ((n - i) * os)) (b - a)%R) (cld nx I O m).
(** apply_hc2r, rdft/rdft-dht.c:67-90 *)
Definition hc2r_dht_apply (n is : Z) (cld : rapply) : rapply := fun nx I O m =>
  cld nx I O (pairs n (fun i m =>
    let a := m (sh I (i * is)) in let b := m (sh I ((n - i) * is)) in
    upd (upd m (sh I (i * is)) (a - b)%R) (sh I ((n - i) * is)) (a + b)%R) m).
(** apply_hc2r_save, rdft/rdft-dht.c:93-119 *)
Definition hc2r_dht_save (n is os : Z) (cld : rapply) : rapply := fun nx I O m =>
  let m1 := upd m (sh O 0) (m (sh I 0)) in
  let m2 := pairs n (fun i m =>
    let a := m (sh I (i * is)) in let b := m (sh I ((n - i) * is)) in
    upd (upd m (sh O (i * os)) (a - b)%R) (sh O ((n - i) * os)) (a + b)%R) m1 in
  let m3 := middle n (fun i m => upd m (sh O (i * os)) (m (sh I (i * is)))) m2 in
  cld nx O O m3.

(** ** rdft/generic.c *)
(** hartley_r2hc, rdft/generic.c:54-73 *)
Definition hartley_r2hc (n xs : Z) (buf I O : loc) (m : mem) : mem :=
  let sr := m (sh I 0) in
  let m1 := upd m (sh buf 0) sr in
  let '(m2, sr) := zforS (hcnt n) (fun i' s =>
      let '(m, sr) := s in
      let i := i' + 1 in
      let a := m (sh I (i * xs)) in let b := m (sh I ((n - i) * xs)) in
      (upd (upd m (sh buf (1 + 2 * i')) (a + b)%R) (sh buf (1 + 2 * i' + 1)) (b - a)%R, (sr + (a + b))%R)) (m1, sr) in
  upd m2 (sh O 0) sr.
(** cdot_r2hc, rdft/generic.c:37-52; [w] is the table from the current row on *)
Definition cdot_r2hc (n : Z) (x : loc) (w : Z -> R) (or0 oi1 : loc) (m : mem) : mem :=
  let '(rr, ri) := zforS (hcnt n) (fun i' s =>
      let '(rr, ri) := s in
      ((rr + m (sh x (1 + 2 * i')%Z) * w (2 * i')%Z)%R, (ri + m (sh x (1 + 2 * i' + 1)%Z) * w (2 * i' + 1)%Z)%R))
      (m (sh x 0), 0%R) in
  upd (upd m or0 rr) oi1 ri.
(** apply_r2hc, rdft/generic.c:75-93 *)
Definition rgeneric_r2hc (n is os : Z) : rapply := fun nx I O m =>
  let buf := (nx, 0) in
  let m1 := hartley_r2hc n is buf I O m in
  zfor (hcnt n) (fun i' => let i := i' + 1 in
    cdot_r2hc n buf (fun o => tw_half n (i' * (n - 1) + o)) (sh O (i * os)) (sh O ((n - i) * os))) m1.
(** hartley_hc2r, rdft/generic.c:117-129 *)
Definition hartley_hc2r (n xs : Z) (buf I O : loc) (m : mem) : mem :=
  let sr := m (sh I 0) in
  let m1 := upd m (sh buf 0) sr in
  let '(m2, sr) := zforS (hcnt n) (fun i' s =>
      let '(m, sr) := s in
      let i := i' + 1 in
      let o0 := (m (sh I (i * xs)) + m (sh I (i * xs)%Z))%R in
      let m := upd m (sh buf (1 + 2 * i')) o0 in
      (upd m (sh buf (1 + 2 * i' + 1)) (m (sh I ((n - i) * xs)%Z) + m (sh I ((n - i) * xs)%Z))%R, (sr + o0)%R)) (m1, sr) in
  upd m2 (sh O 0) sr.
(** cdot_hc2r, rdft/generic.c:96-115 *)
Definition cdot_hc2r (n : Z) (x : loc) (w : Z -> R) (or0 or1 : loc) (m : mem) : mem :=
  let '(rr, ii) := zforS (hcnt n) (fun i' s =>
      let '(rr, ii) := s in
      ((rr + m (sh x (1 + 2 * i')%Z) * w (2 * i')%Z)%R, (ii + m (sh x (1 + 2 * i' + 1)%Z) * w (2 * i' + 1)%Z)%R))
      (m (sh x 0), 0%R) in
  upd (upd m or0 (rr - ii)%R) or1 (rr + ii)%R.
(** apply_hc2r, rdft/generic.c:131-149 *)
Definition rgeneric_hc2r (n is os : Z) : rapply := fun nx I O m =>
  let buf := (nx, 0) in
  let m1 := hartley_hc2r n is buf I O m in
  zfor (hcnt n) (fun i' => let i := i' + 1 in
    cdot_hc2r n buf (fun o => tw_half n (i' * (n - 1) + o)) (sh O (i * os)) (sh O ((n - i) * os))) m1.

(** ** reodft/ *)
(** The table X(twiddle_awake) makes for { TW_COS v 1, TW_SIN v 1, TW_NEXT st } with
    arguments N and r = 1 (kernel/twiddle.c:124-195): cosine and sine of
    2 pi (st*i + v)/N, i = 0, 1, .... *)
Definition tw_cs (N v st o : Z) : R := part (o mod 2) (cexp N (st * (o / 2) + v)).

(** loading of redft00e-r2hc-pad.c:56-62, [n] = size - 1 *)
Definition redft00_load (n is : Z) (buf I : loc) (m : mem) : mem :=
  let m := upd m (sh buf 0) (m (sh I 0)) in
  let m := zfor (n - 1) (fun i' m => let i := i' + 1 in
             let a := m (sh I (i * is)) in
             upd (upd m (sh buf i) a) (sh buf (2 * n - i)) a) m in
  upd m (sh buf n) (m (sh I (n * is))).
(** one transform of apply, reodft/redft00e-r2hc-pad.c:43-77 *)
Definition redft00_pad (n is : Z) (cld cldcpy : rapply) : rapply := fun nx I O m =>
  let buf := (nx, 0) in
  let m := redft00_load n is buf I m in
  let m := cld (S nx) buf buf m in
  cldcpy (S nx) buf O m.
(** loading of rodft00e-r2hc-pad.c:56-62, [n] = size + 1 *)
Definition rodft00_load (n is : Z) (buf I : loc) (m : mem) : mem :=
  let m := upd m (sh buf 0) 0%R in
  let m := zfor (n - 1) (fun i' m => let i := i' + 1 in
             let a := m (sh I ((i - 1) * is)) in
             upd (upd m (sh buf i) (- a)%R) (sh buf (2 * n - i)) a) m in
  upd m (sh buf n) 0%R.
(** one transform of apply, reodft/rodft00e-r2hc-pad.c:43-77 *)
Definition rodft00_pad (n is : Z) (cld cldcpy : rapply) : rapply := fun nx I O m =>
  let buf := (nx, 0) in
  let m := rodft00_load n is buf I m in
  let m := cld (S nx) buf buf m in
  cldcpy (S nx) (sh buf (2 * n - 1)) O m.

(** *** reodft/reodft010e-r2hc.c; W = [tw_cs (4n) 0 1], awake :290-303 *)
(** :98-116 *)
Definition re01_load (n is : Z) (buf I : loc) (m : mem) : mem :=
  let W := tw_cs (4 * n) 0 1 in
  let m := upd m (sh buf 0) (m (sh I 0)) in
  let m := pairs n (fun i m =>
      let a := m (sh I (i * is)) in let b := m (sh I ((n - i) * is)) in
      let apb := (a + b)%R in let amb := (a - b)%R in
      let wa := W (2 * i) in let wb := W (2 * i + 1) in
      upd (upd m (sh buf i) (wa * amb + wb * apb)%R) (sh buf (n - i)) (wa * apb - wb * amb)%R) m in
  middle n (fun i m => upd m (sh buf i) (2 * m (sh I (i * is)%Z) * W (2 * i)%Z)%R) m.
(** :123-134 *)
Definition re01_store (n os : Z) (buf O : loc) (m : mem) : mem :=
  let m := upd m (sh O 0) (m (sh buf 0)) in
  let m := pairs n (fun i m =>
      let a := m (sh buf i) in let b := m (sh buf (n - i)) in
      let k := i + i in
      upd (upd m (sh O ((k - 1) * os)) (a - b)%R) (sh O (k * os)) (a + b)%R) m in
  middle n (fun i m => upd m (sh O ((n - 1) * os)) (m (sh buf i))) m.
(** :152-170 *)
Definition ro01_load (n is : Z) (buf I : loc) (m : mem) : mem :=
  let W := tw_cs (4 * n) 0 1 in
  let m := upd m (sh buf 0) (m (sh I ((n - 1) * is))) in
  let m := pairs n (fun i m =>
      let a := m (sh I ((n - 1 - i) * is)) in let b := m (sh I ((i - 1) * is)) in
      let apb := (a + b)%R in let amb := (a - b)%R in
      let wa := W (2 * i) in let wb := W (2 * i + 1) in
      upd (upd m (sh buf i) (wa * amb + wb * apb)%R) (sh buf (n - i)) (wa * apb - wb * amb)%R) m in
  middle n (fun i m => upd m (sh buf i) (2 * m (sh I ((i - 1) * is)%Z) * W (2 * i)%Z)%R) m.
(** :177-188 *)
Definition ro01_store (n os : Z) (buf O : loc) (m : mem) : mem :=
  let m := upd m (sh O 0) (m (sh buf 0)) in
  let m := pairs n (fun i m =>
      let a := m (sh buf i) in let b := m (sh buf (n - i)) in
      let k := i + i in
      upd (upd m (sh O ((k - 1) * os)) (b - a)%R) (sh O (k * os)) (a + b)%R) m in
  middle n (fun i m => upd m (sh O ((n - 1) * os)) (- m (sh buf i))%R) m.
(** :203-214 *)
Definition re10_load (n is : Z) (buf I : loc) (m : mem) : mem :=
  let m := upd m (sh buf 0) (m (sh I 0)) in
  let m := pairs n (fun i m =>
      let k := i + i in
      let u := m (sh I ((k - 1) * is)) in let v := m (sh I (k * is)) in
      upd (upd m (sh buf (n - i)) u) (sh buf i) v) m in
  middle n (fun i m => upd m (sh buf i) (m (sh I ((n - 1) * is)))) m.
(** :221-234 *)
Definition re10_store (n os : Z) (buf O : loc) (m : mem) : mem :=
  let W := tw_cs (4 * n) 0 1 in
  let m := upd m (sh O 0) (2 * m (sh buf 0%Z))%R in
  let m := pairs n (fun i m =>
      let a := (2 * m (sh buf i))%R in let b := (2 * m (sh buf (n - i)%Z))%R in
      let wa := W (2 * i) in let wb := W (2 * i + 1) in
      upd (upd m (sh O (i * os)) (wa * a + wb * b)%R) (sh O ((n - i) * os)) (wb * a - wa * b)%R) m in
  middle n (fun i m => upd m (sh O (i * os)) (2 * m (sh buf i) * W (2 * i)%Z)%R) m.
(** :254-265 *)
Definition ro10_load (n is : Z) (buf I : loc) (m : mem) : mem :=
  let m := upd m (sh buf 0) (m (sh I 0)) in
  let m := pairs n (fun i m =>
      let k := i + i in
      let u := (- m (sh I ((k - 1) * is)%Z))%R in let v := m (sh I (k * is)) in
      upd (upd m (sh buf (n - i)) u) (sh buf i) v) m in
  middle n (fun i m => upd m (sh buf i) (- m (sh I ((n - 1) * is)%Z))%R) m.
(** :272-285 *)
Definition ro10_store (n os : Z) (buf O : loc) (m : mem) : mem :=
  let W := tw_cs (4 * n) 0 1 in
  let m := upd m (sh O ((n - 1) * os)) (2 * m (sh buf 0%Z))%R in
  let m := pairs n (fun i m =>
      let a := (2 * m (sh buf i))%R in let b := (2 * m (sh buf (n - i)%Z))%R in
      let wa := W (2 * i) in let wb := W (2 * i + 1) in
      upd (upd m (sh O ((n - 1 - i) * os)) (wa * a + wb * b)%R) (sh O ((i - 1) * os)) (wb * a - wa * b)%R) m in
  middle n (fun i m => upd m (sh O ((i - 1) * os)) (2 * m (sh buf i) * W (2 * i)%Z)%R) m.

(** a transform that loads buf, transforms it in place, and stores to O: one
    iteration of the loops of apply_re01, ro01, re10, ro10 (reodft010e-r2hc.c:84-288),
    re11, ro11 (reodft11e-r2hc-odd.c:65-201, reodft11e-radix2.c:59-392) *)
Definition buf_apply (load store : Z -> Z -> loc -> loc -> mem -> mem) (n is os : Z) (cld : rapply) : rapply := fun nx I O m =>
  let buf := (nx, 0) in
  let m := load n is buf I m in
  let m := cld (S nx) buf buf m in
  store n os buf O m.
Definition load010 (kd : rkind) : Z -> Z -> loc -> loc -> mem -> mem :=
  match kd with REDFT01 => re01_load | REDFT10 => re10_load | RODFT01 => ro01_load | _ => ro10_load end.
Definition store010 (kd : rkind) : Z -> Z -> loc -> loc -> mem -> mem :=
  match kd with REDFT01 => re01_store | REDFT10 => re10_store | RODFT01 => ro01_store | _ => ro10_store end.

(** *** reodft/reodft11e-r2hc-odd.c *)
Definition SGN_SET (x : R) (i : Z) : R := if Z.rem i 2 =? 0 then x else (- x)%R.
(** SQRT2, :61 (exact) *)
Definition SQRT2 : R := sqrt 2.
(** the five loops over (i, m), :78-90: [cnt] iterations from (i0, m0), reading
    element [src m] with sign [sg] *)
Definition odd_run (cnt i0 m0 is : Z) (sg : R) (src : Z -> Z) (buf I : loc) (m : mem) : mem :=
  zfor cnt (fun t m => upd m (sh buf (i0 + t)) (sg * m (sh I (src (m0 + 4 * t) * is)%Z))%R) m.
Definition odd_load (f1 f2 f3 f4 f5 : Z -> Z) (n is : Z) (buf I : loc) (m : mem) : mem :=
  let n2 := Z.quot n 2 in
  let c1 := nsteps n2 n 4 in let i1 := c1 in let m1 := n2 + 4 * c1 in
  let c2 := nsteps m1 (2 * n) 4 in let i2 := i1 + c2 in let m2 := m1 + 4 * c2 in
  let c3 := nsteps m2 (3 * n) 4 in let i3 := i2 + c3 in let m3 := m2 + 4 * c3 in
  let c4 := nsteps m3 (4 * n) 4 in let i4 := i3 + c4 in let m4 := m3 + 4 * c4 - 4 * n in
  let m := odd_run c1 0 n2 is 1 f1 buf I m in
  let m := odd_run c2 i1 m1 is (-1) f2 buf I m in
  let m := odd_run c3 i2 m2 is (-1) f3 buf I m in
  let m := odd_run c4 i3 m3 is 1 f4 buf I m in
  odd_run (n - i4) i4 m4 is 1 f5 buf I m.
(** :78-90 *)
Definition re11o_load (n : Z) : Z -> loc -> loc -> mem -> mem :=
  odd_load (fun m => m) (fun m => 2 * n - m - 1) (fun m => m - 2 * n) (fun m => 4 * n - m - 1) (fun m => m) n.
(** :147-159 *)
Definition ro11o_load (n : Z) : Z -> loc -> loc -> mem -> mem :=
  odd_load (fun m => n - 1 - m) (fun m => m - n) (fun m => 3 * n - 1 - m) (fun m => m - 3 * n) (fun m => n - 1 - m) n.
(** :97-127; the loop for (i = 0; i + i + 1 < n2; ++i) runs n2/2 times.  [iter] is its
    body, :98-116, [mid] the case i + i + 1 == n2, :117-125, [last] the last statement, :126 *)
Definition re11o_iter (n os : Z) (buf O : loc) (i : Z) (m : mem) : mem :=
  let n2 := Z.quot n 2 in
      let k := i + i + 1 in
      let c1 := m (sh buf k) in let c2 := m (sh buf (k + 1)) in
      let s2 := m (sh buf (n - (k + 1))) in let s1 := m (sh buf (n - k)) in
      let m := upd m (sh O (i * os)) (SQRT2 * (SGN_SET c1 (Z.quot (i + 1) 2) + SGN_SET s1 (Z.quot i 2)))%R in
      let m := upd m (sh O ((n - (i + 1)) * os)) (SQRT2 * (SGN_SET c1 (Z.quot (n - i) 2) - SGN_SET s1 (Z.quot (n - (i + 1)) 2)))%R in
      let m := upd m (sh O ((n2 - (i + 1)) * os)) (SQRT2 * (SGN_SET c2 (Z.quot (n2 - i) 2) - SGN_SET s2 (Z.quot (n2 - (i + 1)) 2)))%R in
      upd m (sh O ((n2 + (i + 1)) * os)) (SQRT2 * (SGN_SET c2 (Z.quot (n2 + i + 2) 2) + SGN_SET s2 (Z.quot (n2 + (i + 1)) 2)))%R.
Definition re11o_mid (n os : Z) (buf O : loc) (i : Z) (m : mem) : mem :=
  let n2 := Z.quot n 2 in
  let c := m (sh buf n2) in let s := m (sh buf (n - n2)) in
      let m := upd m (sh O (i * os)) (SQRT2 * (SGN_SET c (Z.quot (i + 1) 2) + SGN_SET s (Z.quot i 2)))%R in
      upd m (sh O ((n - (i + 1)) * os)) (SQRT2 * (SGN_SET c (Z.quot (i + 2) 2) + SGN_SET s (Z.quot (i + 1) 2)))%R.
Definition re11o_last (n os : Z) (buf O : loc) (m : mem) : mem :=
  let n2 := Z.quot n 2 in
  upd m (sh O (n2 * os)) (SQRT2 * SGN_SET (m (sh buf 0)) (Z.quot (n2 + 1) 2))%R.
Definition re11o_store (n os : Z) (buf O : loc) (m : mem) : mem :=
  let n2 := Z.quot n 2 in
  let m := zfor (Z.quot n2 2) (re11o_iter n os buf O) m in
  let i := Z.quot n2 2 in
  let m := if i + i + 1 =? n2 then re11o_mid n os buf O i m else m in
  re11o_last n os buf O m.
(** :166-198, in the same three parts *)
Definition ro11o_iter (n os : Z) (buf O : loc) (i : Z) (m : mem) : mem :=
  let n2 := Z.quot n 2 in
      let k := i + i + 1 in
      let c1 := m (sh buf k) in let c2 := m (sh buf (k + 1)) in
      let s2 := m (sh buf (n - (k + 1))) in let s1 := m (sh buf (n - k)) in
      let m := upd m (sh O (i * os)) (SQRT2 * (SGN_SET c1 (Z.quot (i + 1) 2 + i) + SGN_SET s1 (Z.quot i 2 + i)))%R in
      let m := upd m (sh O ((n - (i + 1)) * os)) (SQRT2 * (SGN_SET c1 (Z.quot (n - i) 2 + i) - SGN_SET s1 (Z.quot (n - (i + 1)) 2 + i)))%R in
      let j := n2 - (i + 1) in
      let m := upd m (sh O (j * os)) (SQRT2 * (SGN_SET c2 (Z.quot (n2 - i) 2 + j) - SGN_SET s2 (Z.quot (n2 - (i + 1)) 2 + j)))%R in
      upd m (sh O ((n2 + (i + 1)) * os)) (SQRT2 * (SGN_SET c2 (Z.quot (n2 + i + 2) 2 + j) + SGN_SET s2 (Z.quot (n2 + (i + 1)) 2 + j)))%R.
Definition ro11o_mid (n os : Z) (buf O : loc) (i : Z) (m : mem) : mem :=
  let n2 := Z.quot n 2 in
  let c := m (sh buf n2) in let s := m (sh buf (n - n2)) in
      let m := upd m (sh O (i * os)) (SQRT2 * (SGN_SET c (Z.quot (i + 1) 2 + i) + SGN_SET s (Z.quot i 2 + i)))%R in
      upd m (sh O ((n - (i + 1)) * os)) (SQRT2 * (SGN_SET c (Z.quot (i + 2) 2 + i) + SGN_SET s (Z.quot (i + 1) 2 + i)))%R.
Definition ro11o_last (n os : Z) (buf O : loc) (m : mem) : mem :=
  let n2 := Z.quot n 2 in
  upd m (sh O (n2 * os)) (SQRT2 * SGN_SET (m (sh buf 0)) (Z.quot (n2 + 1) 2 + n2))%R.
Definition ro11o_store (n os : Z) (buf O : loc) (m : mem) : mem :=
  let n2 := Z.quot n 2 in
  let m := zfor (Z.quot n2 2) (ro11o_iter n os buf O) m in
  let i := Z.quot n2 2 in
  let m := if i + i + 1 =? n2 then ro11o_mid n os buf O i m else m in
  ro11o_last n os buf O m.

(** *** reodft/reodft11e-radix2.c; W = [tw_cs (2n) 0 1], W2 = [tw_cs (8n) 1 2], awake :394-414 *)
(** the common part of :91-118 and :299-326: from a, b, a2, b2 to four elements of buf *)
Definition re11_bf (n : Z) (i : Z) (a b a2 b2 : R) (buf : loc) (m : mem) : mem :=
  let W := tw_cs (2 * n) 0 1 in let n2 := Z.quot n 2 in
  let wa := W (2 * i) in let wb := W (2 * i + 1) in
  let m := upd m (sh buf i) (wa * (a - b) + wb * (a + b))%R in
  let m := upd m (sh buf (n2 - i)) (wa * (a + b) - wb * (a - b))%R in
  let m := upd m (sh buf (n2 + i)) (wa * (a2 - b2) + wb * (a2 + b2))%R in
  upd m (sh buf (n - i)) (wa * (a2 + b2) - wb * (a2 - b2))%R.
(** :72-117 *)
Definition re11_load (n is : Z) (buf I : loc) (m : mem) : mem :=
  let W := tw_cs (2 * n) 0 1 in let n2 := Z.quot n 2 in
  let m := upd m (sh buf 0) (2 * m (sh I 0%Z))%R in
  let m := upd m (sh buf n2) (2 * m (sh I ((n - 1) * is)%Z))%R in
  let m := pairs n2 (fun i m =>
      let k := i + i in
      let u := m (sh I ((k - 1) * is)) in let v := m (sh I (k * is)) in
      let a := (u + v)%R in let b2 := (u - v)%R in
      let u := m (sh I ((n - k - 1) * is)) in let v := m (sh I ((n - k) * is)) in
      let b := (u + v)%R in let a2 := (u - v)%R in
      re11_bf n i a b a2 b2 buf m) m in
  middle n2 (fun i m =>
      let u := m (sh I ((n2 - 1) * is)) in let v := m (sh I (n2 * is)) in
      let m := upd m (sh buf i) ((u + v) * (W (2 * i)%Z * 2))%R in
      upd m (sh buf (n - i)) ((u - v) * (W (2 * i)%Z * 2))%R) m.
(** :280-325 *)
Definition ro11_load (n is : Z) (buf I : loc) (m : mem) : mem :=
  let W := tw_cs (2 * n) 0 1 in let n2 := Z.quot n 2 in
  let m := upd m (sh buf 0) (2 * m (sh I ((n - 1) * is)%Z))%R in
  let m := upd m (sh buf n2) (2 * m (sh I 0%Z))%R in
  let m := pairs n2 (fun i m =>
      let k := i + i in
      let u := m (sh I ((n - k) * is)) in let v := m (sh I ((n - 1 - k) * is)) in
      let a := (u + v)%R in let b2 := (u - v)%R in
      let u := m (sh I (k * is)) in let v := m (sh I ((k - 1) * is)) in
      let b := (u + v)%R in let a2 := (u - v)%R in
      re11_bf n i a b a2 b2 buf m) m in
  middle n2 (fun i m =>
      let u := m (sh I (n2 * is)) in let v := m (sh I ((n2 - 1) * is)) in
      let m := upd m (sh buf i) ((u + v) * (W (2 * i)%Z * 2))%R in
      upd m (sh buf (n - i)) ((u - v) * (W (2 * i)%Z * 2))%R) m.
(** :126-181; iteration i of the loop starts with W2 = td2->W + 2 + 4(i-1) and uses
    two pairs; after the loop W2 = td2->W + 2 + 4 * hcnt n2 *)
Definition re11_store (n os : Z) (buf O : loc) (m : mem) : mem :=
  let W2 := tw_cs (8 * n) 1 2 in let n2 := Z.quot n 2 in
  let out (k p : Z) (a b : R) (m : mem) :=
    let wa := W2 p in let wb := W2 (p + 1) in
    upd (upd m (sh O (k * os)) (wa * a + wb * b)%R) (sh O ((n - 1 - k) * os)) (wb * a - wa * b)%R in
  let m := out 0 0 (m (sh buf 0)) (m (sh buf n2)) m in
  let m := pairs n2 (fun i m =>
      let u := m (sh buf i) in let v := m (sh buf (n2 - i)) in
      let u2 := m (sh buf (n2 + i)) in let v2 := m (sh buf (n - i)) in
      let p := 2 + 4 * (i - 1) in
      let k := i + i - 1 in
      let m := out k p (u - v)%R (v2 - u2)%R m in
      out (k + 1) (p + 2) (u + v)%R (u2 + v2)%R m) m in
  middle n2 (fun i m =>
      let k := i + i - 1 in let p := 2 + 4 * hcnt n2 in
      let wa := W2 p in let wb := W2 (p + 1) in
      let a := m (sh buf i) in let b := m (sh buf (n2 + i)) in
      upd (upd m (sh O (k * os)) (wa * a - wb * b)%R) (sh O ((n - 1 - k) * os)) (wb * a + wa * b)%R) m.
(** :334-389 *)
Definition ro11_store (n os : Z) (buf O : loc) (m : mem) : mem :=
  let W2 := tw_cs (8 * n) 1 2 in let n2 := Z.quot n 2 in
  let out (k p : Z) (a b : R) (m : mem) :=
    let wa := W2 p in let wb := W2 (p + 1) in
    upd (upd m (sh O (k * os)) (wa * a + wb * b)%R) (sh O ((n - 1 - k) * os)) (wa * b - wb * a)%R in
  let m := out 0 0 (m (sh buf 0)) (m (sh buf n2)) m in
  let m := pairs n2 (fun i m =>
      let u := m (sh buf i) in let v := m (sh buf (n2 - i)) in
      let u2 := m (sh buf (n2 + i)) in let v2 := m (sh buf (n - i)) in
      let p := 2 + 4 * (i - 1) in
      let k := i + i - 1 in
      let m := out k p (v - u)%R (u2 - v2)%R m in
      out (k + 1) (p + 2) (u + v)%R (u2 + v2)%R m) m in
  middle n2 (fun i m =>
      let k := i + i - 1 in let p := 2 + 4 * hcnt n2 in
      let wa := W2 p in let wb := W2 (p + 1) in
      let a := m (sh buf i) in let b := m (sh buf (n2 + i)) in
      upd (upd m (sh O (k * os)) (wb * b - wa * a)%R) (sh O ((n - 1 - k) * os)) (wa * b + wb * a)%R) m.

(** *** reodft/reodft00e-splitradix.c; W = td->W - 2 = [tw_cs (2n) 0 1], awake :209-222
    (the entries i >= 1), [n] = size - 1 or size + 1 *)
(** :68-71, "n" there is size = n + 1 *)
Definition split_load_e (n is : Z) (buf I : loc) (m : mem) : mem :=
  let N := n + 1 in
  let c1 := nsteps 1 N 4 in let i2 := 2 * N - 2 - (1 + 4 * c1) in
  let m := zfor c1 (fun t m => upd m (sh buf t) (m (sh I ((1 + 4 * t) * is)))) m in
  zfor (nsteps 0 i2 4) (fun t m => upd m (sh buf (c1 + t)) (m (sh I ((i2 - 4 * t) * is)))) m.
(** :83-120 *)
Definition split_store_e (n os : Z) (buf O : loc) (m : mem) : mem :=
  let n2 := Z.quot n 2 in let W := tw_cs (2 * n) 0 1 in
  let b20 := m (sh O 0) in let b0 := (2 * m (sh buf 0%Z))%R in
  let m := upd (upd m (sh O 0) (b20 + b0)%R) (sh O (2 * n2 * os)) (b20 - b0)%R in
  let m := pairs n2 (fun i m =>
      let br := m (sh buf i) in let bi := m (sh buf (n2 - i)) in
      let wr := W (2 * i) in let wi := W (2 * i + 1) in
      let wbr := (2 * (wr * br + wi * bi))%R in let wbi := (2 * (wr * bi - wi * br))%R in
      let ap := m (sh O (i * os)) in
      let m := upd (upd m (sh O (i * os)) (ap + wbr)%R) (sh O ((2 * n2 - i) * os)) (ap - wbr)%R in
      let am := m (sh O ((n2 - i) * os)) in
      upd (upd m (sh O ((n2 - i) * os)) (am - wbi)%R) (sh O ((n2 + i) * os)) (am + wbi)%R) m in
  middle n2 (fun i m =>
      let wbr := (2 * (W (2 * i)%Z * m (sh buf i)))%R in
      let ap := m (sh O (i * os)) in
      upd (upd m (sh O (i * os)) (ap + wbr)%R) (sh O ((2 * n2 - i) * os)) (ap - wbr)%R) m.
(** one transform of apply_e, :51-125 *)
Definition split_apply_e (n is os : Z) (clde cldo : rapply) : rapply := fun nx I O m =>
  let buf := (nx, 0) in
  let m := split_load_e n is buf I m in
  let m := cldo (S nx) buf buf m in
  let m := clde (S nx) I O m in
  split_store_e n os buf O m.
(** :145-148, "n" there is size = n - 1 *)
Definition split_load_o (n is : Z) (buf I : loc) (m : mem) : mem :=
  let N := n - 1 in
  let c1 := nsteps 0 N 4 in let i2 := 2 * N - 4 * c1 in
  let m := zfor c1 (fun t m => upd m (sh buf t) (m (sh I (4 * t * is)))) m in
  zfor (nsteps 0 i2 4) (fun t m => upd m (sh buf (c1 + t)) (- m (sh I ((i2 - 4 * t) * is)%Z))%R) m.
(** :171-202 *)
Definition split_store_o (n os : Z) (buf O : loc) (m : mem) : mem :=
  let n2 := Z.quot n 2 in let W := tw_cs (2 * n) 0 1 in
  let m := upd m (sh O ((n2 - 1) * os)) (2 * m (sh buf 0%Z))%R in
  let m := pairs n2 (fun i m =>
      let br := m (sh buf i) in let bi := m (sh buf (n2 - i)) in
      let wr := W (2 * i) in let wi := W (2 * i + 1) in
      let wbr := (2 * (wr * br + wi * bi))%R in let wbi := (2 * (wi * br - wr * bi))%R in
      let ap := m (sh O ((i - 1) * os)) in
      let m := upd (upd m (sh O ((i - 1) * os)) (wbi + ap)%R) (sh O ((2 * n2 - 1 - i) * os)) (wbi - ap)%R in
      let am := m (sh O ((n2 - 1 - i) * os)) in
      upd (upd m (sh O ((n2 - 1 - i) * os)) (wbr + am)%R) (sh O ((n2 - 1 + i) * os)) (wbr - am)%R) m in
  middle n2 (fun i m =>
      let wbi := (2 * (W (2 * i + 1)%Z * m (sh buf i)))%R in
      let ap := m (sh O ((i - 1) * os)) in
      upd (upd m (sh O ((i - 1) * os)) (wbi + ap)%R) (sh O ((2 * n2 - 1 - i) * os)) (wbi - ap)%R) m.
(** one transform of apply_o, :128-207; [ip]: I == O (which holds for all
    transforms of the vector or for none, since then ivs = ovs) *)
Definition split_apply_o (ip : bool) (n is os : Z) (clde cldo : rapply) : rapply := fun nx I O m =>
  let buf := (nx, 0) in let n2 := Z.quot n 2 in
  let m := split_load_o n is buf I m in
  let m := cldo (S nx) buf buf m in
  let m := if ip
    then let m := clde (S nx) (sh I is) (sh I is) m in
         zfor (n2 - 1) (fun i m => upd m (sh O (i * os)) (m (sh I ((i + 1) * is)))) m
    else clde (S nx) (sh I is) O m in
  split_store_o n os buf O m.

Section Plans.
  Context (qs : qsort_t).

  Inductive rplanned : bool -> bool -> list rdim -> list iodim -> rapply -> Prop :=
  (* rank 0: rdft/nop.c, rank0.c, vrank-geq1.c, vrank3-transpose.c (Rank0Model.v) *)
  | R_rank0 nd ip vec f : rplanned0 qs ip vec f -> rplanned nd ip [] vec f
  (* rdft/direct-r2r.c:41-46, applicable :65-93 *)
  | R_direct_r2r nd ip kd d vec vl ivs ovs :
      tensor_tornk1 vec = Some (vl, ivs, ovs) ->
      ip = false \/ vl = 1 \/ tensor_inplace_strides2 [d] vec = true ->
      rplanned nd ip [(kd, d)] vec (kr2r kd (dn d) (dis d) (dos d) vl ivs ovs)
  (* rdft/direct-r2c.c:46-62, applicable :190-217, mkplan :253-319 *)
  | R_direct_r2c nd ip kd d vec vl ivs ovs :
      R2HC_KINDP kd = true \/ HC2R_KINDP kd = true ->
      tensor_tornk1 vec = Some (vl, ivs, ovs) ->
      ip = false \/ vl = 1 \/ tensor_inplace_strides2 [d] vec = true ->
      rplanned nd ip [(kd, d)] vec (r2c_apply kd (dn d) (dis d) (dos d) vl ivs ovs)
  (* rdft/direct-r2c.c:64-158, applicable_buf :219-251 *)
  | R_direct_r2cbuf nd ip kd d vec vl ivs ovs :
      R2HC_KINDP kd = true \/ HC2R_KINDP kd = true ->
      tensor_tornk1 vec = Some (vl, ivs, ovs) ->
      ip = false \/ tensor_inplace_strides2 [d] vec = true \/ vl <= compute_batchsize (dn d) ->
      rplanned nd ip [(kd, d)] vec (r2c_apply_buf kd (dn d) (dis d) (dos d) vl ivs ovs)
  (* rdft/vrank-geq1.c:54-64, 92-105, 153-198; kernel/pickdim.c:29-82 *)
  | R_vrank nd ip sz vec i d f :
      sz <> [] -> nth_error vec i = Some d -> (ip = true -> dis d = dos d) ->
      rchild nd ip sz (tensor_copy_except vec i) f ->
      rplanned nd ip sz vec (vloop (dn d) (dis d) (dos d) f)
  (* threads/rdft-vrank-geq1.c:46-71, 104-178; kernel/pickdim.c:29-82; the blocks run in any order *)
  | R_thr_vrank nd ip sz vec i d nthr fs ord :
      1 < nthr -> nth_error vec i = Some d -> (ip = true -> dis d = dos d) ->
      (forall j, 0 <= j < thr_nb (dn d) nthr ->
         rchild nd ip sz (set_nth vec i (mkdim (thr_cnt (dn d) nthr j) (dis d) (dos d))) (fs j)) ->
      Permutation ord (zr (thr_nb (dn d) nthr)) ->
      rplanned nd ip sz vec (thr_vrank_apply (dn d) (dis d) (dos d) nthr fs ord)
  (* rdft/rank-geq2.c:53-63, 88-108, 135-186 *)
  | R_rank2 nd ip sz vec k f1 f2 :
      (0 < k < length sz)%nat ->
      rchild nd ip (skipn k sz) (vec ++ ds (firstn k sz)) f1 ->
      rchild nd true (rip (firstn k sz) INPLACE_OS)
             (tensor_copy_inplace vec INPLACE_OS ++ tensor_copy_inplace (ds (skipn k sz)) INPLACE_OS) f2 ->
      rplanned nd ip sz vec (fun nx I O m => f2 nx O O (f1 nx I O m))
  (* rdft/indirect.c:55-74, 132-165, 180-215 (apply_before) *)
  | R_before nd ip sz vec fc f :
      sz <> [] ->
      rchild nd ip [] (vec ++ ds sz) fc ->
      rchild nd true (rip sz INPLACE_OS) (tensor_copy_inplace vec INPLACE_OS) f ->
      rplanned nd ip sz vec (fun nx I O m => f nx O O (fc nx I O m))
  (* rdft/indirect.c:84-103, 132-165, 180-215 (apply_after) *)
  | R_after nd ip sz vec fc f :
      sz <> [] -> ip = true \/ nd = false ->
      rchild nd ip [] (vec ++ ds sz) fc ->
      rchild nd true (rip sz INPLACE_IS) (tensor_copy_inplace vec INPLACE_IS) f ->
      rplanned nd ip sz vec (fun nx I O m => fc nx I O (f nx I I m))
  (* rdft/buffered.c:40-67, 128-186, 213-322, kinds other than HC2R *)
  | R_buffered nd ip kd n is os vec vl ivs ovs maxnb nb bd fb fc fr :
      kd <> HC2R ->
      tensor_tornk1 vec = Some (vl, ivs, ovs) ->
      maxnb = 8 \/ maxnb = 256 ->
      nb = nbuf n vl maxnb -> bd = bufdist n vl -> n <= INTMAX ->
      ip = false \/ tensor_inplace_strides2 [mkdim n is os] vec = true \/ vec = [] \/ nb = vl ->
      rchild (nd && negb ip) false [(kd, mkdim n is 1)] [mkdim nb ivs bd] fb ->
      rchild nd false [] [mkdim nb bd ovs; mkdim n 1 os] fc ->
      rchild nd (ip && (ivs * (nb * Z.quot vl nb) =? ovs * (nb * Z.quot vl nb)))
             [(kd, mkdim n is os)] [mkdim (Z.rem vl nb) ivs ovs] fr ->
      rplanned nd ip [(kd, mkdim n is os)] vec (rbuffered_apply vl nb ivs ovs fb fc fr)
  (* rdft/buffered.c:72-99, 128-186, 213-322, HC2R *)
  | R_buffered_hc2r nd ip n is os vec vl ivs ovs maxnb nb bd fb fc fr :
      tensor_tornk1 vec = Some (vl, ivs, ovs) ->
      maxnb = 8 \/ maxnb = 256 ->
      nb = nbuf n vl maxnb -> bd = bufdist n vl -> n <= INTMAX ->
      ip = false \/ tensor_inplace_strides2 [mkdim n is os] vec = true \/ vec = [] \/ nb = vl ->
      rchild nd false [] [mkdim nb ivs bd; mkdim n is 1] fc ->
      rchild false false [(HC2R, mkdim n 1 os)] [mkdim nb bd ovs] fb ->
      rchild nd (ip && (ivs * (nb * Z.quot vl nb) =? ovs * (nb * Z.quot vl nb)))
             [(HC2R, mkdim n is os)] [mkdim (Z.rem vl nb) ivs ovs] fr ->
      rplanned nd ip [(HC2R, mkdim n is os)] vec (rbuffered_apply vl nb ivs ovs fc fb fr)
  (* rdft/dht-r2hc.c:38-61, 81-96, 98-132 *)
  | R_dht_r2hc nd ip n is os f :
      rchild nd ip [(R2HC, mkdim n is os)] [] f ->
      rplanned nd ip [(DHT, mkdim n is os)] [] (dht_r2hc_apply n os f)
  (* rdft/rdft-dht.c:40-64, 141-156, 164-207 *)
  | R_r2hc_dht nd ip n is os f :
      2 < n ->
      rchild nd ip [(DHT, mkdim n is os)] [] f ->
      rplanned nd ip [(R2HC, mkdim n is os)] [] (r2hc_dht_apply n os f)
  (* rdft/rdft-dht.c:67-90, 141-156, 164-207 *)
  | R_hc2r_dht ip n is os f :
      2 < n ->
      rchild false ip [(DHT, mkdim n is os)] [] f ->
      rplanned false ip [(HC2R, mkdim n is os)] [] (hc2r_dht_apply n is f)
  (* rdft/rdft-dht.c:93-119, 141-156, 164-207 *)
  | R_hc2r_dht_save ip n is os f :
      2 < n ->
      rchild true true [(DHT, mkdim n os os)] [] f ->
      rplanned true ip [(HC2R, mkdim n is os)] [] (hc2r_dht_save n is os f)
  (* rdft/generic.c:37-93, applicable :177-190 *)
  | R_generic_r2hc nd ip n is os :
      Z.rem n 2 = 1 -> is_prime INTMAX n = Ret true ->
      rplanned nd ip [(R2HC, mkdim n is os)] [] (rgeneric_r2hc n is os)
  (* rdft/generic.c:96-149, applicable :177-190 *)
  | R_generic_hc2r nd ip n is os :
      Z.rem n 2 = 1 -> is_prime INTMAX n = Ret true ->
      rplanned nd ip [(HC2R, mkdim n is os)] [] (rgeneric_hc2r n is os)
  (* reodft/redft00e-r2hc-pad.c:43-77, 100-111, 118-184 *)
  | R_redft00_pad nd ip n is os vec vl ivs ovs f fc :
      tensor_tornk1 vec = Some (vl, ivs, ovs) -> 1 < n ->
      rchild nd true [(R2HC, mkdim (2 * (n - 1)) 1 1)] [] f ->
      rchild nd false [] [mkdim n 1 os] fc ->
      rplanned nd ip [(REDFT00, mkdim n is os)] vec (vloop vl ivs ovs (redft00_pad (n - 1) is f fc))
  (* reodft/rodft00e-r2hc-pad.c:43-77, 100-109, 116-182 *)
  | R_rodft00_pad nd ip n is os vec vl ivs ovs f fc :
      tensor_tornk1 vec = Some (vl, ivs, ovs) ->
      rchild nd true [(R2HC, mkdim (2 * (n + 1)) 1 1)] [] f ->
      rchild nd false [] [mkdim n (-1) os] fc ->
      rplanned nd ip [(RODFT00, mkdim n is os)] vec (vloop vl ivs ovs (rodft00_pad (n + 1) is f fc))
  (* reodft/reodft010e-r2hc.c:84-288, 318-329, 336-400 *)
  | R_reodft010 nd ip kd n is os vec vl ivs ovs f :
      kd = REDFT01 \/ kd = REDFT10 \/ kd = RODFT01 \/ kd = RODFT10 ->
      tensor_tornk1 vec = Some (vl, ivs, ovs) ->
      rchild nd true [(R2HC, mkdim n 1 1)] [] f ->
      rplanned nd ip [(kd, mkdim n is os)] vec (vloop vl ivs ovs (buf_apply (load010 kd) (store010 kd) n is os f))
  (* reodft/reodft11e-r2hc-odd.c:65-201, 222-233, 240-288 *)
  | R_reodft11_odd nd ip (kd : rkind) n is os vec vl ivs ovs f :
      kd = REDFT11 \/ kd = RODFT11 ->
      tensor_tornk1 vec = Some (vl, ivs, ovs) -> Z.rem n 2 = 1 ->
      rchild nd true [(R2HC, mkdim n 1 1)] [] f ->
      rplanned nd ip [(kd, mkdim n is os)] vec (vloop vl ivs ovs
        (buf_apply (if rkind_eqb kd REDFT11 then re11o_load else ro11o_load)
                   (if rkind_eqb kd REDFT11 then re11o_store else ro11o_store) n is os f))
  (* reodft/reodft11e-radix2.c:59-184, 267-392, 429-440, 447-503 *)
  | R_reodft11_radix2 nd ip (kd : rkind) n is os vec vl ivs ovs f :
      kd = REDFT11 \/ kd = RODFT11 ->
      tensor_tornk1 vec = Some (vl, ivs, ovs) -> Z.rem n 2 = 0 ->
      rchild nd true [(R2HC, mkdim (Z.quot n 2) 1 1)] [mkdim 2 (Z.quot n 2) (Z.quot n 2)] f ->
      rplanned nd ip [(kd, mkdim n is os)] vec (vloop vl ivs ovs
        (buf_apply (if rkind_eqb kd REDFT11 then re11_load else ro11_load)
                   (if rkind_eqb kd REDFT11 then re11_store else ro11_store) n is os f))
  (* reodft/reodft00e-splitradix.c:51-125, 242-258, 265-341, REDFT00 *)
  | R_split_e nd ip n0 n is os vec vl ivs ovs fe fo :
      tensor_tornk1 vec = Some (vl, ivs, ovs) ->
      1 < n0 -> Z.rem n0 2 = 1 -> n = n0 - 1 ->
      (ip = true -> ivs = ovs) ->
      rchild nd ip [(REDFT00, mkdim (n0 - Z.quot n 2) (2 * is) os)] [] fe ->
      rchild nd true [(R2HC, mkdim (Z.quot n 2) 1 1)] [] fo ->
      rplanned nd ip [(REDFT00, mkdim n0 is os)] vec (vloop vl ivs ovs (split_apply_e n is os fe fo))
  (* reodft/reodft00e-splitradix.c:128-207, 242-258, 265-341, RODFT00 *)
  | R_split_o nd ip n0 n is os vec vl ivs ovs fe fo :
      tensor_tornk1 vec = Some (vl, ivs, ovs) ->
      1 < n0 -> Z.rem n0 2 = 1 -> n = n0 + 1 ->
      (ip = true -> ivs = ovs /\ os <= is) ->
      rchild nd ip [(RODFT00, mkdim (n0 - Z.quot n 2) (2 * is) (if ip then is else os))] [] fe ->
      rchild nd true [(R2HC, mkdim (Z.quot n 2) 1 1)] [] fo ->
      rplanned nd ip [(RODFT00, mkdim n0 is os)] vec (vloop vl ivs ovs (split_apply_o ip n is os fe fo))
  (* rdft/hc2hc.c:32-43, 78-118, 141-158 (R2HC) *)
  | R_hc_dit nd ip n is os vec v ivs ovs r0 r m w f :
      tensor_tornk1 vec = Some (v, ivs, ovs) ->
      choose_radix INTMAX r0 n = Ret r -> 0 < r -> r < n -> m = Z.quot n r ->
      hplanned nd R2HC r m os v ovs 0 (Z.quot (m + 2) 2) w ->
      rchild nd ip [(R2HC, mkdim m (r * is) os)] [mkdim r is (m * os); mkdim v ivs ovs] f ->
      rplanned nd ip [(R2HC, mkdim n is os)] vec (fun nx I O mm => w nx O (f nx I O mm))
  (* rdft/hc2hc.c:45-56, 78-118, 160-177 (HC2R) *)
  | R_hc_dif nd ip n is os vec v ivs ovs r0 r m w f :
      tensor_tornk1 vec = Some (v, ivs, ovs) ->
      ip = true \/ nd = false ->
      choose_radix INTMAX r0 n = Ret r -> 0 < r -> r < n -> m = Z.quot n r ->
      hplanned nd HC2R r m is v ivs 0 (Z.quot (m + 2) 2) w ->
      rchild nd ip [(HC2R, mkdim m is (r * os))] [mkdim r (m * is) os; mkdim v ivs ovs] f ->
      rplanned nd ip [(HC2R, mkdim n is os)] vec (fun nx I O mm => f nx I O (w nx I mm))
  (* threads/hc2hc.c:36-63, 110-177 (R2HC); the blocks of butterflies run in any order *)
  | R_thr_hc_dit nd ip n is os vec v ivs ovs r0 r m mcount nthr ws ord f :
      1 < nthr -> tensor_tornk1 vec = Some (v, ivs, ovs) ->
      choose_radix INTMAX r0 n = Ret r -> 0 < r -> r < n -> m = Z.quot n r -> mcount = Z.quot (m + 2) 2 ->
      (forall j, 0 <= j < thr_nb mcount nthr ->
         hplanned nd R2HC r m os v ovs (j * thr_bs mcount nthr) (thr_cnt mcount nthr j) (ws j)) ->
      Permutation ord (zr (thr_nb mcount nthr)) ->
      rchild nd ip [(R2HC, mkdim m (r * is) os)] [mkdim r is (m * os); mkdim v ivs ovs] f ->
      rplanned nd ip [(R2HC, mkdim n is os)] vec (fun nx I O mm => thr_ctw ws ord nx O (f nx I O mm))
  (* threads/hc2hc.c:36-43, 65-82, 110-148, 179-203 (HC2R) *)
  | R_thr_hc_dif nd ip n is os vec v ivs ovs r0 r m mcount nthr ws ord f :
      1 < nthr -> tensor_tornk1 vec = Some (v, ivs, ovs) ->
      ip = true \/ nd = false ->
      choose_radix INTMAX r0 n = Ret r -> 0 < r -> r < n -> m = Z.quot n r -> mcount = Z.quot (m + 2) 2 ->
      (forall j, 0 <= j < thr_nb mcount nthr ->
         hplanned nd HC2R r m is v ivs (j * thr_bs mcount nthr) (thr_cnt mcount nthr j) (ws j)) ->
      Permutation ord (zr (thr_nb mcount nthr)) ->
      rchild nd ip [(HC2R, mkdim m is (r * os))] [mkdim r (m * is) os; mkdim v ivs ovs] f ->
      rplanned nd ip [(HC2R, mkdim n is os)] vec (fun nx I O mm => f nx I O (thr_ctw ws ord nx I mm))

  (* cldw = ego->mkcldw(ego, kind, r, m, ms, v, vs, mstart, mcount, IO, plnr); every child is in place *)
  with hplanned : bool -> rkind -> Z -> Z -> Z -> Z -> Z -> Z -> Z -> wapply -> Prop :=
  (* rdft/hc2hc-direct.c:45-60, 186-258 *)
  | H_direct nd kd r m ms v vs mstart mcount f0 fm :
      rchild nd true (if CLD0P mstart then [(kd, mkdim r (m * ms) (m * ms))] else []) [] f0 ->
      rchild nd true (if CLDMP m mstart mcount then [(kd_mid kd, mkdim r (m * ms) (m * ms))] else []) [] fm ->
      hplanned nd kd r m ms v vs mstart mcount (hc_direct kd r m ms v vs (hc_mb mstart) (hc_me m mstart mcount) f0 fm)
  (* rdft/hc2hc-direct.c:76-122, 186-258 *)
  | H_direct_buf nd kd r m ms v vs mstart mcount f0 fm :
      rchild nd true (if CLD0P mstart then [(kd, mkdim r (m * ms) (m * ms))] else []) [] f0 ->
      rchild nd true (if CLDMP m mstart mcount then [(kd_mid kd, mkdim r (m * ms) (m * ms))] else []) [] fm ->
      hplanned nd kd r m ms v vs mstart mcount (hc_direct_buf kd r m ms v vs (hc_mb mstart) (hc_me m mstart mcount) f0 fm)
  (* rdft/hc2hc-generic.c:162-170, 174-208, 233-289 *)
  | H_generic nd kd r m ms v vs mstart mcount mstride f0 f :
      kd = R2HC \/ kd = HC2R -> Z.rem m 2 <> 0 -> Z.rem r 2 <> 0 ->
      mstride = m - (mstart + mcount - 1) - hg_mstart1 mstart ->
      rchild nd true (if mstart =? 0 then [(kd, mkdim r (m * ms) (m * ms))] else []) [mkdim v vs vs] f0 ->
      rchild nd true [(kd, mkdim r (m * ms) (m * ms))]
        [mkdim 2 (mstride * ms) (mstride * ms); mkdim (hg_mcount1 mstart mcount) ms ms; mkdim v vs vs] f ->
      hplanned nd kd r m ms v vs mstart mcount (hc_generic kd r m ms v vs mstart mcount f0 f)

  (* X(mkplan)(plnr, X(mkproblem_rdft)(sz, vec, ...)), rdft/problem.c:131-207 *)
  with rchild : bool -> bool -> list rdim -> list iodim -> rapply -> Prop :=
  | RC_empty nd ip sz vec :        (* rdft/nop.c:35-47 case 1 *)
      (ip = true -> tensor_inplace_locations qs (ds sz) vec = true) ->
      tensor_compress_contiguous qs vec = None -> rchild nd ip sz vec (fun _ _ _ m => m)
  | RC_plan nd ip sz vec vec' f :
      (ip = true -> tensor_inplace_locations qs (ds sz) vec = true) ->
      tensor_compress_contiguous qs vec = Some vec' ->
      rplanned nd ip (rcompress sz) vec' f -> rchild nd ip sz vec f.
End Plans.
Scheme rplanned_mut := Minimality for rplanned Sort Prop
  with hplanned_mut := Minimality for hplanned Sort Prop
  with rchild_mut := Minimality for rchild Sort Prop.
Combined Scheme rplanned_ind2 from rplanned_mut, hplanned_mut, rchild_mut.
