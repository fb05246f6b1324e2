(** * Model of the complex DFT solvers, dft/*.c and rdft/dft-r2hc.c

    A problem_dft (dft/problem.c) is a transform tensor [sz], a vector tensor
    [vec], and pointers ri, ii, ro, io.  An apply function gets [ri] and [ro]; the
    imaginary pointers are [ri + di] and [ro + do_] (a plan is only ever executed
    with the differences it was planned for, api/execute-split-dft.c and
    api/execute-dft.c).  Memory holds exact real numbers: rounding is not modelled.
    BUF_ALLOC/MALLOC'ed scratch arrays are blocks numbered from [nx].

    The codelets generated by genfft (dft/scalar/codelets) are modelled as ideal
    kernels: load all inputs, compute the transform, store all outputs.  SIMD
    codelets (and the "extra_iter" variants of dftw-direct.c:58-70, which only
    SIMD codelets' okp can request) are not modelled.

    [planned qs nd ip di do_ sz vec f]: for the (canonical) problem with these
    parameters, [ri == ro] iff [ip], and NO_DESTROY_INPUT set iff [nd], some solver
    can return a plan whose apply function is [f].  Each rule is the
    apply/applicable0/mkplan of one solver.  Conditions that only prune the search
    (NO_SLOW, NO_UGLY, NO_LARGE_GENERIC, ... heuristics, the list of codelet sizes)
    are omitted, so [planned] allows every plan the planner could choose, and more. *)
From Coq Require Import Reals ZArith Permutation List Lia Bool.
From Verif Require Import NumTheory Cplx Spec Base PrimesModel TensorModel Offs XForm XKern CopyModel Rank0Model.
Import ListNotations.
Open Scope Z_scope.

(** ** Loops *)
(** number of iterations of for (i = lo; i < hi; i += step) *)
Definition nsteps (lo hi step : Z) : Z := if hi <=? lo then 0 else (hi - lo + step - 1) / step.
(** a for loop over i = 0 .. n-1 with an arbitrary state *)
Fixpoint nforS {A} (n : nat) (body : Z -> A -> A) (s : A) : A :=
  match n with O => s | S k => body (Z.of_nat k) (nforS k body s) end.
Definition zforS {A} (n : Z) (body : Z -> A -> A) (s : A) : A := nforS (Z.to_nat n) body s.
(** the value of an outcome (the theorems show it is always [Ret]) *)
Definition unr (o : out Z) : Z := match o with Ret z => z | _ => 0 end.

(** ** Codelets (ideal kernels) *)
(** kdft, dft/codelet-dft.h:59-60: vl transforms of size n *)
Definition kdft (di do_ n is os vl ivs ovs : Z) : rapply :=
  vloop vl ivs ovs (kern (cx di do_ [mkdim n is os])).

(** One twiddle butterfly of radix r at index k of a transform of size r*m:
    decimation in time multiplies the inputs by the twiddle factors, decimation
    in frequency the outputs. *)
Definition bfly (dit : bool) (r m k : Z) (x : Z -> C) (k1 : Z) : C :=
  if dit then Csum r (fun j => x j * W (r * m)%Z (j * k)%Z * W r (j * k1)%Z)%C
  else (Csum r (fun j => x j * W r (j * k1)%Z) * W (r * m)%Z (k1 * k)%Z)%C.
Definition xw1 (dit : bool) (di r irs ors m k : Z) : xform :=
  cxf di di (locs [(r, irs)]) (boxl [mkdim r irs ors]) (ooff [mkdim r irs ors])
      (fun ks x => bfly dit r m k (fun j => x (j * irs)) (hd 0 ks)).
(** kdftw, dft/codelet-dft.h:86-87: butterflies mb <= k < me, in place *)
Definition kdftw (dit : bool) (di r rs m mb me ms : Z) (p : loc) (mm : mem) : mem :=
  zfor (me - mb) (fun i => kern (xw1 dit di r rs rs m (mb + i)) 0%nat (sh p (i * ms)) (sh p (i * ms))) mm.
(** kdftwsq, dft/codelet-dft.h:92-94: r butterflies for each k, transposed *)
Definition kdftwsq (dit : bool) (di r rs vs m mb me ms : Z) (p : loc) (mm : mem) : mem :=
  zfor (me - mb) (fun i => kern (xvec (xw1 dit di r rs vs m (mb + i)) [mkdim r vs rs]) 0%nat (sh p (i * ms)) (sh p (i * ms))) mm.

(** ** Trigonometric tables *)
(** t->cexp(t, k, w) of a triggen for n, kernel/trig.c: exp(2 pi i k/n) *)
Definition cexp (n k : Z) : C := cis (2 * PI * IZR k / IZR n)%R.
(** The real at offset [o] of the table X(twiddle_awake) makes for
    { TW_FULL 0, TW_NEXT 1 } with arguments n, r (kernel/twiddle.c:124-195):
    rows j = 0, 1, ... of the complex numbers exp(2 pi i j*i/n), i = 1..r-1. *)
Definition tw_full (n r o : Z) : R :=
  let j := o / (2 * (r - 1)) in let c := o mod (2 * (r - 1)) in
  part (c mod 2) (cexp n (j * (c / 2 + 1))).
(** ... for { TW_HALF 1, TW_NEXT 1 } with n = r odd: row j-1 (j = 1, 2, ...) holds
    exp(2 pi i (i*j mod n)/n) for 1 <= i, 2i < n. *)
Definition tw_half (n o : Z) : R :=
  let j := o / (n - 1) + 1 in let c := o mod (n - 1) in
  part (c mod 2) (cexp n (((c / 2 + 1) * j) mod n)).

(** ** dft/direct.c *)
(** compute_batchsize, dft/direct.c:63-70 and dft/dftw-direct.c:92-99 *)
Definition compute_batchsize (n : Z) : Z := Z.land (n + 3) (-4) + 2.
(** dobatch, dft/direct.c:42-61; [B] = compute_batchsize n, bufstride = 2B *)
Definition direct_dobatch (di do_ n is os ivs ovs B bsz : Z) (nx : nat) (buf I O : loc) (m : mem) : mem :=
  let m1 := cpy2d_pair_ci n is (2 * B) bsz ivs 2 I (sh I di) buf (sh buf 1) m in
  if Z.abs os <? Z.abs ovs
  then kdft 1 do_ n (2 * B) os bsz 2 ovs nx buf O m1
  else
    let m2 := kdft 1 1 n (2 * B) (2 * B) bsz 2 2 nx buf buf m1 in
    cpy2d_pair_co n (2 * B) os bsz 2 ovs buf (sh buf 1) O (sh O do_) m2.
(** apply_buf, dft/direct.c:72-90 *)
Definition direct_apply_buf (di do_ n is os vl ivs ovs : Z) : rapply := fun nx I O m =>
  let B := compute_batchsize n in
  let cnt := nsteps 0 (vl - B) B in
  let m1 := zfor cnt (fun i => direct_dobatch di do_ n is os ivs ovs B B (S nx) (nx, 0)
                                 (sh I (i * (B * ivs))) (sh O (i * (B * ovs)))) m in
  direct_dobatch di do_ n is os ivs ovs B (vl - cnt * B) (S nx) (nx, 0)
    (sh I (cnt * (B * ivs))) (sh O (cnt * (B * ovs))) m1.
(** apply_extra_iter, dft/direct.c:99-114 *)
Definition direct_extra_iter (di do_ n is os vl ivs ovs : Z) : rapply := fun nx I O m =>
  kdft di do_ n is os 1 0 0 nx (sh I ((vl - 1) * ivs)) (sh O ((vl - 1) * ovs))
    (kdft di do_ n is os (vl - 1) ivs ovs nx I O m).

(** ** Twiddle steps: cldw->apply(cldw, rio, iio), dft/ct.h *)
Definition wapply := nat -> loc -> mem -> mem.
(** apply, dft/dftw-direct.c:46-56 *)
Definition dftw_direct (dit : bool) (di r rs m ms v vs mb me : Z) : wapply := fun nx p mm =>
  zfor v (fun i => kdftw dit di r rs m mb me ms (sh p (i * vs + mb * ms))) mm.
(** dobatch, dft/dftw-direct.c:75-88 *)
Definition dftw_dobatch (dit : bool) (di r rs m ms B mb me : Z) (buf p : loc) (mm : mem) : mem :=
  let m1 := cpy2d_pair_ci r rs (2 * B) (me - mb) ms 2 (sh p (mb * ms)) (sh (sh p di) (mb * ms)) buf (sh buf 1) mm in
  let m2 := kdftw dit 1 r (2 * B) m mb me 2 buf m1 in
  cpy2d_pair_co r (2 * B) rs (me - mb) 2 ms buf (sh buf 1) (sh p (mb * ms)) (sh (sh p di) (mb * ms)) m2.
(** apply_buf, dft/dftw-direct.c:101-120 *)
Definition dftw_direct_buf (dit : bool) (di r rs m ms v vs mb me : Z) : wapply := fun nx p mm =>
  let B := compute_batchsize r in
  let cnt := nsteps mb (me - B) B in
  zfor v (fun i mm =>
    let q := sh p (i * vs) in
    let m1 := zfor cnt (fun j => dftw_dobatch dit di r rs m ms B (mb + j * B) (mb + j * B + B) (nx, 0) q) mm in
    dftw_dobatch dit di r rs m ms B (mb + cnt * B) me (nx, 0) q m1) mm.
(** apply, dft/dftw-directsq.c:41-47 *)
Definition dftw_directsq (dit : bool) (di r rs vs m ms mb me : Z) : wapply := fun nx p mm =>
  kdftwsq dit di r rs vs m mb me ms (sh p (mb * ms)) mm.
(** bytwiddle, dft/dftw-generic.c:51-76 *)
Definition gen_bytwiddle (di r rs m mb0 me ms v vs : Z) (p : loc) (mm : mem) : mem :=
  let mb := mb0 + (if mb0 =? 0 then 1 else 0) in
  let Wt := tw_full (r * m) m in
  zfor v (fun iv => zfor (r - 1) (fun ir' => zfor (me - mb) (fun im' mm =>
    let ir := ir' + 1 in let im := im' + mb in
    let pr := sh p (iv * vs + (ms * im + rs * ir)) in
    let pi := sh (sh p di) (iv * vs + (ms * im + rs * ir)) in
    let xr := mm pr in let xi := mm pi in
    let wr := Wt (2 * im + (2 * (m - 1)) * ir - 2) in
    let wi := Wt (2 * im + (2 * (m - 1)) * ir - 1) in
    upd (upd mm pr (xr * wr + xi * wi)%R) pi (xi * wr - xr * wi)%R))) mm.
(** apply_dit, apply_dif, dft/dftw-generic.c:88-110 *)
Definition dftw_generic (dit : bool) (di r rs m ms v vs mb me : Z) (cld : rapply) : wapply := fun nx p mm =>
  let dm := ms * mb in
  if dit then cld nx (sh p dm) (sh p dm) (gen_bytwiddle di r rs m mb me ms v vs p mm)
  else gen_bytwiddle di r rs m mb me ms v vs p (cld nx (sh p dm) (sh p dm) mm).
(** BATCHDIST, dft/dftw-genericbuf.c:42 *)
Definition BATCHDIST (r : Z) : Z := r + 16.
(** bytwiddle, dft/dftw-genericbuf.c:46-58; t->rotate (kernel/trig.c:199-219)
    multiplies by exp(-2 pi i j*k/n) (FFT_SIGN = -1) *)
Definition gbuf_bytwiddle (di r rs m ms mb me : Z) (buf p : loc) (mm : mem) : mem :=
  zfor r (fun j => zfor (me - mb) (fun k' mm =>
    let k := k' + mb in
    let z := ((mm (sh p (j * rs + k * ms)), mm (sh (sh p di) (j * rs + k * ms))) * Cplx.conj (cexp (r * m)%Z (j * k)%Z))%C in
    upd (upd mm (sh buf (j * 2 + 2 * BATCHDIST r * (k - mb) + 0)) (fst z))
        (sh buf (j * 2 + 2 * BATCHDIST r * (k - mb) + 1)) (snd z))) mm.
(** dobatch, dft/dftw-genericbuf.c:89-102 *)
Definition gbuf_dobatch (di r rs m ms mb me : Z) (cld : rapply) (nx : nat) (buf p : loc) (mm : mem) : mem :=
  let m1 := gbuf_bytwiddle di r rs m ms mb me buf p mm in
  let m2 := cld nx buf buf m1 in
  cpy2d_pair_co (me - mb) (2 * BATCHDIST r) ms r 2 rs buf (sh buf 1)
    (sh p (ms * mb)) (sh (sh p di) (ms * mb)) m2.
(** apply, dft/dftw-genericbuf.c:104-117 *)
Definition dftw_genericbuf (di r rs m ms bsz mb me : Z) (cld : rapply) : wapply := fun nx p mm =>
  zfor (nsteps mb me bsz) (fun i =>
    gbuf_dobatch di r rs m ms (mb + i * bsz) (mb + i * bsz + bsz) cld (S nx) (nx, 0) p) mm.

(** ** dft/generic.c *)
(** hartley, dft/generic.c:54-69, with *pr = O[0], *pi = (O+do)[0] *)
Definition hartley (di do_ n xs : Z) (buf I O : loc) (m : mem) : mem :=
  let sr := m (sh I 0) in
  let m1 := upd m (sh buf 0) sr in
  let si := m1 (sh (sh I di) 0) in
  let m2 := upd m1 (sh buf 1) si in
  let '(m3, sr, si) := zforS (Z.quot (n - 1) 2) (fun i' s =>
      let '(m, sr, si) := s in
      let i := i' + 1 in let o := 2 + 4 * i' in
      let v0 := (m (sh I (i * xs)) + m (sh I ((n - i) * xs)))%R in
      let m := upd m (sh buf o) v0 in
      let v1 := (m (sh (sh I di) (i * xs)) + m (sh (sh I di) ((n - i) * xs)))%R in
      let m := upd m (sh buf (o + 1)) v1 in
      let m := upd m (sh buf (o + 2)) (m (sh I (i * xs)) - m (sh I ((n - i) * xs)))%R in
      let m := upd m (sh buf (o + 3)) (m (sh (sh I di) (i * xs)) - m (sh (sh I di) ((n - i) * xs)))%R in
      (m, (sr + v0)%R, (si + v1)%R)) (m2, sr, si) in
  upd (upd m3 (sh O 0) sr) (sh (sh O do_) 0) si.
(** cdot, dft/generic.c:34-52; [w] is the table from the current row on *)
Definition cdot (n : Z) (x : loc) (w : Z -> R) (or0 oi0 or1 oi1 : loc) (m : mem) : mem :=
  let '(rr, ri, ir, ii) := zforS (Z.quot (n - 1) 2) (fun i' s =>
      let '(rr, ri, ir, ii) := s in
      let xo := 2 + 4 * i' in let wo := 2 * i' in
      ((rr + m (sh x xo) * w wo)%R, (ri + m (sh x (xo + 2)%Z) * w (wo + 1)%Z)%R,
       (ir + m (sh x (xo + 1)%Z) * w wo)%R, (ii + m (sh x (xo + 3)%Z) * w (wo + 1)%Z)%R))
      (m (sh x 0), 0%R, m (sh x 1), 0%R) in
  upd (upd (upd (upd m or0 (rr + ii)%R) oi0 (ir - ri)%R) or1 (rr - ii)%R) oi1 (ir + ri)%R.
(** apply, dft/generic.c:71-91 *)
Definition generic_apply (di do_ n is os : Z) : rapply := fun nx I O m =>
  let buf := (nx, 0) in
  let m1 := hartley di do_ n is buf I O m in
  zfor (Z.quot (n - 1) 2) (fun i' =>
    let i := i' + 1 in
    cdot n buf (fun o => tw_half n (i' * (n - 1) + o))
      (sh O (i * os)) (sh (sh O do_) (i * os))
      (sh O ((n - i) * os)) (sh (sh O do_) ((n - i) * os))) m1.

(** ** dft/rader.c *)
(** mkomega, dft/rader.c:45-74.  The table is made in an array of its own; [m0] is
    the memory at that time, in which the array is block 0 and the child plan's
    scratch arrays are blocks 1, 2, ....  (A table found by X(rader_tl_find) was
    made by the same code for the same n and ginv.) *)
Definition rader_omega (n ginv : Z) (cld_omega : rapply) (m0 : mem) : Z -> R :=
  let om := (0%nat, 0) in
  let '(m1, _) := zforS (n - 1) (fun i s =>
      let '(m, gpower) := s in
      let w := cexp n gpower in
      (upd (upd m (sh om (2 * i)) (fst w / (IZR n - 1))%R) (sh om (2 * i + 1)) (- snd w / (IZR n - 1))%R,
       unr (MULMOD INTMAX gpower ginv n))) (m0, 1) in
  let m2 := cld_omega 1%nat om om m1 in
  fun o => m2 (sh om o).
(** permute the input into buf, dft/rader.c:106-112 *)
Definition rader_load (di n is g : Z) (buf I : loc) (m : mem) : mem :=
  fst (zforS (n - 1) (fun k s =>
      let '(m, gpower) := s in
      let rA := m (sh I (gpower * is)) in
      let iA := m (sh (sh I di) (gpower * is)) in
      (upd (upd m (sh buf (2 * k)) rA) (sh buf (2 * k + 1)) iA, unr (MULMOD INTMAX gpower g n))) (m, 1)).
(** the output's DC component, dft/rader.c:122-126 *)
Definition rader_dc (do_ os : Z) (r0 i0 : R) (O : loc) (m : mem) : mem :=
  let m3 := upd m (sh O 0) (r0 + m (sh O os))%R in
  upd m3 (sh (sh O do_) 0) (i0 + m3 (sh (sh O do_) os))%R.
(** multiply by omega, dft/rader.c:128-140 *)
Definition rader_mult (do_ n os : Z) (omega : Z -> R) (O : loc) (m : mem) : mem :=
  zfor (n - 1) (fun k m =>
      let rW := omega (2 * k) in let iW := omega (2 * k + 1) in
      let rB := m (sh O ((k + 1) * os)) in let iB := m (sh (sh O do_) ((k + 1) * os)) in
      upd (upd m (sh O ((k + 1) * os)) (rW * rB - iW * iB)%R)
          (sh (sh O do_) ((k + 1) * os)) (- (rW * iB + iW * rB))%R) m.
(** add input[0], dft/rader.c:142-144 *)
Definition rader_add0 (do_ os : Z) (r0 i0 : R) (O : loc) (m : mem) : mem :=
  let m6 := upd m (sh O os) (m (sh O os) + r0)%R in
  upd m6 (sh (sh O do_) os) (m6 (sh (sh O do_) os) - i0)%R.
(** inverse permutation, dft/rader.c:152-161 *)
Definition rader_store (do_ n os ginv : Z) (buf O : loc) (m : mem) : mem :=
  fst (zforS (n - 1) (fun k s =>
      let '(m, gpower) := s in
      let m' := upd m (sh O (gpower * os)) (m (sh buf (2 * k))) in
      (upd m' (sh (sh O do_) (gpower * os)) (- m' (sh buf (2 * k + 1)))%R, unr (MULMOD INTMAX gpower ginv n))) (m, 1)).
(** apply, dft/rader.c:95-165 *)
Definition rader_apply (di do_ n is os g ginv : Z) (omega : Z -> R) (cld1 cld2 : rapply) : rapply :=
  fun nx I O m =>
  let buf := (nx, 0) in
  let r0 := m (sh I 0) in let i0 := m (sh (sh I di) 0) in
  let m := rader_load di n is g buf I m in
  let m := cld1 (S nx) buf (sh O os) m in
  let m := rader_dc do_ os r0 i0 O m in
  let m := rader_mult do_ n os omega O m in
  let m := rader_add0 do_ os r0 i0 O m in
  let m := cld2 (S nx) (sh O os) buf m in
  rader_store do_ n os ginv buf O m.

(** ** dft/bluestein.c *)
(** bluestein_sequence, dft/bluestein.c:37-50, as the function k -> w[2k], w[2k+1];
    the inner while loop runs to completion for the fuel given *)
Definition ksq_red (n2 ksq : Z) : Z :=
  unr (oloop (bits ksq) (fun s => if n2 <? s then Cont (s - n2) else Done (Ret s)) ksq).
Definition blue_ksq (n k : Z) : Z :=
  zforS k (fun k ksq => ksq_red (2 * n) (ksq + (2 * k + 1))) 0.
Definition blue_w (n k : Z) : C := cexp (2 * n) (blue_ksq n k).
(** the array W before its transform, dft/bluestein.c:64-73 *)
Definition blue_init (n nb : Z) (Wp : loc) (m : mem) : mem :=
  let w k c := part c (blue_w n k) in
  let m1 := zfor nb (fun i m => upd (upd m (sh Wp (2 * i + 1)) 0%R) (sh Wp (2 * i)) 0%R) m in
  let m2 := upd (upd m1 (sh Wp 0) (w 0%Z 0%Z / IZR nb)%R) (sh Wp 1) (w 0%Z 1%Z / IZR nb)%R in
  zfor (n - 1) (fun i' m =>
      let i := i' + 1 in
      let a := (w i 0%Z / IZR nb)%R in let b := (w i 1%Z / IZR nb)%R in
      upd (upd (upd (upd m (sh Wp (2 * (nb - i))) a) (sh Wp (2 * i)) a)
               (sh Wp (2 * (nb - i) + 1)) b) (sh Wp (2 * i + 1)) b) m2.
(** mktwiddle, dft/bluestein.c:52-80 (the array W); memory as for [rader_omega] *)
Definition blue_W (n nb : Z) (cldf : rapply) (m0 : mem) : Z -> R :=
  let Wp := (0%nat, 0) in
  let m4 := cldf 1%nat Wp Wp (blue_init n nb Wp m0) in
  fun o => m4 (sh Wp o).
(** multiply the input by the conjugate sequence, dft/bluestein.c:89-95 *)
Definition blue_load (di n is : Z) (b I : loc) (m : mem) : mem :=
  let w k c := part c (blue_w n k) in
  zfor n (fun i m =>
      let xr := m (sh I (i * is)) in let xi := m (sh (sh I di) (i * is)) in
      let wr := w i 0 in let wi := w i 1 in
      upd (upd m (sh b (2 * i)) (xr * wr + xi * wi)%R) (sh b (2 * i + 1)) (xi * wr - xr * wi)%R) m.
(** pad with zeros, dft/bluestein.c:97 *)
Definition blue_pad (n nb : Z) (b : loc) (m : mem) : mem :=
  zfor (nb - n) (fun i' m => let i := n + i' in
      upd (upd m (sh b (2 * i + 1)) 0%R) (sh b (2 * i)) 0%R) m.
(** pointwise multiplication, dft/bluestein.c:105-111 *)
Definition blue_mult (nb : Z) (W : Z -> R) (b : loc) (m : mem) : mem :=
  zfor nb (fun i m =>
      let xr := m (sh b (2 * i)) in let xi := m (sh b (2 * i + 1)) in
      let wr := W (2 * i) in let wi := W (2 * i + 1) in
      upd (upd m (sh b (2 * i)) (xi * wr + xr * wi)%R) (sh b (2 * i + 1)) (xr * wr - xi * wi)%R) m.
(** multiply the output by the conjugate sequence, dft/bluestein.c:119-125 *)
Definition blue_store (do_ n os : Z) (b O : loc) (m : mem) : mem :=
  let w k c := part c (blue_w n k) in
  zfor n (fun i m =>
      let xi := m (sh b (2 * i)) in let xr := m (sh b (2 * i + 1)) in
      let wr := w i 0 in let wi := w i 1 in
      upd (upd m (sh O (i * os)) (xr * wr + xi * wi)%R) (sh (sh O do_) (i * os)) (xi * wr - xr * wi)%R) m.
(** apply, dft/bluestein.c:82-128 *)
Definition blue_apply (di do_ n nb is os : Z) (W : Z -> R) (cldf : rapply) : rapply := fun nx I O m =>
  let b := (nx, 0) in
  let m := blue_load di n is b I m in
  let m := blue_pad n nb b m in
  let m := cldf (S nx) b b m in
  let m := blue_mult nb W b m in
  let m := cldf (S nx) b b m in
  blue_store do_ n os b O m.
(** choose_transform_size, dft/bluestein.c:180-185 (at most 2^k iterations) *)
Definition choose_transform_size (k : nat) (minsz : Z) : out Z :=
  oloop k (fun s => b <~ factors_into_small_primes s;; if b : bool then Done (Ret s) else Cont (s + 1)) minsz.

(** ** kernel/buffered.c *)
Definition MAXBUFSZ : Z := Z.quot (256 * 1024) sizeof_R.
(** the loop of X(nbuf), kernel/buffered.c:44-47 *)
Fixpoint nbuf_loop (fuel : nat) (i lb vl dflt : Z) : Z :=
  match fuel with
  | O => dflt
  | S fu => if lb <=? i then (if Z.rem vl i =? 0 then i else nbuf_loop fu (i - 1) lb vl dflt) else dflt
  end.
(** X(nbuf), kernel/buffered.c:30-51 *)
Definition nbuf (n vl maxnbuf0 : Z) : Z :=
  let maxnbuf := if maxnbuf0 =? 0 then 256 else maxnbuf0 in
  let nb := Z.min maxnbuf (Z.min vl (Z.max 1 (Z.quot MAXBUFSZ n))) in
  let lb := Z.max 1 (Z.quot nb 4) in
  nbuf_loop (S (Z.to_nat nb)) nb lb vl nb.
(** X(bufdist), kernel/buffered.c:56-63 *)
Definition bufdist (n vl : Z) : Z := if vl =? 1 then n else n + unr (modulo INTMAX (6 - n) 8).
(** apply, dft/buffered.c:41-69 *)
Definition buffered_apply (vl nb ivs ovs roffset : Z) (cld cldcpy cldrest : rapply) : rapply := fun nx I O m =>
  let bufs := (nx, 0) in
  let cnt := nsteps nb (vl + 1) nb in
  let m1 := zfor cnt (fun i m =>
      let m := cld (S nx) (sh I (i * (ivs * nb))) (sh bufs roffset) m in
      cldcpy (S nx) (sh bufs roffset) (sh O (i * (ovs * nb))) m) m in
  cldrest nx (sh I (cnt * (ivs * nb))) (sh O (cnt * (ovs * nb))) m1.

(** ** dft/indirect-transpose.c *)
(** replace dims[i] *)
Definition set_nth (t : list iodim) (i : nat) (d : iodim) : list iodim :=
  firstn i t ++ d :: skipn (S i) t.
(** apply_op, dft/indirect-transpose.c:38-59 *)
Definition itrans_apply (vl ivs ovs : Z) (cldtrans cld cldrest : rapply) : rapply := fun nx I O m =>
  let m1 := zfor vl (fun i m =>
      let m := cldtrans nx (sh I (i * ivs)) (sh O (i * ovs)) m in
      cld nx (sh O (i * ovs)) (sh O (i * ovs)) m) m in
  cldrest nx (sh I (vl * ivs)) (sh O (vl * ovs)) m1.

(** ** rdft/dft-r2hc.c, rank 0: "make all istrides > 0", :140-148 *)
Fixpoint flip_dims (t : list iodim) : list iodim * Z * Z :=
  match t with
  | [] => ([], 0, 0)
  | d :: t' =>
      let '(t2, ishift, oshift) := flip_dims t' in
      if dis d <? 0
      then (mkdim (dn d) (- dis d) (- dos d) :: t2, ishift - (dn d - 1) * (- dis d), oshift - (dn d - 1) * (- dos d))
      else (d :: t2, ishift, oshift)
  end.

(** ** threads/dft-vrank-geq1.c, threads/ct.c

    The n iterations of a loop are divided among nthr threads: block_size
    (threads/dft-vrank-geq1.c:158, threads/ct.c:142), the number of blocks
    (:159, :143), and the size of block i (:169-170, :159-160 and 213-214), the
    last one being what is left.  A plan stores the number of blocks as nthr. *)
Definition thr_bs (n nthr : Z) : Z := Z.quot (n + nthr - 1) nthr.
Definition thr_nb (n nthr : Z) : Z := Z.quot (n + thr_bs n nthr - 1) (thr_bs n nthr).
Definition thr_cnt (n nthr i : Z) : Z :=
  if i =? thr_nb n nthr - 1 then n - i * thr_bs n nthr else thr_bs n nthr.
(** apply, threads/dft-vrank-geq1.c:45-71, when each block runs without
    interruption and the blocks run in the order [ord].  (Arbitrary interleavings
    are the subject of PropParallel.v.) *)
Definition thr_vrank_apply (n s u nthr : Z) (fs : Z -> rapply) (ord : list Z) : rapply := fun nx I O m =>
  fold_left (fun m j => fs j nx (sh I (j * (s * thr_bs n nthr))) (sh O (j * (u * thr_bs n nthr))) m) ord m.
(** the parallel loop of apply_dit and apply_dif, threads/ct.c:37-82, likewise *)
Definition thr_ctw (ws : Z -> wapply) (ord : list Z) : wapply := fun nx p mm => fold_left (fun mm j => ws j nx p mm) ord mm.

Section Plans.
  Context (qs : qsort_t).

  Inductive planned : bool -> bool -> Z -> Z -> list iodim -> list iodim -> rapply -> Prop :=
  (* dft/nop.c:26-52, case 2 *)
  | P_nop nd di do_ vec :
      tensor_inplace_strides vec = true ->
      planned nd true di do_ [] vec (fun _ _ _ m => m)
  (* rdft/dft-r2hc.c:43-70, 124-181 with rank-0 sz; the child is a rank-0 rdft problem *)
  | P_r2hc0 nd ip di do_ vec vec' ish osh f :
      flip_dims (mkdim 2 di do_ :: vec) = (vec', ish, osh) ->
      rchild0 qs (ip && (ish =? osh)) vec' f ->
      planned nd ip di do_ [] vec (fun nx I O m => f nx (sh I ish) (sh O osh) m)
  (* dft/direct.c:92-97, applicable :183-226 *)
  | P_direct nd ip di do_ d vec vl ivs ovs :
      tensor_tornk1 vec = Some (vl, ivs, ovs) ->
      ip = false \/ vl = 1 \/ tensor_inplace_strides2 [d] vec = true ->
      planned nd ip di do_ [d] vec (kdft di do_ (dn d) (dis d) (dos d) vl ivs ovs)
  (* dft/direct.c:99-114 *)
  | P_direct_extra nd ip di do_ d vec vl ivs ovs :
      tensor_tornk1 vec = Some (vl, ivs, ovs) ->
      ip = false \/ vl = 1 \/ tensor_inplace_strides2 [d] vec = true ->
      planned nd ip di do_ [d] vec (direct_extra_iter di do_ (dn d) (dis d) (dos d) vl ivs ovs)
  (* dft/direct.c:72-90, applicable_buf :137-181 *)
  | P_directbuf nd ip di do_ d dv :
      ip = false \/ tensor_inplace_strides2 [d] [dv] = true \/ dn dv <= compute_batchsize (dn d) ->
      planned nd ip di do_ [d] [dv] (direct_apply_buf di do_ (dn d) (dis d) (dos d) (dn dv) (dis dv) (dos dv))
  (* dft/ct.c:34-45, 82-98, 119-232 (DECDIT) *)
  | P_ct_dit nd ip di do_ n is os vec v ivs ovs r0 r m w f :
      tensor_tornk1 vec = Some (v, ivs, ovs) ->
      choose_radix INTMAX r0 n = Ret r -> 1 < r -> r < n -> m = Z.quot n r ->
      plannedw true do_ r (m * os) (m * os) m os v ovs ovs 0 m w ->
      child nd ip di do_ [mkdim m (r * is) os] [mkdim r is (m * os); mkdim v ivs ovs] f ->
      planned nd ip di do_ [mkdim n is os] vec (fun nx I O mm => w nx O (f nx I O mm))
  (* dft/ct.c:47-58, 82-98, 119-232 (DECDIF) *)
  | P_ct_dif nd ip di do_ n is os vec v ivs ovs r0 r m w f :
      tensor_tornk1 vec = Some (v, ivs, ovs) ->
      ip = true \/ nd = false ->
      choose_radix INTMAX r0 n = Ret r -> 1 < r -> r < n -> m = Z.quot n r ->
      plannedw false di r (m * is) (m * is) m is v ivs ivs 0 m w ->
      child nd ip di do_ [mkdim m is (r * os)] [mkdim r (m * is) os; mkdim v ivs ovs] f ->
      planned nd ip di do_ [mkdim n is os] vec (fun nx I O mm => f nx I O (w nx I mm))
  (* dft/ct.c:47-58, 82-98, 119-232 (DECDIF+TRANSPOSE) *)
  | P_ct_difsq nd di do_ n is os vec v ivs ovs r0 r m w f cors covs :
      tensor_tornk1 vec = Some (v, ivs, ovs) ->
      choose_radix INTMAX r0 n = Ret r -> 1 < r -> r < n -> m = Z.quot n r ->
      cors = ivs -> covs = m * is ->
      r = v -> is = r * cors -> is = r * os -> cors = os -> covs = ovs ->
      plannedw false di r (m * is) cors m is v ivs covs 0 m w ->
      child nd true di do_ [mkdim m is (r * os)] [mkdim r cors os; mkdim v covs ovs] f ->
      planned nd true di do_ [mkdim n is os] vec (fun nx I O mm => f nx I O (w nx I mm))
  (* dft/generic.c:71-91, applicable :112-126 *)
  | P_generic nd ip di do_ n is os :
      Z.rem n 2 = 1 -> is_prime INTMAX n = Ret true ->
      planned nd ip di do_ [mkdim n is os] [] (generic_apply di do_ n is os)
  (* dft/rader.c:95-191, applicable :213-228, mkP :230-289 *)
  | P_rader nd ip di do_ n is os g ginv f1 f2 fo nd1 nd2 nd3 m0 :
      n <= INTMAX -> is_prime INTMAX n = Ret true ->
      find_generator INTMAX n = Ret g -> power_mod INTMAX g (n - 2) n = Ret ginv ->
      child nd1 false 1 do_ [mkdim (n - 1) 2 os] [mkdim 1 0 0] f1 ->
      child nd2 false do_ 1 [mkdim (n - 1) os 2] [mkdim 1 0 0] f2 ->
      child nd3 true 1 1 [mkdim (n - 1) 2 2] [mkdim 1 0 0] fo ->
      planned nd ip di do_ [mkdim n is os] []
        (rader_apply di do_ n is os g ginv (rader_omega n ginv fo m0) f1 f2)
  (* dft/bluestein.c:82-146, applicable :148-165, mkplan :187-237 *)
  | P_bluestein nd ip di do_ n is os k nb f nd1 m0 :
      is_prime INTMAX n = Ret true -> 16 < n ->
      choose_transform_size k (2 * n - 1) = Ret nb ->
      child nd1 true 1 1 [mkdim nb 2 2] [mkdim 1 0 0] f ->
      planned nd ip di do_ [mkdim n is os] []
        (blue_apply di do_ n nb is os (blue_W n nb f m0) f)
  (* dft/vrank-geq1.c:54-65, 87-108, 145-189; kernel/pickdim.c:29-82 *)
  | P_vrank nd ip di do_ sz vec i d f :
      sz <> [] -> nth_error vec i = Some d -> (ip = true -> dis d = dos d) ->
      child nd ip di do_ sz (tensor_copy_except vec i) f ->
      planned nd ip di do_ sz vec (vloop (dn d) (dis d) (dos d) f)
  (* dft/rank-geq2.c:42-52, 77-97, 121-172 *)
  | P_rank2 nd ip di do_ sz vec k sz1 sz2 f1 f2 :
      (0 < k < length sz)%nat -> tensor_split sz k = (sz1, sz2) ->
      child nd ip di do_ sz2 (vec ++ sz1) f1 ->
      child nd true do_ do_ (tensor_copy_inplace sz1 INPLACE_OS)
            (tensor_copy_inplace vec INPLACE_OS ++ tensor_copy_inplace sz2 INPLACE_OS) f2 ->
      planned nd ip di do_ sz vec (fun nx I O m => f2 nx O O (f1 nx I O m))
  (* dft/indirect.c:55-74, 132-171, 184-221 (apply_before) *)
  | P_before nd ip di do_ sz vec fc f :
      sz <> [] ->
      child nd ip di do_ [] (vec ++ sz) fc ->
      child nd true do_ do_ (tensor_copy_inplace sz INPLACE_OS) (tensor_copy_inplace vec INPLACE_OS) f ->
      planned nd ip di do_ sz vec (fun nx I O m => f nx O O (fc nx I O m))
  (* dft/indirect.c:84-103, 132-171, 184-221 (apply_after) *)
  | P_after nd ip di do_ sz vec fc f :
      sz <> [] -> ip = true \/ nd = false ->
      child nd ip di do_ [] (vec ++ sz) fc ->
      child nd true di di (tensor_copy_inplace sz INPLACE_IS) (tensor_copy_inplace vec INPLACE_IS) f ->
      planned nd ip di do_ sz vec (fun nx I O m => fc nx I O (f nx I I m))
  (* dft/indirect-transpose.c:38-59, 84-120, 147-222 *)
  | P_itrans nd ip di do_ sz vec d0 d1 dv ds vl ft f fr :
      tensor_inplace_strides2 vec sz = true ->
      nth_error vec d0 = Some dv -> nth_error sz d1 = Some ds -> dn ds <= dn dv ->
      vl = Z.quot (dn dv) (dn ds) ->
      child nd ip di do_ []
        (set_nth (tensor_copy_inplace vec INPLACE_IS) d0 (mkdim (dn ds) (dis dv) (dis ds)) ++
         set_nth (tensor_copy_inplace sz INPLACE_IS) d1 (mkdim (dn ds) (dis ds) (dis dv))) ft ->
      child nd true do_ do_ (set_nth sz d1 (mkdim (dn ds) (dis dv) (dos ds)))
        (set_nth vec d0 (mkdim (dn ds) (dis ds) (dos dv))) f ->
      child nd ip di do_ sz (set_nth vec d0 (mkdim (dn dv - vl * dn ds) (dis dv) (dos dv))) fr ->
      planned nd ip di do_ sz vec (itrans_apply vl (dn ds * dis dv) (dn ds * dos dv) ft f fr)
  (* dft/buffered.c:41-69, 98-148, 163-269 *)
  | P_buffered nd ip di do_ n is os vec vl ivs ovs maxnb nb bd roffset fb fc fr :
      tensor_tornk1 vec = Some (vl, ivs, ovs) ->
      maxnb = 8 \/ maxnb = 256 ->
      nb = nbuf n vl maxnb -> bd = bufdist n vl -> n <= INTMAX ->
      ip = false \/ tensor_inplace_strides2 [mkdim n is os] vec = true \/ vec = [] \/ nb = vl ->
      roffset = (if di <? 0 then 1 else 0) ->
      child (nd && negb ip) false di (1 - 2 * roffset) [mkdim n is 2] [mkdim nb ivs (bd * 2)] fb ->
      child nd false (1 - 2 * roffset) do_ [] [mkdim nb (bd * 2) ovs; mkdim n 2 os] fc ->
      child nd (ip && (ivs * (nb * Z.quot vl nb) =? ovs * (nb * Z.quot vl nb))) di do_
            [mkdim n is os] [mkdim (Z.rem vl nb) ivs ovs] fr ->
      planned nd ip di do_ [mkdim n is os] vec (buffered_apply vl nb ivs ovs roffset fb fc fr)
  (* threads/dft-vrank-geq1.c:45-71, 103-176; kernel/pickdim.c:29-82 *)
  | P_thr_vrank nd ip di do_ sz vec i d nthr fs ord :
      1 < nthr -> nth_error vec i = Some d -> (ip = true -> dis d = dos d) ->
      (forall j, 0 <= j < thr_nb (dn d) nthr ->
         child nd ip di do_ sz (set_nth vec i (mkdim (thr_cnt (dn d) nthr j) (dis d) (dos d))) (fs j)) ->
      Permutation ord (zr (thr_nb (dn d) nthr)) ->
      planned nd ip di do_ sz vec (thr_vrank_apply (dn d) (dis d) (dos d) nthr fs ord)
  (* threads/ct.c:37-63, 115-177 (DECDIT) *)
  | P_thr_ct_dit nd ip di do_ n is os vec v ivs ovs r0 r m nthr ws ord f :
      1 < nthr -> tensor_tornk1 vec = Some (v, ivs, ovs) ->
      choose_radix INTMAX r0 n = Ret r -> 1 < r -> r < n -> m = Z.quot n r ->
      (forall j, 0 <= j < thr_nb m nthr ->
         plannedw true do_ r (m * os) (m * os) m os v ovs ovs (j * thr_bs m nthr) (thr_cnt m nthr j) (ws j)) ->
      Permutation ord (zr (thr_nb m nthr)) ->
      child nd ip di do_ [mkdim m (r * is) os] [mkdim r is (m * os); mkdim v ivs ovs] f ->
      planned nd ip di do_ [mkdim n is os] vec (fun nx I O mm => thr_ctw ws ord nx O (f nx I O mm))
  (* threads/ct.c:37-45, 65-82, 115-149, 179-233 (DECDIF) *)
  | P_thr_ct_dif nd ip di do_ n is os vec v ivs ovs r0 r m nthr ws ord f :
      1 < nthr -> tensor_tornk1 vec = Some (v, ivs, ovs) ->
      ip = true \/ nd = false ->
      choose_radix INTMAX r0 n = Ret r -> 1 < r -> r < n -> m = Z.quot n r ->
      (forall j, 0 <= j < thr_nb m nthr ->
         plannedw false di r (m * is) (m * is) m is v ivs ivs (j * thr_bs m nthr) (thr_cnt m nthr j) (ws j)) ->
      Permutation ord (zr (thr_nb m nthr)) ->
      child nd ip di do_ [mkdim m is (r * os)] [mkdim r (m * is) os; mkdim v ivs ovs] f ->
      planned nd ip di do_ [mkdim n is os] vec (fun nx I O mm => f nx I O (thr_ctw ws ord nx I mm))
  (* threads/ct.c:37-45, 65-82, 115-149, 179-233 (DECDIF+TRANSPOSE) *)
  | P_thr_ct_difsq nd di do_ n is os vec v ivs ovs r0 r m nthr ws ord f cors covs :
      1 < nthr -> tensor_tornk1 vec = Some (v, ivs, ovs) ->
      choose_radix INTMAX r0 n = Ret r -> 1 < r -> r < n -> m = Z.quot n r ->
      cors = ivs -> covs = m * is ->
      r = v -> is = r * cors -> is = r * os -> cors = os -> covs = ovs ->
      (forall j, 0 <= j < thr_nb m nthr ->
         plannedw false di r (m * is) cors m is v ivs covs (j * thr_bs m nthr) (thr_cnt m nthr j) (ws j)) ->
      Permutation ord (zr (thr_nb m nthr)) ->
      child nd true di do_ [mkdim m is (r * os)] [mkdim r cors os; mkdim v covs ovs] f ->
      planned nd true di do_ [mkdim n is os] vec (fun nx I O mm => f nx I O (thr_ctw ws ord nx I mm))

  (* cldw = ego->mkcldw(ego, r, irs, ors, m, ms, v, ivs, ovs, mstart, mcount, rio, iio, plnr) *)
  with plannedw : bool -> Z -> Z -> Z -> Z -> Z -> Z -> Z -> Z -> Z -> Z -> Z -> wapply -> Prop :=
  (* dft/dftw-direct.c:46-56, 155-192 *)
  | PW_direct dit di r rs m ms v vs mb mc :
      plannedw dit di r rs rs m ms v vs vs mb mc (dftw_direct dit di r rs m ms v vs mb (mb + mc))
  (* dft/dftw-direct.c:75-120, 194-220 *)
  | PW_directbuf dit di r rs m ms v vs mb mc :
      plannedw dit di r rs rs m ms v vs vs mb mc (dftw_direct_buf dit di r rs m ms v vs mb (mb + mc))
  (* dft/dftw-directsq.c:41-47, 74-98 *)
  | PW_directsq dit di r irs ivs m ms mb mc :
      plannedw dit di r irs ivs m ms r ivs irs mb mc (dftw_directsq dit di r irs ivs m ms mb (mb + mc))
  (* dft/dftw-generic.c:51-110, 78-86, 133-188 *)
  | PW_generic dit di r rs m ms v vs mb mc nd f :
      child nd true di di [mkdim r rs rs] [mkdim mc ms ms; mkdim v vs vs] f ->
      plannedw dit di r rs rs m ms v vs vs mb mc (dftw_generic dit di r rs m ms v vs mb (mb + mc) f)
  (* dft/dftw-genericbuf.c:46-117, 147-206 *)
  | PW_genericbuf di r rs m ms ivs ovs mb mc bsz nd f :
      0 < bsz -> bsz <= mc -> Z.rem mc bsz = 0 -> 64 <= r -> r <= m ->
      child nd true 1 1 [mkdim r 2 2] [mkdim bsz (2 * BATCHDIST r) (2 * BATCHDIST r)] f ->
      plannedw true di r rs rs m ms 1 ivs ovs mb mc (dftw_genericbuf di r rs m ms bsz mb (mb + mc) f)

  (* X(mkplan)(plnr, X(mkproblem_dft)(sz, vec, ...)), dft/problem.c:77-112 *)
  with child : bool -> bool -> Z -> Z -> list iodim -> list iodim -> rapply -> Prop :=
  | C_empty nd ip di do_ sz vec :        (* dft/nop.c:38-39 case 1 *)
      (ip = true -> di = do_ /\ tensor_inplace_locations qs sz vec = true) ->
      tensor_compress_contiguous qs vec = None -> child nd ip di do_ sz vec (fun _ _ _ m => m)
  | C_plan nd ip di do_ sz vec vec' f :
      (ip = true -> di = do_ /\ tensor_inplace_locations qs sz vec = true) ->
      tensor_compress_contiguous qs vec = Some vec' ->
      planned nd ip di do_ (tensor_compress qs sz) vec' f -> child nd ip di do_ sz vec f.
End Plans.
Scheme planned_mut := Minimality for planned Sort Prop
  with plannedw_mut := Minimality for plannedw Sort Prop
  with child_mut := Minimality for child Sort Prop.
Combined Scheme planned_ind3 from planned_mut, plannedw_mut, child_mut.
