(** * Model of the halfcomplex Cooley-Tukey steps, rdft/hc2hc-direct.c and rdft/hc2hc-generic.c

    A plan_hc2hc works in place on an array of r rows of m reals, row k at
    IO + k*m*ms, element i of a row at i*ms; it does the butterflies
    mstart <= j < mstart + mcount, butterfly j working on elements j and m - j of
    all rows (on element j only if j = 0 or 2j = m), for v arrays at distance vs. *)
From Coq Require Import Reals ZArith Permutation List Lia Bool.
From Verif Require Import NumTheory Cplx Spec SpecR2R Base TensorModel Offs XForm XKern CopyModel DftModel.
Import ListNotations.
Open Scope Z_scope.

(** ** The codelets *)
(** sym1, sym2 and sym2i, genfft/gen_hc2hc.ml:70-74 *)
Definition sym1 (n : Z) (f : Z -> C) (i : Z) : C := (fst (f i), snd (f (n - 1 - i))).
Definition sym2 (n : Z) (f : Z -> C) (i : Z) : C := if i <? n - i then f i else (cmul (0, 1)%R (f i)).
Definition sym2i (n : Z) (f : Z -> C) (i : Z) : C := if i <? n - i then f i else (cmul (0, -1)%R (f i)).
(** one butterfly, genfft/gen_hc2hc.ml:92-104: [f i] = (cr[i*rs], ci[i*rs]); DIT
    codelets have sign -1, DIF codelets sign +1; the twiddle factors of butterfly j
    are exp(sign 2 pi i j*i/(r*m)) (TW_* tables, C32, C33) *)
Definition hc_dit (r m j : Z) (f : Z -> C) : Z -> C :=
  sym1 r (sym2 r (fun k => Csum r (fun i => cmul (cmul (f i) (W (r * m) (j * i))) (W r (i * k))))).
Definition hc_dif (r m j : Z) (f : Z -> C) : Z -> C := fun k =>
  cmul (Csum r (fun i => cmul (sym2i r (sym1 r f) i) (W r (- (i * k))))) (W (r * m) (- (j * k))).
Definition xhc2hc (kd : rkind) (r m rs D j : Z) : xform :=
  let out (x : Z -> R) : Z -> C :=
    (if match kd with R2HC => true | _ => false end then hc_dit else hc_dif) r m j (fun i => (x (i * rs), x (D + i * rs))) in
  mkX (map (fun i => i * rs) (zr r) ++ map (fun i => D + i * rs) (zr r))
      (map (fun i => (i * rs, fun x => fst (out x i))) (zr r) ++
       map (fun i => (D + i * rs, fun x => snd (out x i))) (zr r)).
(** khc2hc, rdft/codelet-rdft.h:102-103, genfft/gen_hc2hc.ml:106-135: butterflies
    mb <= j < me, cr = p, ci = p + D; after each, cr += ms, ci -= ms *)
Definition khc2hc (kd : rkind) (r m rs mb me ms : Z) (nx : nat) (p : loc) (D : Z) (mm : mem) : mem :=
  zfor (me - mb) (fun i => kern (xhc2hc kd r m rs (D - 2 * i * ms) (mb + i)) nx (sh p (i * ms)) (sh p (i * ms))) mm.

(** ** rdft/hc2hc-direct.c *)
(** CLD0P, CLDMP, rdft/hc2hc-direct.c:183-184 *)
Definition CLD0P (mstart : Z) : bool := mstart =? 0.
Definition CLDMP (m mstart mcount : Z) : bool := 2 * (mstart + mcount) =? m + 2.
(** mb and me, rdft/hc2hc-direct.c:234-235 *)
Definition hc_mb (mstart : Z) : Z := mstart + (if CLD0P mstart then 1 else 0).
Definition hc_me (m mstart mcount : Z) : Z := mstart + mcount - (if CLDMP m mstart mcount then 1 else 0).
(** the kind of the middle butterfly, rdft/hc2hc-direct.c:217 *)
Definition kd_mid (kd : rkind) : rkind := match kd with R2HC => R2HCII | _ => HC2RIII end.
(** apply, rdft/hc2hc-direct.c:45-60 *)
Definition hc_direct (kd : rkind) (r m ms v vs mb me : Z) (cld0 cldm : rapply) : wapply := fun nx p mm =>
  zfor v (fun i mm =>
    let IO := sh p (i * vs) in
    let mm := cld0 nx IO IO mm in
    let mm := khc2hc kd r m (m * ms) mb me ms nx (sh IO (ms * mb)) ((m - mb) * ms - ms * mb) mm in
    let im := sh IO (Z.quot m 2 * ms) in
    cldm nx im im mm) mm.
(** dobatch, rdft/hc2hc-direct.c:76-92; B = compute_batchsize r (:67-74), b = 2B *)
Definition hc_dobatch (kd : rkind) (r m ms B mb me : Z) (nx : nat) (buf IOp IOm : loc) (mm : mem) : mem :=
  let b := 2 * B in let rs := m * ms in let bufm := sh buf (b - 1) in
  let m1 := cpy2d_ci r rs b (me - mb) ms 1 1 nx (sh IOp (mb * ms)) buf mm in
  let m2 := cpy2d_ci r rs b (me - mb) (- ms) (-1) 1 nx (sh IOm (- (mb * ms))) bufm m1 in
  let m3 := khc2hc kd r m b mb me 1 nx buf (b - 1) m2 in
  let m4 := cpy2d_co r b rs (me - mb) 1 ms 1 nx buf (sh IOp (mb * ms)) m3 in
  cpy2d_co r b rs (me - mb) (-1) (- ms) 1 nx bufm (sh IOm (- (mb * ms))) m4.
(** apply_buf, rdft/hc2hc-direct.c:94-122 *)
Definition hc_direct_buf (kd : rkind) (r m ms v vs mb me : Z) (cld0 cldm : rapply) : wapply := fun nx p mm =>
  let B := compute_batchsize r in
  let cnt := nsteps mb (me - B) B in
  let buf := (nx, 0) in
  zfor v (fun i mm =>
    let IO := sh p (i * vs) in
    let IOp := IO in let IOm := sh IO (m * ms) in
    let mm := cld0 (S nx) IO IO mm in
    let mm := zfor cnt (fun j => hc_dobatch kd r m ms B (mb + j * B) (mb + j * B + B) (S nx) buf IOp IOm) mm in
    let mm := hc_dobatch kd r m ms B (mb + cnt * B) me (S nx) buf IOp IOm mm in
    let im := sh IO (ms * Z.quot m 2) in
    cldm (S nx) im im mm) mm.

(** ** rdft/hc2hc-generic.c *)
(** The real at offset [o] of the table for { TW_HALF 0, TW_NEXT 1 } with arguments
    n, r, kernel/twiddle.c:124-195 (:153-161): row j = 0, 1, ... holds
    exp(2 pi i (i*j mod n)/n) for 1 <= i, 2i < r *)
Definition tw_half0 (n r o : Z) : R :=
  let j := o / (r - 1) in let c := o mod (r - 1) in
  part (c mod 2) (cexp n (((c / 2 + 1) * j) mod n)).
(** bytwiddle, rdft/hc2hc-generic.c:49-80; the table is made by mktwiddle :39-47 *)
Definition hg_bytwiddle (sign : R) (r m s vl vs mstart1 mcount1 : Z) (p : loc) (mm : mem) : mem :=
  let ms := m * s in
  let wrem := 2 * (Z.quot (m - 1) 2 - mcount1) in
  let Wt := tw_half0 (r * m) m in
  zfor vl (fun i => zfor (r - 1) (fun k' => zfor mcount1 (fun j mm =>
    let IO := sh p (i * vs) in let k := k' + 1 in
    let w := (m - 1) + 2 * (mstart1 - 1) + k' * (2 * mcount1 + wrem) + 2 * j in
    let pr := sh IO (mstart1 * s + k * ms + j * s) in
    let pi := sh IO (- (mstart1 * s) + (k + 1) * ms - j * s) in
    let xr := mm pr in let xi := mm pi in
    let wr := Wt w in let wi := (sign * Wt (w + 1)%Z)%R in
    upd (upd mm pr (xr * wr - xi * wi)%R) pi (xi * wr + xr * wi)%R))) mm.
(** swapri, rdft/hc2hc-generic.c:82-99 *)
Definition hg_swapri (r m s jstart jend : Z) (IO : loc) (mm : mem) : mem :=
  let ms := m * s in let js := jstart * s in
  zfor (Z.quot (r + 1) 2) (fun k => zfor (jend - jstart) (fun j mm =>
    let pr := sh IO ((k + 1) * ms - js - j * s) in
    let pi := sh IO ((r - k) * ms - js - j * s) in
    let t := mm pr in
    upd (upd mm pr (mm pi)) pi t)) mm.
(** the loop of reorder_dit, rdft/hc2hc-generic.c:109-126 *)
Definition hg_dit_loop (r m s mstart1 mend1 : Z) (IO : loc) (mm : mem) : mem :=
  let ms := m * s in
  zfor (Z.quot (r - 1) 2) (fun k' => zfor (mend1 - mstart1) (fun j' mm =>
    let k := k' + 1 in let j := mstart1 + j' in
    let p0 := sh IO (k * ms) in let p1 := sh IO ((r - k) * ms) in
    let rp := mm (sh p0 (j * s)) in let im := mm (sh p1 (ms - j * s)) in
    let rm := mm (sh p1 (j * s)) in let ip := mm (sh p0 (ms - j * s)) in
    let mm := upd mm (sh p0 (j * s)) (rp - im)%R in
    let mm := upd mm (sh p1 (ms - j * s)) (rp + im)%R in
    let mm := upd mm (sh p1 (j * s)) (rm - ip)%R in
    upd mm (sh p0 (ms - j * s)) (ip + rm)%R)) mm.
(** reorder_dit, rdft/hc2hc-generic.c:101-129 *)
Definition hg_reorder_dit (r m s vl vs mstart1 mend1 : Z) (p : loc) (mm : mem) : mem :=
  zfor vl (fun i mm => let IO := sh p (i * vs) in
    hg_swapri r m s mstart1 mend1 IO (hg_dit_loop r m s mstart1 mend1 IO mm)) mm.
(** the loop of reorder_dif, rdft/hc2hc-generic.c:142-160 *)
Definition hg_dif_loop (r m s mstart1 mend1 : Z) (IO : loc) (mm : mem) : mem :=
  let ms := m * s in
  zfor (Z.quot (r - 1) 2) (fun k' => zfor (mend1 - mstart1) (fun j' mm =>
    let k := k' + 1 in let j := mstart1 + j' in
    let p0 := sh IO (k * ms) in let p1 := sh IO ((r - k) * ms) in
    let rp := (/ 2 * mm (sh p0 (j * s)))%R in let im := (/ 2 * mm (sh p1 (ms - j * s)))%R in
    let rm := (/ 2 * mm (sh p1 (j * s)))%R in let ip := (/ 2 * mm (sh p0 (ms - j * s)))%R in
    let mm := upd mm (sh p0 (j * s)) (rp + im)%R in
    let mm := upd mm (sh p1 (ms - j * s)) (im - rp)%R in
    let mm := upd mm (sh p1 (j * s)) (rm + ip)%R in
    upd mm (sh p0 (ms - j * s)) (ip - rm)%R)) mm.
(** reorder_dif, rdft/hc2hc-generic.c:131-160 *)
Definition hg_reorder_dif (r m s vl vs mstart1 mend1 : Z) (p : loc) (mm : mem) : mem :=
  zfor vl (fun i mm => let IO := sh p (i * vs) in
    hg_dif_loop r m s mstart1 mend1 IO (hg_swapri r m s mstart1 mend1 IO mm)) mm.
(** apply_dit, apply_dif, rdft/hc2hc-generic.c:174-208; mstart1, mcount1 from mkcldw :255-256 *)
Definition hg_mstart1 (mstart : Z) : Z := mstart + (if mstart =? 0 then 1 else 0).
Definition hg_mcount1 (mstart mcount : Z) : Z := mcount - (if mstart =? 0 then 1 else 0).
Definition hc_generic (kd : rkind) (r m s vl vs mstart mcount : Z) (cld0 cld : rapply) : wapply := fun nx p mm =>
  let m1 := hg_mstart1 mstart in let c1 := hg_mcount1 mstart mcount in
  let start := m1 * s in
  if match kd with R2HC => true | _ => false end then
    let mm := hg_bytwiddle (-1)%R r m s vl vs m1 c1 p mm in
    let mm := cld0 nx p p mm in
    let mm := cld nx (sh p start) (sh p start) mm in
    hg_reorder_dit r m s vl vs m1 (m1 + c1) p mm
  else
    let mm := hg_reorder_dif r m s vl vs m1 (m1 + c1) p mm in
    let mm := cld0 nx p p mm in
    let mm := cld nx (sh p start) (sh p start) mm in
    hg_bytwiddle 1%R r m s vl vs m1 c1 p mm.
