(** * Model of genfft/trig.ml, of the array helpers of genfft/genutil.ml and of the expression
    part of gen_notw.ml, gen_r2cf.ml, gen_r2cb.ml, gen_r2r.ml

    A generator builds a list of store expressions (the "dag"); what follows in the generator
    (scheduling and printing as C) is not in this file. *)
From Coq Require Import Reals ZArith List Lia Lra Bool.
From Verif Require Import NumTheory Cplx SpecR2R GenExpr GenCplx GenFft.
Import ListNotations.
Open Scope Z_scope.

Section Trig.
  Variable pheq : expr -> expr -> bool.
  Variable M : magic.
  Notation fft := (fft_dft pheq M).
  Notation times := (ztimes pheq M).

  (** rdft, trig.ml:26-27 *)
  Definition rdft (sign n : Z) (input : signal) : signal := fft sign n (fun i => o1 zreal (input i)).
  (** hdft, trig.ml:30-31 *)
  Definition hdft (sign n : Z) (input : signal) : signal := fft sign n (hermitian n input).
  (** dft_via_rdft, trig.ml:35-40 *)
  Definition dft_via_rdft (sign n : Z) (input : signal) : signal :=
    let f := rdft sign n input in
    fun i => o2 (fun a b => zplus pheq [a; b]) (o1 zreal (f i)) (o1 (fun x => times znanI (zimag x)) (f i)).
  (** dht, trig.ml:43-46 *)
  Definition dht (sign n : Z) (input : signal) : signal :=
    let f := fft sign n (fun i => o1 zreal (input i)) in
    fun i => o2 (fun a b => zplus pheq [a; b]) (o1 zreal (f i)) (o1 zimag (f i)).
  (** trigI, trig.ml:48-52 *)
  Definition trigI (n : Z) (input : signal) : signal :=
    let twon := 2 * n in fft 1 twon (hermitian twon input).
  (** interleave_zero, trig.ml:54-58 *)
  Definition interleave_zero (input : signal) : signal :=
    fun i => if omod i 2 =? 0 then Some zzero else input (odiv (i - 1) 2).
  (** trigII, trig.ml:60-64 *)
  Definition trigII (n : Z) (input : signal) : signal :=
    let fourn := 4 * n in fft 1 fourn (hermitian fourn (interleave_zero input)).
  (** trigIII, trig.ml:66-79 *)
  Definition trigIII (n : Z) (input : signal) : signal :=
    let fourn := 4 * n in let twon := 2 * n in
    let input' := hermitian fourn (fun i =>
      if i =? 0 then o1 zreal (input 0)
      else if i =? twon then o1 zuminus (o1 zreal (input 0))
      else antihermitian twon input i) in
    let dft := fft 1 fourn input' in
    fun k => dft (2 * k + 1).
  (** zero_extend, trig.ml:81-84 *)
  Definition zero_extend (n : Z) (input : signal) : signal :=
    fun i => if (i >=? 0) && (i <? n) then input i else Some zzero.
  (** trigIV, trig.ml:86-94 *)
  Definition trigIV (n : Z) (input : signal) : signal :=
    let fourn := 4 * n in let eightn := 8 * n in
    let input' := hermitian eightn (zero_extend fourn (antihermitian fourn (interleave_zero input))) in
    let dft := fft 1 eightn input' in
    fun k => dft (2 * k + 1).
  (** make_dct, trig.ml:96-99 *)
  Definition make_dct (scale : ce) (nshift : Z) (trig : Z -> signal -> signal) (n : Z) (input : signal) : signal :=
    trig (n - nshift) (fun i => o1 zreal (o1 (times scale) (zero_extend n input i))).
  (** half, complex.ml:49 *)
  Definition zhalf : ce := inverse_int 2.
  (** dctI, dctII, dctIII, dctIV, trig.ml:103-118 *)
  Definition dctI := make_dct zone 1 trigI.
  Definition dctII := make_dct zone 0 trigII.
  Definition dctIII := make_dct zhalf 0 trigIII.
  Definition dctIV := make_dct zhalf 0 trigIV.
  (** shift, trig.ml:120 *)
  Definition shift (s : Z) (input : signal) : signal := fun i => input (i - s).
  (** make_dst, trig.ml:123-131 *)
  Definition make_dst (scale : ce) (nshift kshift jshift : Z) (trig : Z -> signal -> signal)
      (n : Z) (input : signal) : signal :=
    fun i => o1 zreal (shift (- jshift)
      (trig (n + nshift) (fun i => o1 zuminus (o1 (times zi) (o1 (times scale) (o1 zreal
         (shift kshift (zero_extend n input) i)))))) i).
  (** dstI, dstII, dstIII, dstIV, trig.ml:136-151 *)
  Definition dstI := make_dst zone 1 1 1 trigI.
  Definition dstII := make_dst zone 0 0 1 trigII.
  Definition dstIII := make_dst zhalf 0 1 0 trigIII.
  Definition dstIV := make_dst zhalf 0 0 0 trigIV.

  (** ** genutil.ml.  An array of locatives is a function to pairs of variables. *)
  (** load_c, load_r, genutil.ml:69-70 *)
  Definition load_c (v : variable * variable) : ce := CE (ELoad (fst v)) (ELoad (snd v)).
  Definition load_r (v : variable * variable) : ce := CE (ELoad (fst v)) (Num 0).
  (** load_array_c, load_array_r, load_array_hc, genutil.ml:85-94 *)
  Definition load_array_c (n : Z) (var : Z -> variable * variable) : signal := array n (fun i => Some (load_c (var i))).
  Definition load_array_r (n : Z) (var : Z -> variable * variable) : signal := array n (fun i => Some (load_r (var i))).
  Definition load_array_hc (n : Z) (var : Z -> variable * variable) : signal :=
    array n (fun i =>
      if i <? n - i then Some (load_c (var i))
      else if i >? n - i then Some (times zi (load_c (var (n - i))))
      else Some (load_r (var i))).
  (** store_c, store_r, genutil.ml:99-100 *)
  Definition store_c (v : variable * variable) (x : ce) : list expr := [EStore (fst v) (re x); EStore (snd v) (im x)].
  Definition store_r (v : variable * variable) (x : ce) : expr := EStore (fst v) (re x).
  (** store_array_r, store_array_c, store_array_hc, genutil.ml:124-142 *)
  Definition store_array_r (n : Z) (dst : Z -> variable * variable) (src : signal) : option (list expr) :=
    omapM (fun i => option_map (store_r (dst i)) (src i)) (interval 0 n).
  Definition store_array_c (n : Z) (dst : Z -> variable * variable) (src : signal) : option (list expr) :=
    option_map (@concat expr) (omapM (fun i => option_map (store_c (dst i)) (src i)) (interval 0 n)).
  Definition store_array_hc (n : Z) (dst : Z -> variable * variable) (src : signal) : option (list expr) :=
    option_map (@concat expr) (omapM (fun i =>
      if i <? n - i then option_map (store_c (dst i)) (src i)
      else if i >? n - i then Some []
      else option_map (fun x => [store_r (dst i) (zreal x)]) (src i)) (interval 0 n)).

  (** ** The generators *)
  (** gen_notw.ml:80-97 *)
  Definition gen_notw (sign n : Z) (inp oloc : Z -> variable * variable) : option (list expr) :=
    store_array_c n oloc (fft sign n (load_array_c n inp)).
  (** rdftII, gen_r2cf.ml:62-69 *)
  Definition rdftII (sign n : Z) (input : signal) : signal :=
    let input' := fun i => if i <? n then input i else Some zzero in
    let f := fft sign (2 * n) input' in
    let g := fun i => f (2 * i + 1) in
    fun i => if i <? n - i then g i
             else if 2 * i + 1 =? n then o1 zreal (g i)
             else Some zzero.
  (** gen_r2cf.ml:89-108; the places of the even and odd inputs *)
  Definition eo (even odd : Z -> variable * variable) (i : Z) : variable * variable :=
    if omod i 2 =? 0 then even (odiv i 2) else odd (odiv (i - 1) 2).
  Definition gen_r2cf (dftII : bool) (sign n : Z) (inpute inputo oloc : Z -> variable * variable) : option (list expr) :=
    let transform := if dftII then rdftII else rdft in
    store_array_hc n oloc (transform sign n (load_array_r n (eo inpute inputo))).
  (** hcdftIII, gen_r2cb.ml:62-73 *)
  Definition hcdftIII (sign n : Z) (input : signal) : signal :=
    let input' := fun i =>
      if omod i 2 =? 0 then Some zzero
      else
        let i' := odiv (i - 1) 2 in
        if 2 * i' <? n - 1 then input i'
        else if 2 * i' =? n - 1 then o1 zreal (input i')
        else o1 zconj (input (n - 1 - i')) in
    fft sign (2 * n) input'.
  (** gen_r2cb.ml:93-111 *)
  Definition gen_r2cb (dftIII : bool) (sign n : Z) (inp oloce oloco : Z -> variable * variable) : option (list expr) :=
    let transform := if dftIII then hcdftIII else hdft in
    store_array_r n (eo oloce oloco) (transform sign n (load_array_hc n inp)).
  (** sqrt_half, sqrt_two, rescale, gen_r2r.ml:133-140 *)
  Definition rescale (unitary : bool) (sc : ce) (s1 s2 : Z) (input : signal) : signal :=
    fun i => if ((i =? s1) || (i =? s2)) && unitary then o1 (fun x => times x sc) (input i) else input i.
  (** gen_r2r.ml:161-173.  The modes RDFT and HDFT are not used to generate any codelet of the
      library and are left out. *)
  Definition r2r_mode (kd : rkind) (n : Z) : option ((Z -> signal -> signal) * (Z * Z * Z * Z)) :=
    match kd with
    | DHT => Some (dht 1, (-1, -1, -1, -1))
    | REDFT00 => Some (dctI, (0, n - 1, 0, n - 1))
    | REDFT10 => Some (dctII, (-1, -1, 0, -1))
    | REDFT01 => Some (dctIII, (0, -1, -1, -1))
    | REDFT11 => Some (dctIV, (-1, -1, -1, -1))
    | RODFT00 => Some (dstI, (-1, -1, -1, -1))
    | RODFT10 => Some (dstII, (-1, -1, n - 1, -1))
    | RODFT01 => Some (dstIII, (n - 1, -1, -1, -1))
    | RODFT11 => Some (dstIV, (-1, -1, -1, -1))
    | _ => None
    end.
  (** gen_r2r.ml:176-189 *)
  Definition gen_r2r (kd : rkind) (unitary : bool) (normsqr n : Z) (inp oloc : Z -> variable * variable) : option (list expr) :=
    match r2r_mode kd n with
    | None => None
    | Some (transform, (si1, si2, so1, so2)) =>
        let output := rescale unitary (inverse_int_sqrt 2) so1 so2 (fun i =>
          o1 (times (inverse_int_sqrt normsqr))
             (transform n (rescale unitary (int_sqrt 2) si1 si2 (load_array_c n inp)) i)) in
        store_array_r n oloc output
    end.
End Trig.
