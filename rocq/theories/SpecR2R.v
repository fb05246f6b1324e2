(** * Specification of the real-to-real transforms, independent of FFTW's
    algorithms: doc/reference.texi, "Real-to-Real Transform Kinds", "1d
    Real-odd DFTs (DSTs)", "1d Real-even DFTs (DCTs)", "1d Discrete Hartley
    Transforms (DHTs)", "The Halfcomplex-format DFT".

    No model of C code here. *)
From Coq Require Import Reals ZArith List Lia Bool.
From Verif Require Import Spec.
Import ListNotations.
Open Scope Z_scope.

(** The kinds of the API (enum fftw_r2r_kind), and two more that FFTW uses
    internally for the middle column of a real Cooley-Tukey step. *)
Inductive rkind :=
  | R2HC | HC2R | DHT
  | REDFT00 | REDFT01 | REDFT10 | REDFT11
  | RODFT00 | RODFT01 | RODFT10 | RODFT11
  | R2HCII | HC2RIII.

(** sum of f 0 .. f (n-1) *)
Fixpoint nrsum (n : nat) (f : Z -> R) : R :=
  match n with O => 0%R | S k => (nrsum k f + f (Z.of_nat k))%R end.
Definition Rsum (n : Z) (f : Z -> R) : R := nrsum (Z.to_nat n) f.

(** [rk kd n j k]: the coefficient of input j in output k of the transform of
    kind [kd] and length n:   Y_k = sum_j X_j * rk kd n j k. *)
Definition rk (kd : rkind) (n j k : Z) : R :=
  let N := IZR n in let J := IZR j in let K := IZR k in
  match kd with
  (* r0, r1, ..., r_{n/2}, i_{(n+1)/2-1}, ..., i_1 of the forward DFT *)
  | R2HC => if 2 * k <=? n then cos (2 * PI * J * K / N) else - sin (2 * PI * J * IZR (n - k) / N)
  (* the (unnormalised) backward DFT of a halfcomplex array *)
  | HC2R => if j =? 0 then 1
            else if 2 * j <? n then 2 * cos (2 * PI * J * K / N)
            else if 2 * j =? n then cos (PI * K)
            else - 2 * sin (2 * PI * IZR (n - j) * K / N)
  | DHT => cos (2 * PI * J * K / N) + sin (2 * PI * J * K / N)
  (* Y_k = X_0 + (-1)^k X_{n-1} + 2 sum_{j=1}^{n-2} X_j cos [pi j k / (n-1)] *)
  | REDFT00 => if j =? 0 then 1 else if j =? n - 1 then cos (PI * K) else 2 * cos (PI * J * K / (N - 1))
  (* Y_k = 2 sum X_j cos [pi (j+1/2) k / n] *)
  | REDFT10 => 2 * cos (PI * (J + / 2) * K / N)
  (* Y_k = X_0 + 2 sum_{j>=1} X_j cos [pi j (k+1/2) / n] *)
  | REDFT01 => if j =? 0 then 1 else 2 * cos (PI * J * (K + / 2) / N)
  (* Y_k = 2 sum X_j cos [pi (j+1/2) (k+1/2) / n] *)
  | REDFT11 => 2 * cos (PI * (J + / 2) * (K + / 2) / N)
  (* Y_k = 2 sum X_j sin [pi (j+1)(k+1) / (n+1)] *)
  | RODFT00 => 2 * sin (PI * (J + 1) * (K + 1) / (N + 1))
  (* Y_k = 2 sum X_j sin [pi (j+1/2) (k+1) / n] *)
  | RODFT10 => 2 * sin (PI * (J + / 2) * (K + 1) / N)
  (* Y_k = (-1)^k X_{n-1} + 2 sum_{j=0}^{n-2} X_j sin [pi (j+1) (k+1/2) / n] *)
  | RODFT01 => if j =? n - 1 then cos (PI * K) else 2 * sin (PI * (J + 1) * (K + / 2) / N)
  (* Y_k = 2 sum X_j sin [pi (j+1/2) (k+1/2) / n] *)
  | RODFT11 => 2 * sin (PI * (J + / 2) * (K + / 2) / N)
  (* the DFT with outputs at half-integers k+1/2, halfcomplex *)
  | R2HCII => if 2 * k <=? n - 1 then cos (2 * PI * J * (K + / 2) / N)
              else - sin (2 * PI * J * (IZR (n - 1 - k) + / 2) / N)
  (* its (unnormalised) inverse *)
  | HC2RIII => if 2 * j <? n - 1 then 2 * cos (2 * PI * (J + / 2) * K / N)
               else if 2 * j =? n - 1 then cos (PI * K)
               else - 2 * sin (2 * PI * (IZR (n - 1 - j) + / 2) * K / N)
  end%R.

(** A transform size: every dimension has its own kind. *)
Definition rdim : Type := (rkind * iodim)%type.
Definition ds (sz : list rdim) : list iodim := map snd sz.

(** [rmx sz x ks] = sum over all multi-indices js of
      x(ioff js) * prod_d rk kind_d n_d js_d ks_d  (the separable product of the
    one-dimensional transforms). *)
Fixpoint rmx (sz : list rdim) (x : Z -> R) (ks : list Z) : R :=
  match sz, ks with
  | (kd, d) :: sz', k :: ks' =>
      Rsum (dn d) (fun j => rmx sz' (fun o => x (j * dis d + o)%Z) ks' * rk kd (dn d) j k)%R
  | _, _ => x 0
  end.

(** After execution the output array holds, for every index of the vector
    loop, the transform of what the input array held before. *)
Definition is_r2r (sz : list rdim) (vec : list iodim) (inp out : loc) (m m' : mem) : Prop :=
  forall vs ks, in_box vec vs -> in_box (ds sz) ks ->
    m' (sh out (ooff vec vs + ooff (ds sz) ks)) = rmx sz (fun o => m (sh inp (ioff vec vs + o))) ks.

(** locations of a real array *)
Definition rin (p : loc) (t : list iodim) (l : loc) : Prop := exists ks, in_box t ks /\ l = sh p (ioff t ks).
Definition rout (p : loc) (t : list iodim) (l : loc) : Prop := exists ks, in_box t ks /\ l = sh p (ooff t ks).

(** Lengths are positive, distinct indices name distinct elements, and the
    arrays are the same or disjoint. *)
Record good_real (t vec : list iodim) (inp out : loc) : Prop := {
  gr_sz : Forall (fun d => 0 < dn d) t;
  gr_vec : Forall (fun d => 0 <= dn d) vec;
  gr_in : forall ks js, in_box (t ++ vec) ks -> in_box (t ++ vec) js -> ioff (t ++ vec) ks = ioff (t ++ vec) js -> ks = js;
  gr_out : forall ks js, in_box (t ++ vec) ks -> in_box (t ++ vec) js -> ooff (t ++ vec) ks = ooff (t ++ vec) js -> ks = js;
  gr_overlap : inp = out \/ (forall l, rin inp (t ++ vec) l -> rout out (t ++ vec) l -> False)
}.

(** the kinds of the DCT/DST family *)
Definition reodft (kd : rkind) : bool :=
  match kd with
  | REDFT00 | REDFT01 | REDFT10 | REDFT11 | RODFT00 | RODFT01 | RODFT10 | RODFT11 => true
  | _ => false
  end.
(** input and output strides agree (strides of dimensions of length 1 do not matter) *)
Definition same_strides (t : list iodim) : Prop := Forall (fun d => dn d = 1 \/ dis d = dos d) t.

(** The values of enum fftw_r2r_kind (api/fftw3.h, doc/reference.texi). *)
Definition documented_kind (k : Z) : option rkind :=
  match k with
  | 0 => Some R2HC | 1 => Some HC2R | 2 => Some DHT
  | 3 => Some REDFT00 | 4 => Some REDFT01 | 5 => Some REDFT10 | 6 => Some REDFT11
  | 7 => Some RODFT00 | 8 => Some RODFT01 | 9 => Some RODFT10 | 10 => Some RODFT11
  | _ => None
  end.

(** the transform as a function of multi-indices: sum over all js of
    x(js) * prod_d rk kind_d n_d js_d ks_d *)
Fixpoint imx (sz : list (rkind * Z)) (x : list Z -> R) (ks : list Z) : R :=
  match sz, ks with
  | (kd, n) :: sz', k :: ks' => Rsum n (fun j => imx sz' (fun js => x (j :: js)) ks' * rk kd n j k)%R
  | _, _ => x []
  end.
