(** * Model of genfft/fft.ml: symbolic construction of the DFT *)
From Coq Require Import Reals ZArith List Lia Bool.
From Verif Require Import NumTheory Cplx GenExpr GenCplx.
Import ListNotations.
Open Scope Z_scope.

(** choose1, fft.ml:32-37; the loop runs while i * i <= n *)
Fixpoint choose1 (fuel : nat) (n i f : Z) : option Z :=
  match fuel with
  | O => None
  | S k =>
      if i * i >? n then Some f
      else if omod n i =? 0 then
        match gcd i (odiv n i) with
        | Some g => if g =? 1 then choose1 k n (i + 1) i else choose1 k n (i + 1) f
        | None => None
        end
      else choose1 k n (i + 1) f
  end.
(** choose2, fft.ml:40-45 *)
Fixpoint choose2 (fuel : nat) (n i f : Z) : option Z :=
  match fuel with
  | O => None
  | S k =>
      if i * i >? n then Some f
      else if omod n i =? 0 then choose2 k n (i + 1) i
      else choose2 k n (i + 1) f
  end.
(** choose_factor, fft.ml:30-49 *)
Definition choose_factor (n : Z) : option Z :=
  match choose1 (S (Z.to_nat n)) n 1 1 with
  | Some i => if i >? 1 then Some i else choose2 (S (Z.to_nat n)) n 1 1
  | None => None
  end.
(** is_power_of_two, fft.ml:51 *)
Definition is_power_of_two (n : Z) : bool := (n >? 0) && (Z.land (n - 1) n =? 0).

Definition signal := Z -> option ce.
(** a signal whose computation raised *)
Definition osig (o : option signal) : signal := match o with Some f => f | None => fun _ => None end.
(** a signal whose index may raise *)
Definition oidx (f : signal) (i : option Z) : option ce := match i with Some k => f k | None => None end.

Section Fft.
  Variable pheq : expr -> expr -> bool.
  Variable M : magic.
  Notation "x @* y" := (otimes pheq M x y) (at level 40, left associativity).
  Notation "x @+ y" := (oplus2 pheq x y) (at level 50, left associativity).
  Notation "x @- y" := (ominus2 pheq x y) (at level 50, left associativity).
  Notation sigma := (osigma pheq).

  Section Rec.
  (** the recursive calls of [dft] *)
  Variable dft : Z -> Z -> signal -> signal.

  (** ** dft_rader, fft.ml:81-160 *)
  (** half, fft.ml:82-84 *)
  Definition rhalf (x : option ce) : option ce := Some (inverse_int 2) @* x.
  (** make_product, fft.ml:86-88 *)
  Definition make_product (n : Z) (a b : signal) : signal :=
    let scale_factor := Some (inverse_int n) in
    array n (fun i => a i @* (scale_factor @* b i)).
  Definition dc_term (addtoall : option ce) (i : Z) : option ce := if i =? 0 then addtoall else Some zzero.
  (** gen_convolution_by_fft, fft.ml:92-102 *)
  Definition gen_convolution_by_fft (n : Z) (a b : signal) (addtoall : option ce) : option ce * signal :=
    let fft_a := dft 1 n a in
    let fft_b := dft 1 n b in
    let fft_ab := make_product n fft_a fft_b in
    let fft_ab1 := array n (fun i => fft_ab i @+ dc_term addtoall i) in
    let sum := fft_a 0 in
    let conv := dft (-1) n fft_ab1 in
    (sum, conv).
  (** gen_convolution_by_fft_alt, fft.ml:106-131 *)
  Definition gen_convolution_by_fft_alt (n : Z) (a b : signal) (addtoall : option ce) : option ce * signal :=
    let ap := array n (fun i => rhalf (a i @+ a (omod (n - i) n))) in
    let am := array n (fun i => rhalf (a i @- a (omod (n - i) n))) in
    let bp := array n (fun i => rhalf (b i @+ b (omod (n - i) n))) in
    let bm := array n (fun i => rhalf (b i @- b (omod (n - i) n))) in
    let fft_ap := dft 1 n ap in
    let fft_am := dft 1 n am in
    let fft_bp := dft 1 n bp in
    let fft_bm := dft 1 n bm in
    let fft_abpp := make_product n fft_ap fft_bp in
    let fft_abpm := make_product n fft_ap fft_bm in
    let fft_abmp := make_product n fft_am fft_bp in
    let fft_abmm := make_product n fft_am fft_bm in
    let sum := fft_ap 0 @+ fft_am 0 in
    let fft_ab1 := array n (fun i => (fft_abpp i @+ fft_abmm i) @+ dc_term addtoall i) in
    let fft_ab2 := array n (fun i => fft_abpm i @+ fft_abmp i) in
    let conv1 := dft (-1) n fft_ab1 in
    let conv2 := dft (-1) n fft_ab2 in
    let conv := array n (fun i => conv1 i @+ conv2 i) in
    (sum, conv).
  (** fft.ml:138-160 *)
  Definition dft_rader (sign p : Z) (input : signal) : signal :=
    let gen_convolution := if p <=? alternate_convolution M then gen_convolution_by_fft_alt
                           else gen_convolution_by_fft in
    osig (
    match find_generator p with
    | None => None
    | Some g =>
        match pow_mod g (p - 2) p with
        | None => None
        | Some ginv =>
            let input_perm := array p (fun i => oidx input (pow_mod g i p)) in
            let omega_perm := array p (fun i =>
              match pow_mod ginv i p with Some e => oexp p (sign * e) | None => None end) in
            let output_perm := array p (fun i => pow_mod ginv i p) in
            let (sum, conv) := gen_convolution (p - 1) input_perm omega_perm (input 0) in
            Some (array p (fun i =>
              if i =? 0 then input 0 @+ sum
              else oidx conv (suchthat (Z.to_nat p) 0
                     (fun i' => option_map (fun o => i =? o) (output_perm i')))))
        end
    end).

  (** ** dft_prime, fft.ml:53-78 *)
  Definition prime_sum (sign n : Z) (input : signal) (filter : option ce -> option ce) (i : Z) : option ce :=
    sigma 0 n (fun j => let coeff := filter (oexp n (sign * i * j)) in coeff @* input j).
  Definition computation_even (sign n : Z) (input : signal) : signal :=
    array n (prime_sum sign n input (fun x => x)).
  Definition computation_odd (sign n : Z) (input : signal) : signal :=
    let sumr := array n (prime_sum sign n input (o1 zreal)) in
    let sumi := array n (prime_sum sign n input (o1 (fun y => ztimes pheq M zi (zimag y)))) in
    array n (fun i =>
      if i =? 0 then
        input 0 @+ sigma 1 (odiv (n + 1) 2) (fun j => input j @+ input (n - j))
      else
        let i' := Z.min i (n - i) in
        if i <? n - i then sumr i' @+ sumi i' else sumr i' @- sumi i').
  Definition dft_prime (sign n : Z) (input : signal) : signal :=
    if n >=? rader_min M then dft_rader sign n input
    else if n =? 2 then computation_even sign n input
    else computation_odd sign n input.

  (** ** newsplit, fft.ml:165-239 *)
  (** s, fft.ml:166-172 *)
  Definition k4p (n k : Z) : Z :=
    let k4 := omod (Z.abs k) (odiv n 4) in
    if k4 <=? odiv n 8 then k4 else odiv n 4 - k4.
  Fixpoint scl (fuel : nat) (n k : Z) : option ce :=
    match fuel with
    | O => None
    | S f => if n <=? 4 then Some zone
             else let k4' := k4p n k in
                  scl f (odiv n 4) k4' @* o1 zreal (oexp n k4')
    end.
  (** sinv, fft.ml:174-180 *)
  Fixpoint sclinv (fuel : nat) (n k : Z) : option ce :=
    match fuel with
    | O => None
    | S f => if n <=? 4 then Some zone
             else let k4' := k4p n k in
                  sclinv f (odiv n 4) k4' @* osec n k4'
    end.
  Definition ns_s (n k : Z) : option ce := scl (S (Z.to_nat n)) n k.
  Definition ns_sinv (n k : Z) : option ce := sclinv (S (Z.to_nat n)) n k.
  (** sdiv2, fft.ml:182 *)
  Definition sdiv2 (n k : Z) : option ce := ns_s n k @* ns_sinv (2 * n) k.
  (** sdiv4, fft.ml:183-185 *)
  Definition sdiv4 (n k : Z) : option ce :=
    let k4 := omod (Z.abs k) n in
    osec (4 * n) (if k4 <=? odiv n 2 then k4 else n - k4).
  (** t, fft.ml:187 *)
  Definition ns_t (n k : Z) : option ce := oexp n k @* sdiv4 (odiv n 4) k.
  (** dft1, dft2, fft.ml:189-190 *)
  Definition dft1 (input : signal) : signal := input.
  Definition dft2 (input : signal) : signal :=
    array 2 (fun k => input 0 @+ (input 1 @* oexp 2 k)).
  (** the part common to newsplitS, newsplitS2 and newsplitS4: w k @+ w' k; fft.ml:208-212, 219-223, 232-236 *)
  Definition ns_w (sign n : Z) (z z' : signal) : signal :=
    let w := array n (fun k => ns_t n (sign * k) @* z (omod k (odiv n 4))) in
    let w' := array n (fun k => o1 zconj (ns_t n (sign * k)) @* z' (omod k (odiv n 4))) in
    fun k => w k @+ w' k.
  Inductive nsk := KS | KS2 | KS4.
  (** newsplitS ([KS]), newsplitS2 ([KS2]) and newsplitS4 ([KS4]), fft.ml:204-237 *)
  Fixpoint newsplitS (fuel : nat) (kind : nsk) (sign n : Z) (input : signal) : signal :=
    match fuel with
    | O => fun _ => None
    | S f =>
        if n =? 1 then dft1 input
        else if n =? 2 then
          match kind with
          | KS4 => let g := dft2 input in array 2 (fun k => g k @* ns_sinv 8 k)
          | _ => dft2 input
          end
        else
          let ukind := match kind with KS => KS2 | KS2 => KS4 | KS4 => KS2 end in
          let u := newsplitS f ukind sign (odiv n 2) (fun i => input (i * 2)) in
          let z := newsplitS f KS sign (odiv n 4) (fun i => input (i * 4 + 1)) in
          let z' := newsplitS f KS sign (odiv n 4) (fun i => input (omod (n + i * 4 - 1) n)) in
          match kind with
          | KS =>
              let ww := array n (ns_w sign n z z') in
              array n (fun k => u (omod k (odiv n 2)) @+ ww k)
          | KS2 =>
              let ww := array n (fun k => ns_w sign n z z' k @* sdiv2 n k) in
              array n (fun k => u (omod k (odiv n 2)) @+ ww k)
          | KS4 =>
              let ww := array n (ns_w sign n z z') in
              array n (fun k => (u (omod k (odiv n 2)) @+ ww k) @* sdiv4 n k)
          end
    end.
  (** newsplit0, fft.ml:192-202 *)
  Fixpoint newsplit0 (fuel : nat) (sign n : Z) (input : signal) : signal :=
    match fuel with
    | O => fun _ => None
    | S f =>
        if n =? 1 then dft1 input
        else if n =? 2 then dft2 input
        else
          let u := newsplit0 f sign (odiv n 2) (fun i => input (i * 2)) in
          let z := newsplitS f KS sign (odiv n 4) (fun i => input (i * 4 + 1)) in
          let z' := newsplitS f KS sign (odiv n 4) (fun i => input (omod (n + i * 4 - 1) n)) in
          let twid := array n (fun k => ns_s (odiv n 4) k @* oexp n (sign * k)) in
          let w := array n (fun k => twid k @* z (omod k (odiv n 4))) in
          let w' := array n (fun k => o1 zconj (twid k) @* z' (omod k (odiv n 4))) in
          let ww := array n (fun k => w k @+ w' k) in
          array n (fun k => u (omod k (odiv n 2)) @+ ww k)
    end.
  Definition newsplit (sign n : Z) (input : signal) : signal := newsplit0 (S (Z.to_nat n)) sign n input.

  (** ** dft, fft.ml:241-307 *)
  (** cooley_tukey, fft.ml:242-251 *)
  Definition cooley_tukey (sign n n1 n2 : Z) (input : signal) : signal :=
    let tmp1 := array n2 (fun i2 => Some (dft sign n1 (fun i1 => input (i1 * n2 + i2)))) in
    let tmp2 := array n1 (fun i1 => Some (array n2 (fun i2 =>
                  oexp n (sign * i1 * i2) @* osig (tmp1 i2) i1))) in
    let tmp3 := array n1 (fun i1 => Some (dft sign n2 (osig (tmp2 i1)))) in
    fun i => osig (tmp3 (omod i n1)) (odiv i n1).
  (** split_radix_dit, fft.ml:256-265 *)
  Definition split_radix_dit (sign n : Z) (input : signal) : signal :=
    let f0 := dft sign (odiv n 2) (fun i => input (i * 2)) in
    let f10 := dft sign (odiv n 4) (fun i => input (i * 4 + 1)) in
    let f11 := dft sign (odiv n 4) (fun i => input (omod (n + i * 4 - 1) n)) in
    let g10 := array n (fun k => oexp n (sign * k) @* f10 (omod k (odiv n 4))) in
    let g11 := array n (fun k => oexp n (- sign * k) @* f11 (omod k (odiv n 4))) in
    let g1 := array n (fun k => g10 k @+ g11 k) in
    array n (fun k => f0 (omod k (odiv n 2)) @+ g1 k).
  (** split_radix_dif, fft.ml:267-279 *)
  Definition split_radix_dif (sign n : Z) (input : signal) : signal :=
    let n2 := odiv n 2 in let n4 := odiv n 4 in
    let x0 := array n2 (fun i => input i @+ input (i + n2)) in
    let x10 := array n4 (fun i => input i @- input (i + n2)) in
    let x11 := array n4 (fun i => input (i + n4) @- input (i + n2 + n4)) in
    let x1 := fun k i => oexp n (k * i * sign) @* (x10 i @+ oexp 4 (k * sign) @* x11 i) in
    let f0 := dft sign n2 x0 in
    let f1 := array 4 (fun k => Some (dft sign n4 (x1 k))) in
    array n (fun k =>
      if omod k 2 =? 0 then f0 (odiv k 2)
      else let k' := omod k 4 in osig (f1 k') (odiv (k - k') 4)).
  (** prime_factor, fft.ml:281-286 *)
  Definition prime_factor (sign n n1 n2 : Z) (input : signal) : signal :=
    let tmp1 := array n2 (fun i2 => Some (dft sign n1 (fun i1 => input (omod (i1 * n2 + i2 * n1) n)))) in
    let tmp2 := array n1 (fun i1 => Some (dft sign n2 (fun k2 => osig (tmp1 k2) i1))) in
    fun i => osig (tmp2 (omod i n1)) (omod i n2).
  (** algorithm, fft.ml:288-305 *)
  Definition algorithm (sign n : Z) (input : signal) : signal :=
    match choose_factor n with
    | None => fun _ => None
    | Some r =>
        if existsb (Z.eqb n) (rader_list M) then dft_rader sign n input
        else if r =? 1 then dft_prime sign n input
        else match gcd r (odiv n r) with
             | None => fun _ => None
             | Some g =>
                 if g =? 1 then prime_factor sign n r (odiv n r) input
                 else if (omod n 4 =? 0) && (n >? 4) then
                   if use_newsplit M && is_power_of_two n then newsplit sign n input
                   else if dif_split_radix M then split_radix_dif sign n input
                   else split_radix_dit sign n input
                 else cooley_tukey sign n r (odiv n r) input
             end
    end.
  End Rec.

  Fixpoint dft_fuel (fuel : nat) (sign n : Z) (input : signal) : signal :=
    match fuel with
    | O => fun _ => None
    | S f => array n (algorithm (dft_fuel f) sign n input)
    end.
  (** [Fft.dft]: a recursive call is on a smaller size, so [n] levels are enough *)
  Definition fft_dft (sign n : Z) (input : signal) : signal := dft_fuel (S (Z.to_nat n)) sign n input.
End Fft.
