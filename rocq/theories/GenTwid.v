(** * genfft/twiddle.ml (how codelets get their twiddle factors) and the dag-building part of
    gen_twiddle.ml, gen_twidsq.ml, gen_hc2hc.ml, gen_hc2c.ml, gen_hc2cdft.ml, gen_notw_c.ml,
    gen_twiddle_c.ml, gen_twidsq_c.ml

    The twiddle instructions are those of kernel/ifftw.h (TwModel.v), where the generated
    tables end up.  As in GenExpr.v, non-termination and exceptions are [None]. *)
From Coq Require Import Reals ZArith List Lia Lra Bool.
From Verif Require Import NumTheory Cplx SpecR2R TwModel GenExpr GenCplx GenFft GenTrig.
Import ListNotations.
Open Scope Z_scope.

(** ** Integers *)
(** pow, twiddle.ml:60-62; a negative exponent does not terminate *)
Fixpoint upow (fuel : nat) (m n : Z) : option Z :=
  match fuel with
  | O => None
  | S f => if n =? 0 then Some 1 else option_map (Z.mul m) (upow f m (n - 1))
  end.
Definition tpow (m n : Z) : option Z := upow (S (Z.to_nat n)) m n.
(** is_pow, twiddle.ml:64-65; is_pow m 0 does not terminate *)
Fixpoint uis_pow (fuel : nat) (m n : Z) : option bool :=
  match fuel with
  | O => None
  | S f => if n =? 1 then Some true else if omod n m =? 0 then uis_pow f m (odiv n m) else Some false
  end.
Definition is_pow (m n : Z) : option bool := uis_pow (S (Z.to_nat n)) m n.
(** log, twiddle.ml:67 *)
Fixpoint ulog (fuel : nat) (m n : Z) : option Z :=
  match fuel with
  | O => None
  | S f => if n =? 1 then Some 0 else option_map (Z.add 1) (ulog f m (odiv n m))
  end.
Definition tlog (m n : Z) : option Z := ulog (S (Z.to_nat n)) m n.
(** largest_power_smaller_than, twiddle.ml:69-71 *)
Fixpoint ulpst (fuel : nat) (m i : Z) : option Z :=
  match fuel with
  | O => None
  | S f => match is_pow m i with
           | Some true => Some i
           | Some false => ulpst f m (i - 1)
           | None => None
           end
  end.
Definition largest_power_smaller_than (m i : Z) : option Z := ulpst (S (Z.to_nat i)) m i.
(** smallest_power_larger_than, twiddle.ml:73-75 *)
Fixpoint usplt (fuel : nat) (m i : Z) : option Z :=
  match fuel with
  | O => None
  | S f => match is_pow m i with
           | Some true => Some i
           | Some false => usplt f m (i + 1)
           | None => None
           end
  end.
Definition smallest_power_larger_than (m i : Z) : option Z := usplt (S (Z.to_nat (m * i))) m i.
(** terms_needed, twiddle.ml:145-147 *)
Fixpoint uterms (fuel : nat) (i pi s n : Z) : option Z :=
  match fuel with
  | O => None
  | S f => if s >=? n - 1 then Some i else uterms f (i + 1) (3 * pi) (s + pi) n
  end.
Definition terms_needed (i pi s n : Z) : option Z := uterms (S (Z.to_nat n)) i pi s n.

Inductive policy := LOAD_ALL | LOG2 | LOG3.

(** twidlen, twiddle.ml:112, 131, 164 *)
Definition twidlen (p : policy) (n : Z) : option Z :=
  match p with
  | LOAD_ALL => Some (2 * (n - 1))
  | LOG2 => match largest_power_smaller_than 2 (2 * n - 1) with
            | Some x => option_map (Z.mul 2) (tlog 2 x)
            | None => None
            end
  | LOG3 => option_map (Z.mul 2) (terms_needed 0 1 0 n)
  end.
(** twdesc, twiddle.ml:113, 132-141, 165-171 *)
Definition twdesc (p : policy) (v n : Z) : option (list tw_instr) :=
  match p with
  | LOAD_ALL => Some [mkin TW_FULL v n; mkin TW_NEXT 1 0]
  | LOG2 => option_map (fun l => concat l ++ [mkin TW_NEXT 1 0])
      (omapM (fun i => if i >? 0 then
                         option_map (fun b : bool => if b then [mkin TW_CEXP v i] else []) (is_pow 2 i)
                       else Some []) (interval 0 n))
  | LOG3 => match twidlen LOG3 n with
            | Some len => option_map (fun l => l ++ [mkin TW_NEXT 1 0])
                (omapM (fun i => option_map (fun q => mkin TW_CEXP v (Z.min q (n - 1))) (tpow 3 i)) (interval 0 (odiv len 2)))
            | None => None
            end
  end.

Section Twid.
  Variable pheq : expr -> expr -> bool.
  Variable M : magic.
  Notation fft := (fft_dft pheq M).
  Notation times := (ztimes pheq M).

  (** rec_array, twiddle.ml:77-84: the lazy array is a recursive function; an index outside the
      array raises, a cyclic definition is [None] *)
  Fixpoint urec_array (fuel : nat) (n : Z) (f : signal -> signal) (i : Z) : option ce :=
    match fuel with
    | O => None
    | S k => f (array n (urec_array k n f)) i
    end.
  Definition rec_array (n : Z) (f : signal -> signal) : signal := urec_array (S (S (Z.to_nat n))) n f.

  (** ctimes, ctimesj, twiddle.ml:87-97 *)
  Definition tctimes (uca : bool) (a b : option ce) : option ce :=
    if uca then o2 zctimes a b else o2 times a b.
  Definition tctimesj (uca : bool) (a b : option ce) : option ce :=
    if uca then o2 zctimesj a b else o2 times (o1 zconj a) b.
  (** make_bytwiddle, twiddle.ml:99-105 *)
  Definition make_bytwiddle (sign : Z) (uca : bool) (g f : signal) : signal :=
    fun i => if i =? 0 then f i
             else if sign =? 1 then tctimes uca (g i) (f i)
             else tctimesj uca (g i) (f i).

  (** twiddle_policy_log2, twiddle.ml:124-130 *)
  Definition log2_body (uca : bool) (w : signal) (self : signal) : signal := fun i =>
    if i =? 0 then Some zone
    else match is_pow 2 i with
         | None => None
         | Some true => match tlog 2 i with Some l => w l | None => None end
         | Some false =>
             match largest_power_smaller_than 2 i with
             | None => None
             | Some x => let y := i - x in tctimes uca (self x) (self y)
             end
         end.
  (** twiddle_policy_log3, twiddle.ml:150-163 *)
  Definition log3_body (uca : bool) (n nterms maxterm : Z) (w : signal) (self : signal) : signal := fun i =>
    if i =? 0 then Some zone
    else match is_pow 3 i with
         | None => None
         | Some true => match tlog 3 i with Some l => w l | None => None end
         | Some false =>
             if (i =? n - 1) && (maxterm >=? n) then w (nterms - 1)
             else match smallest_power_larger_than 3 i with
                  | None => None
                  | Some x =>
                      if i + i >=? x then
                        let x := Z.min x (n - 1) in
                        tctimesj uca (self (x - i)) (self x)
                      else
                        match largest_power_smaller_than 3 i with
                        | None => None
                        | Some x => tctimes uca (self (i - x)) (self x)
                        end
                  end
         end.
  (** bytwiddle of the three policies, twiddle.ml:110-111, 123-130, 149-163 *)
  Definition bytwiddle (p : policy) (uca : bool) (n sign : Z) (w f : signal) : signal :=
    match p with
    | LOAD_ALL => make_bytwiddle sign uca (fun i => w (i - 1)) f
    | LOG2 => make_bytwiddle sign uca (rec_array n (log2_body uca w)) f
    | LOG3 =>
        match terms_needed 0 1 0 n with
        | None => fun _ => None
        | Some nterms =>
            match tpow 3 (nterms - 1) with
            | None => fun _ => None
            | Some maxterm => make_bytwiddle sign uca (rec_array (3 * n) (log3_body uca n nterms maxterm w)) f
            end
        end
    end.

  (** twiddle_array, genutil.ml:72-83: element l of the array is W[2l] + i W[2l+1]; [cls] is the
      token of the class (a fresh one for each element) *)
  Definition twiddle_array (cls : Z -> Z) (nt : Z) : signal :=
    array (odiv nt 2) (fun l => Some (load_c (Constant (cls l) (2 * l), Constant (cls l) (2 * l + 1)))).
  (** the number of twiddle factors and the multiplication by twiddle factors of a generator,
      e.g. gen_twiddle.ml:64-67 *)
  Definition byw (p : policy) (uca : bool) (cls : Z -> Z) (sign n : Z) (f : signal) : signal :=
    match twidlen p n with
    | Some nt => bytwiddle p uca n sign (twiddle_array cls nt) f
    | None => fun _ => None
    end.

  (** ** The generators *)
  (** gen_twiddle.ml:85-91 *)
  Definition gen_twiddle (p : policy) (cls : Z -> Z) (dit : bool) (sign n : Z) (iloc oloc : Z -> variable * variable) : option (list expr) :=
    let liloc := load_array_c n iloc in
    let output := if dit then array n (fft sign n (byw p false cls sign n liloc))
                  else array n (byw p false cls sign n (fft sign n liloc)) in
    store_array_c n oloc output.
  (** load_v_array_c, store_v_array_c, genutil.ml:96-97, 145-149 *)
  Definition load_v_array_c (veclen n : Z) (var : Z -> Z -> variable * variable) : Z -> signal :=
    fun v => if (0 <=? v) && (v <? veclen) then load_array_c n (var v) else fun _ => None.
  Definition store_v_array_c (veclen n : Z) (dst : Z -> Z -> variable * variable) (src : Z -> signal) : option (list expr) :=
    option_map (@concat expr) (omapM (fun v => store_array_c n (dst v) (src v)) (interval 0 veclen)).
  (** gen_twidsq.ml:79-111.  [cls v]: with -reload-twiddle the twiddle factors are loaded once for
      each v, in different classes, otherwise [cls] is constant *)
  Definition gen_twidsq (p : policy) (cls : Z -> Z -> Z) (dit : bool) (sign n : Z) (ioi ioo : Z -> Z -> variable * variable) : option (list expr) :=
    let lioi := load_v_array_c n n ioi in
    let output := fun v => if (0 <=? v) && (v <? n) then
                    (if dit then fft sign n (byw p false (cls v) sign n (lioi v))
                     else byw p false (cls v) sign n (fft sign n (lioi v)))
                  else fun _ => None in
    store_v_array_c n n ioo (fun i j => output j i).
  (** byi, byui, sym1, sym2, sym2i, gen_hc2hc.ml:67-74 *)
  Definition byi (x : option ce) : option ce := o1 (times zi) x.
  Definition byui (x : option ce) : option ce := o1 (times (zuminus zi)) x.
  Definition hsym1 (n : Z) (f : signal) : signal :=
    fun i => oplus2 pheq (o1 zreal (f i)) (byi (o1 zimag (f (n - 1 - i)))).
  Definition hsym2 (n : Z) (f : signal) : signal := fun i => if i <? n - i then f i else byi (f i).
  Definition hsym2i (n : Z) (f : signal) : signal := fun i => if i <? n - i then f i else byui (f i).
  (** gen_hc2hc.ml:50-65, 92-104 *)
  Definition gen_hc2hc (p : policy) (cls : Z -> Z) (dit : bool) (sign n : Z) (inp ioloc : Z -> variable * variable) : option (list expr) :=
    let input := load_array_c n inp in
    let output := if dit then hsym1 n (hsym2 n (fft sign n (byw p false cls sign n input)))
                  else byw p false cls sign n (fft sign n (hsym2i n (hsym1 n input))) in
    store_array_c n ioloc output.
  (** sym, gen_hc2c.ml:50, gen_hc2cdft.ml:105 *)
  Definition csym (n : Z) (f : signal) : signal := fun i => if i <? n - i then f i else o1 zconj (f i).
  (** locri, locpm, gen_hc2c.ml:100-101, and rloc, cloc, gen_hc2cdft.ml:103-104 *)
  Definition loc_eo (e o : Z -> variable * variable) (i : Z) : variable * variable :=
    if omod i 2 =? 0 then e (odiv i 2) else o (odiv (i - 1) 2).
  Definition loc_pm (n : Z) (p m : Z -> variable * variable) (i : Z) : variable * variable :=
    if i <? n - i then p i else m (n - 1 - i).
  (** gen_hc2c.ml:80-114.  [rp], [ip], [rm], [im]: the elements of the four arrays *)
  Definition gen_hc2c (p : policy) (cls : Z -> Z) (dit : bool) (sign n : Z) (rp ip rm im : Z -> variable) : option (list expr) :=
    let locri := loc_eo (fun i => (rp i, rm i)) (fun i => (ip i, im i)) in
    let locpm := loc_pm n (fun i => (rp i, ip i)) (fun i => (rm i, im i)) in
    if dit then store_array_c n locpm (csym n (fft sign n (byw p false cls sign n (load_array_c n locri))))
    else store_array_c n locri (byw p false cls sign n (fft sign n (csym n (load_array_c n locpm)))).
  (** sym1, sym1i, gen_hc2cdft.ml:106-118 *)
  Definition csym1 (f : signal) : signal := fun i =>
    if omod i 2 =? 0 then oplus2 pheq (f i) (o1 zconj (f (i + 1)))
    else o1 (times (zuminus zi)) (oplus2 pheq (f (i - 1)) (o1 zuminus (o1 zconj (f i)))).
  Definition csym1i (f : signal) : signal := fun i =>
    if omod i 2 =? 0 then oplus2 pheq (f i) (o1 (times zi) (f (i + 1)))
    else o1 zconj (oplus2 pheq (f (i - 1)) (o1 (times (zuminus zi)) (f i))).
  (** gen_hc2cdft.ml:84-136 *)
  Definition gen_hc2cdft (p : policy) (cls : Z -> Z) (dit : bool) (sign n : Z) (rp ip rm im : Z -> variable) : option (list expr) :=
    let locp := fun i => (rp i, ip i) in let locm := fun i => (rm i, im i) in
    let rloc := loc_eo locp locm in let cloc := loc_pm n locp locm in
    if dit then
      store_array_c n cloc (csym n (fun i => o1 (times zhalf) (fft sign n (byw p false cls sign n (csym1 (load_array_c n rloc))) i)))
    else
      store_array_c n rloc (csym1i (byw p false cls sign n (fft sign n (csym n (load_array_c n cloc))))).

  (** gen_notw_c.ml:79-93; a variable is a complex number *)
  Definition gen_notw_c (sign n : Z) (inp oloc : Z -> variable * variable) : option (list expr) :=
    store_array_r n oloc (dft_via_rdft pheq M sign n (load_array_r n inp)).
  (** gen_twiddle_c.ml:65-92 *)
  Definition gen_twiddle_c (p : policy) (cls : Z -> Z) (dit : bool) (sign n : Z) (iloc oloc : Z -> variable * variable) : option (list expr) :=
    let liloc := load_array_r n iloc in
    let output := if dit then array n (dft_via_rdft pheq M sign n (byw p true cls sign n liloc))
                  else array n (byw p true cls sign n (dft_via_rdft pheq M sign n liloc)) in
    store_array_r n oloc output.
End Twid.
