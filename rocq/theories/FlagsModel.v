(** * API flags and their translation into planner flags (api/mapflags.c, api/apiplan.c).
    Flag words are non-negative integers below 2^32 (C [unsigned]); the bit
    operations are Coq's [Z.land], [Z.lor], [Z.lxor]. *)
From Coq Require Import Reals ZArith List Lia Bool Rfunctions R_Ifp.
Import ListNotations.
Open Scope Z_scope.

(** api/fftw3.h:494-519 *)
Definition FFTW_MEASURE := 0.
Definition FFTW_DESTROY_INPUT := 2 ^ 0.
Definition FFTW_UNALIGNED := 2 ^ 1.
Definition FFTW_CONSERVE_MEMORY := 2 ^ 2.
Definition FFTW_EXHAUSTIVE := 2 ^ 3.
Definition FFTW_PRESERVE_INPUT := 2 ^ 4.
Definition FFTW_PATIENT := 2 ^ 5.
Definition FFTW_ESTIMATE := 2 ^ 6.
Definition FFTW_WISDOM_ONLY := 2 ^ 21.
Definition FFTW_ESTIMATE_PATIENT := 2 ^ 7.
Definition FFTW_BELIEVE_PCOST := 2 ^ 8.
Definition FFTW_NO_DFT_R2HC := 2 ^ 9.
Definition FFTW_NO_NONTHREADED := 2 ^ 10.
Definition FFTW_NO_BUFFERING := 2 ^ 11.
Definition FFTW_NO_INDIRECT_OP := 2 ^ 12.
Definition FFTW_ALLOW_LARGE_GENERIC := 2 ^ 13.
Definition FFTW_NO_RANK_SPLITS := 2 ^ 14.
Definition FFTW_NO_VRANK_SPLITS := 2 ^ 15.
Definition FFTW_NO_VRECURSE := 2 ^ 16.
Definition FFTW_NO_SIMD := 2 ^ 17.
Definition FFTW_NO_SLOW := 2 ^ 18.
Definition FFTW_NO_FIXED_RADIX_LARGE_N := 2 ^ 19.
Definition FFTW_ALLOW_PRUNING := 2 ^ 20.

(** kernel/ifftw.h:646-665 *)
Definition BELIEVE_PCOST := 1.
Definition ESTIMATE := 2.
Definition NO_DFT_R2HC := 4.
Definition NO_SLOW := 8.
Definition NO_VRECURSE := 16.
Definition NO_INDIRECT_OP := 32.
Definition NO_LARGE_GENERIC := 64.
Definition NO_RANK_SPLITS := 128.
Definition NO_VRANK_SPLITS := 256.
Definition NO_NONTHREADED := 512.
Definition NO_BUFFERING := 1024.
Definition NO_FIXED_RADIX_LARGE_N := 2048.
Definition NO_DESTROY_INPUT := 4096.
Definition NO_SIMD := 8192.
Definition CONSERVE_MEMORY := 16384.
Definition NO_DHT_R2HC := 32768.
Definition NO_UGLY := 65536.
Definition ALLOW_PRUNING := 131072.

(** api/mapflags.c:27-34 *)
Record flagmask := mkmask { fx : Z; fxm : Z }.
Record flagop := mkop { fflag : flagmask; fop : flagmask }.
(** api/mapflags.c:36-37 *)
Definition FLAGP (f : Z) (msk : flagmask) : bool := negb (Z.lxor (Z.land f (fx msk)) (fxm msk) =? 0).
Definition OP (f : Z) (msk : flagmask) : Z := Z.lxor (Z.lor f (fx msk)) (fxm msk).
(** api/mapflags.c:39-43 *)
Definition YES x := mkmask x 0.
Definition NO x := mkmask x x.
Definition IMPLIES p c := mkop p c.
Definition EQV a b := [IMPLIES (YES a) (YES b); IMPLIES (NO a) (NO b)].
Definition NEQV a b := [IMPLIES (YES a) (NO b); IMPLIES (NO a) (YES b)].

(** api/mapflags.c:45-52, in the two ways it is called: with iflags and oflags
    the same variable, and with different variables *)
Definition map_flags_self (f : Z) (mp : list flagop) : Z :=
  fold_left (fun f op => if FLAGP f (fflag op) then OP f (fop op) else f) mp f.
Definition map_flags (i o : Z) (mp : list flagop) : Z :=
  fold_left (fun o op => if FLAGP i (fflag op) then OP o (fop op) else o) mp o.

(** api/mapflags.c:83-117 *)
Definition self_flagmap : list flagop :=
  [ IMPLIES (YES FFTW_PRESERVE_INPUT) (NO FFTW_DESTROY_INPUT);
    IMPLIES (NO FFTW_DESTROY_INPUT) (YES FFTW_PRESERVE_INPUT);
    IMPLIES (YES FFTW_EXHAUSTIVE) (YES FFTW_PATIENT);
    IMPLIES (YES FFTW_ESTIMATE) (NO FFTW_PATIENT);
    IMPLIES (YES FFTW_ESTIMATE)
            (YES (Z.lor FFTW_ESTIMATE_PATIENT (Z.lor FFTW_NO_INDIRECT_OP FFTW_ALLOW_PRUNING)));
    IMPLIES (NO FFTW_EXHAUSTIVE) (YES FFTW_NO_SLOW);
    IMPLIES (NO FFTW_PATIENT)
            (YES (fold_right Z.lor 0
               [FFTW_NO_VRECURSE; FFTW_NO_RANK_SPLITS; FFTW_NO_VRANK_SPLITS; FFTW_NO_NONTHREADED;
                FFTW_NO_DFT_R2HC; FFTW_NO_FIXED_RADIX_LARGE_N; FFTW_BELIEVE_PCOST])) ].
(** api/mapflags.c:119-126 *)
Definition l_flagmap : list flagop :=
  EQV FFTW_PRESERVE_INPUT NO_DESTROY_INPUT ++ EQV FFTW_NO_SIMD NO_SIMD ++
  EQV FFTW_CONSERVE_MEMORY CONSERVE_MEMORY ++ EQV FFTW_NO_BUFFERING NO_BUFFERING ++
  NEQV FFTW_ALLOW_LARGE_GENERIC NO_LARGE_GENERIC.
(** api/mapflags.c:128-145 *)
Definition u_flagmap : list flagop :=
  [ IMPLIES (YES FFTW_EXHAUSTIVE) (NO 4294967295);
    IMPLIES (NO FFTW_EXHAUSTIVE) (YES NO_UGLY) ] ++
  EQV FFTW_ESTIMATE_PATIENT ESTIMATE ++ EQV FFTW_ALLOW_PRUNING ALLOW_PRUNING ++
  EQV FFTW_BELIEVE_PCOST BELIEVE_PCOST ++ EQV FFTW_NO_DFT_R2HC NO_DFT_R2HC ++
  EQV FFTW_NO_NONTHREADED NO_NONTHREADED ++ EQV FFTW_NO_INDIRECT_OP NO_INDIRECT_OP ++
  EQV FFTW_NO_RANK_SPLITS NO_RANK_SPLITS ++ EQV FFTW_NO_VRANK_SPLITS NO_VRANK_SPLITS ++
  EQV FFTW_NO_VRECURSE NO_VRECURSE ++ EQV FFTW_NO_SLOW NO_SLOW ++
  EQV FFTW_NO_FIXED_RADIX_LARGE_N NO_FIXED_RADIX_LARGE_N.

(** api/mapflags.c:77-159: the values computed for the fields flags.l and
    flags.u, before they are stored into 20-bit bit-fields. *)
Definition mapflags (flags : Z) : Z * Z :=
  let fl := map_flags_self flags self_flagmap in
  let l := map_flags fl 0 l_flagmap in
  let u := map_flags fl 0 u_flagmap in
  (l, Z.lor u l).

(** the two fields as stored: unsigned l:20, u:20 (kernel/ifftw.h:631-643) *)
Definition PLNR_L (flags : Z) : Z := fst (mapflags flags) mod 2 ^ 20.
Definition PLNR_U (flags : Z) : Z := snd (mapflags flags) mod 2 ^ 20.

(** api/mapflags.c:58-75, in exact real arithmetic.  [Int_part] is the C
    conversion (int) because its argument is positive when it is reached. *)
Definition BITS_FOR_TIMELIMIT := 9.
Definition tmax : R := (365 * 24 * 3600)%R.
Definition tstep : R := (105 / 100)%R.
Definition nsteps : Z := 2 ^ BITS_FOR_TIMELIMIT.
Definition timelimit_to_flags (timelimit : R) : Z :=
  if Rlt_dec timelimit 0 then 0
  else if Rle_dec tmax timelimit then 0
  else if Rle_dec timelimit (1 / 10 ^ 10) then nsteps - 1
  else
    let x := Int_part (1 / 2 + ln (tmax / timelimit) / ln tstep)%R in
    let x := if x <? 0 then 0 else x in
    if nsteps <=? x then nsteps - 1 else x.

(** api/apiplan.c:45-49; [Z.ldiff a b] is a & ~b *)
Definition force_estimator (flags : Z) : Z :=
  Z.lor (Z.ldiff flags (Z.lor FFTW_MEASURE (Z.lor FFTW_PATIENT FFTW_EXHAUSTIVE))) FFTW_ESTIMATE.

(** api/apiplan.c:92-134: the flag words with which mkapiplan calls the
    planner, in order, when it is not interrupted (failure stops the list
    earlier). [tl] says whether a time limit is set (timelimit >= 0). *)
Definition pats : list Z := [FFTW_ESTIMATE; FFTW_MEASURE; FFTW_PATIENT; FFTW_EXHAUSTIVE].
Definition flagset (f x : Z) : bool := negb (Z.land f x =? 0).
Definition pat_max (flags : Z) : nat :=
  if flagset flags FFTW_ESTIMATE then 0%nat
  else if flagset flags FFTW_EXHAUSTIVE then 3%nat
  else if flagset flags FFTW_PATIENT then 2%nat else 1%nat.
Definition strip (flags : Z) : Z :=
  Z.ldiff flags (Z.lor FFTW_ESTIMATE (Z.lor FFTW_MEASURE (Z.lor FFTW_PATIENT FFTW_EXHAUSTIVE))).
Definition pat_flags (flags : Z) (pat : nat) : Z := Z.lor (strip flags) (nth pat pats 0).
Definition planning_flags (tl : bool) (flags : Z) : list Z :=
  let pm := pat_max flags in
  let p0 := if tl then 0%nat else pm in
  map (pat_flags flags) (seq p0 (S pm - p0)).
