(** * The planning and execution entry points for complex DFTs (api/). *)
From Coq Require Import Reals ZArith List Lia Bool.
From Verif Require Import Cplx Spec TensorModel Offs XForm DftModel FlagsModel.
Import ListNotations.
Open Scope Z_scope.

(** kernel/ifftw.h:441-442: #define RNK_MINFTY INT_MAX, FINITE_RNK(rnk) ((rnk) != RNK_MINFTY) *)
Definition RNK_MINFTY : Z := 2 ^ 31 - 1.
Definition FINITE_RNK (rnk : Z) : bool := negb (rnk =? RNK_MINFTY).

(** iodims_kosherp, api/mktensor-iodims.h:38-55 *)
Definition iodims_kosherp (rank : Z) (dims : Z -> iodim) (allow_minfty : bool) : bool :=
  if rank <? 0 then false
  else if allow_minfty then
    if negb (FINITE_RNK rank) then true
    else forallb (fun i => negb (dn (dims i) <? 0)) (zr rank)
  else
    if negb (FINITE_RNK rank) then false
    else forallb (fun i => negb (dn (dims i) <=? 0)) (zr rank).
(** GURU_KOSHERP, api/mktensor-iodims.h:57-62 *)
Definition guru_kosherp (rank : Z) (dims : Z -> iodim) (hrank : Z) (hdims : Z -> iodim) : bool :=
  iodims_kosherp rank dims false && iodims_kosherp hrank hdims true.

(** MKTENSOR_IODIMS, api/mktensor-iodims.h:23-36.  The tensor of rank
    RNK_MINFTY (an empty loop) is represented by one dimension of length 0. *)
Definition dim_scale (is os : Z) (d : iodim) : iodim := mkdim (dn d) (dis d * is) (dos d * os).
Definition empty_loop : list iodim := [mkdim 0 0 0].
Definition mktensor_iodims (rank : Z) (dims : Z -> iodim) (is os : Z) : list iodim :=
  if FINITE_RNK rank then map (fun i => dim_scale is os (dims i)) (zr rank) else empty_loop.

(** rowmajor_kosherp, X(many_kosherp), api/mktensor-rowmajor.c:44-60 *)
Definition rowmajor_kosherp (rnk : Z) (n : Z -> Z) : bool :=
  if negb (FINITE_RNK rnk) then false
  else if rnk <? 0 then false
  else forallb (fun i => negb (n i <=? 0)) (zr rnk).
Definition many_kosherp (rnk : Z) (n : Z -> Z) (howmany : Z) : bool :=
  (0 <=? howmany) && rowmajor_kosherp rnk n.

(** X(mktensor_rowmajor), api/mktensor-rowmajor.c:23-42: the loop runs from the
    last dimension down; [rowmajor_from k i ...] builds dimensions i-k..i-1 in
    front of [acc], whose first dimension is dimension i. *)
Fixpoint rowmajor_from (k : nat) (i : Z) (n niphys nophys : Z -> Z) (acc : list iodim) : list iodim :=
  match k, acc with
  | O, _ => acc
  | S k', d :: _ =>
      rowmajor_from k' (i - 1) n niphys nophys
        (mkdim (n (i - 1)) (dis d * niphys i) (dos d * nophys i) :: acc)
  | S _, [] => []
  end.
Definition mktensor_rowmajor (rnk : Z) (n niphys nophys : Z -> Z) (is os : Z) : list iodim :=
  if rnk <=? 0 then []
  else rowmajor_from (Z.to_nat (rnk - 1)) (rnk - 1) n niphys nophys [mkdim (n (rnk - 1)) is os].

(** X(mktensor_1d), kernel/tensor1.c:29-36 *)
Definition mktensor_1d (n is os : Z) : list iodim := [mkdim n is os].

(** X(extract_reim), kernel/extract-reim.c:27-36 (FFT_SIGN is -1, kernel/ifftw.h:92) *)
Definition FFT_SIGN : Z := -1.
Definition extract_reim (sign : Z) (c : loc) : loc * loc :=
  if sign =? FFT_SIGN then (c, sh c 1) else (sh c 1, c).

(** struct apiplan, api/api.h:62-70: the plan, the sign, and of the problem the
    pointers to real parts *)
Record apiplan := mkap { ap_sign : Z; ap_apply : rapply; ap_ri : loc; ap_ro : loc }.

Definition loc_same (a b : loc) : bool := Nat.eqb (fst a) (fst b) && (snd a =? snd b).

(** X(mkproblem_dft) + X(mkapiplan), dft/problem.c:77-112, api/apiplan.c:86-165:
    the outcome of planning the problem is NULL or some plan the solvers can
    build (relation [child] of DftModel) under the obligations of the flags.
    Pointers to real and imaginary parts lie in the same block; the plan
    depends on their distances only. *)
Inductive mkapiplan_dft (qs : qsort_t) (sign flags : Z) (sz vec : list iodim) (ri ii ro io : loc) : option apiplan -> Prop :=
  | MK_null : mkapiplan_dft qs sign flags sz vec ri ii ro io None
  | MK_plan f ip :
      fst ri = fst ii -> fst ro = fst io ->
      ip = loc_same ri ro || loc_same ii io ->       (* dft/problem.c:94-98 *)
      (ip = true -> ri = ro /\ ii = io) ->
      child qs (flagset (FlagsModel.PLNR_L flags) NO_DESTROY_INPUT) ip
            (snd ii - snd ri) (snd io - snd ro) sz vec f ->
      mkapiplan_dft qs sign flags sz vec ri ii ro io (Some (mkap sign f ri ro)).

(** XGURU(dft), api/plan-guru-dft.h:24-44 *)
Inductive plan_guru_dft (qs : qsort_t) (rank : Z) (dims : Z -> iodim) (hrank : Z) (hdims : Z -> iodim)
    (inp out : loc) (sign flags : Z) : option apiplan -> Prop :=
  | G_null : guru_kosherp rank dims hrank hdims = false ->
      plan_guru_dft qs rank dims hrank hdims inp out sign flags None
  | G_plan r : guru_kosherp rank dims hrank hdims = true ->
      mkapiplan_dft qs sign flags (mktensor_iodims rank dims 2 2) (mktensor_iodims hrank hdims 2 2)
        (fst (extract_reim sign inp)) (snd (extract_reim sign inp))
        (fst (extract_reim sign out)) (snd (extract_reim sign out)) r ->
      plan_guru_dft qs rank dims hrank hdims inp out sign flags r.

(** XGURU(split_dft), api/plan-guru-split-dft.h:24-39 *)
Inductive plan_guru_split_dft (qs : qsort_t) (rank : Z) (dims : Z -> iodim) (hrank : Z) (hdims : Z -> iodim)
    (ri ii ro io : loc) (flags : Z) : option apiplan -> Prop :=
  | GS_null : guru_kosherp rank dims hrank hdims = false ->
      plan_guru_split_dft qs rank dims hrank hdims ri ii ro io flags None
  | GS_plan r : guru_kosherp rank dims hrank hdims = true ->
      mkapiplan_dft qs (if (snd ii - snd ri =? 1) && (snd io - snd ro =? 1) then FFT_SIGN else - FFT_SIGN) flags
        (mktensor_iodims rank dims 1 1) (mktensor_iodims hrank hdims 1 1) ri ii ro io r ->
      plan_guru_split_dft qs rank dims hrank hdims ri ii ro io flags r.

(** X(plan_many_dft), api/plan-many-dft.c:26-51; N0(nembed) is nembed or n *)
Definition N0 (nembed : option (Z -> Z)) (n : Z -> Z) : Z -> Z := match nembed with Some e => e | None => n end.
Inductive plan_many_dft (qs : qsort_t) (rank : Z) (n : Z -> Z) (howmany : Z)
    (inp : loc) (inembed : option (Z -> Z)) (istride idist : Z)
    (out : loc) (onembed : option (Z -> Z)) (ostride odist : Z) (sign flags : Z) : option apiplan -> Prop :=
  | M_null : many_kosherp rank n howmany = false ->
      plan_many_dft qs rank n howmany inp inembed istride idist out onembed ostride odist sign flags None
  | M_plan r : many_kosherp rank n howmany = true ->
      mkapiplan_dft qs sign flags
        (mktensor_rowmajor rank n (N0 inembed n) (N0 onembed n) (2 * istride) (2 * ostride))
        (mktensor_1d howmany (2 * idist) (2 * odist))
        (fst (extract_reim sign inp)) (snd (extract_reim sign inp))
        (fst (extract_reim sign out)) (snd (extract_reim sign out)) r ->
      plan_many_dft qs rank n howmany inp inembed istride idist out onembed ostride odist sign flags r.

(** X(plan_dft), api/plan-dft.c:23-30 *)
Definition plan_dft qs rank n inp out sign flags :=
  plan_many_dft qs rank n 1 inp None 1 1 out None 1 1 sign flags.

(** X(plan_dft_1d), X(plan_dft_2d), X(plan_dft_3d), api/plan-dft-{1,2,3}d.c *)
Definition plan_dft_1d qs n := plan_dft qs 1 (fun _ => n).
Definition plan_dft_2d qs nx ny := plan_dft qs 2 (fun i => if i =? 0 then nx else ny).
Definition plan_dft_3d qs nx ny nz := plan_dft qs 3 (fun i => if i =? 0 then nx else if i =? 1 then ny else nz).

(** X(execute), api/execute.c:23-27, with X(dft_solve), dft/solve.c:24-32 *)
Definition execute (p : apiplan) (nx : nat) (m : mem) : mem := ap_apply p nx (ap_ri p) (ap_ro p) m.
(** X(execute_dft), api/execute-dft.c:25-33.  As everywhere, the second pointer
    of each pair is determined by the plan ([di] of [child]). *)
Definition execute_dft (p : apiplan) (nx : nat) (inp out : loc) (m : mem) : mem :=
  if ap_sign p =? FFT_SIGN then ap_apply p nx inp out m
  else ap_apply p nx (sh inp 1) (sh out 1) m.
(** X(execute_split_dft), api/execute-split-dft.c:25-29 *)
Definition execute_split_dft (p : apiplan) (nx : nat) (ri ro : loc) (m : mem) : mem :=
  ap_apply p nx ri ro m.

(** X(rdft2_pad), api/rdft2-pad.c:24-39.  The returned pointer is a function
    from indices; nothing else reads the copy. *)
Definition rdft2_pad (rnk : Z) (n : Z -> Z) (nembed : option (Z -> Z)) (inplace cmplx : bool) : option (Z -> Z) :=
  match nembed with
  | None =>
      if 0 <? rnk then
        if inplace || cmplx then
          Some (fun i => if i =? rnk - 1 then (Z.quot (n (rnk - 1)) 2 + 1) * (1 + Z.b2z (negb cmplx)) else n i)
        else Some n
      else None
  | Some e => Some e
  end.
(** The tensors handed to the planner by X(plan_many_dft_r2c) and
    X(plan_many_dft_c2r), api/plan-many-dft-r2c.c:24-57 and
    api/plan-many-dft-c2r.c:24-59 (the transform size tensor). *)
Definition emb (o : option (Z -> Z)) : Z -> Z := match o with Some e => e | None => fun _ => 0 end.
Definition r2c_tensor (rank : Z) (n : Z -> Z) (inembed : option (Z -> Z)) (istride : Z) (onembed : option (Z -> Z)) (ostride : Z) (inplace : bool) : list iodim :=
  mktensor_rowmajor rank n (emb (rdft2_pad rank n inembed inplace false)) (emb (rdft2_pad rank n onembed inplace true)) istride (2 * ostride).
Definition c2r_tensor (rank : Z) (n : Z -> Z) (inembed : option (Z -> Z)) (istride : Z) (onembed : option (Z -> Z)) (ostride : Z) (inplace : bool) : list iodim :=
  mktensor_rowmajor rank n (emb (rdft2_pad rank n inembed inplace true)) (emb (rdft2_pad rank n onembed inplace false)) (2 * istride) ostride.
