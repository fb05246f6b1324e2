(** * The planning and execution entry points for r2c and c2r transforms (api/). *)
From Coq Require Import Reals ZArith List Lia Bool.
From Verif Require Import Spec TensorModel Offs XForm DftModel RdftModel R2Model FlagsModel ApiModel.
Import ListNotations.
Open Scope Z_scope.

(** struct apiplan, api/api.h:62-70: the plan and the pointers r0 and cr of the problem *)
Record r2plan := mkr2p { r2_c2r : bool; r2_apply : rapply; r2_r : loc; r2_c : loc }.

(** X(mkproblem_rdft2_d_3pointers), rdft/problem2.c:204-224: r1 - r0, and the
    tensor as its last dimension, with the stride of the real array doubled, and the others
    (rank 0 is represented by a last dimension of length 1, see R2Model) *)
Definition prob3 (c2r : bool) (sz : list iodim) : Z * list iodim * iodim :=
  match sz with
  | [] => (0, [], mkdim 1 0 0)
  | _ => let d := last sz (mkdim 1 0 0) in
         (if c2r then dos d else dis d, removelast sz,
          if c2r then mkdim (dn d) (dis d) (2 * dos d) else mkdim (dn d) (2 * dis d) (dos d))
  end.

(** X(mkproblem_rdft2) + X(mkapiplan), rdft/problem2.c:145-191, api/apiplan.c:86-165:
    NULL, or some plan the solvers can build (relation [r2child] of R2Model); the
    problem is in place if r0 == cr and unsolvable if r0 == ci, rdft/problem2.c:157-165. *)
Inductive mkapiplan_rdft2 (qs : qsort_t) (flags : Z) (c2r : bool) (sz vec : list iodim) (r cr ci : loc) : option r2plan -> Prop :=
  | MK2_null : mkapiplan_rdft2 qs flags c2r sz vec r cr ci None
  | MK2_plan f :
      fst cr = fst ci -> r <> ci ->
      r2child qs (flagset (FlagsModel.PLNR_L flags) NO_DESTROY_INPUT) (loc_same r cr) c2r
        (fst (fst (prob3 c2r sz))) (snd ci - snd cr) (snd (fst (prob3 c2r sz))) (snd (prob3 c2r sz)) vec f ->
      mkapiplan_rdft2 qs flags c2r sz vec r cr ci (Some (mkr2p c2r f r cr)).

(** flags |= FFTW_DESTROY_INPUT if not in place: api/plan-many-dft-c2r.c:41-42,
    api/plan-guru-dft-c2r.h:34-35, api/plan-guru-split-dft-c2r.h:30-31 *)
Definition c2r_flags (flags : Z) (out ri : loc) : Z := if loc_same out ri then flags else Z.lor flags FFTW_DESTROY_INPUT.

(** XGURU(split_dft_r2c), api/plan-guru-split-dft-r2c.h:24-39 *)
Inductive plan_guru_split_dft_r2c (qs : qsort_t) (rank : Z) (dims : Z -> iodim) (hrank : Z) (hdims : Z -> iodim)
    (inp ro io : loc) (flags : Z) : option r2plan -> Prop :=
  | GS2_null : guru_kosherp rank dims hrank hdims = false ->
      plan_guru_split_dft_r2c qs rank dims hrank hdims inp ro io flags None
  | GS2_plan r : guru_kosherp rank dims hrank hdims = true ->
      mkapiplan_rdft2 qs flags false (mktensor_iodims rank dims 1 1) (mktensor_iodims hrank hdims 1 1) inp ro io r ->
      plan_guru_split_dft_r2c qs rank dims hrank hdims inp ro io flags r.
(** XGURU(split_dft_c2r), api/plan-guru-split-dft-c2r.h:24-40 *)
Inductive plan_guru_split_dft_c2r (qs : qsort_t) (rank : Z) (dims : Z -> iodim) (hrank : Z) (hdims : Z -> iodim)
    (ri ii out : loc) (flags : Z) : option r2plan -> Prop :=
  | GS3_null : guru_kosherp rank dims hrank hdims = false ->
      plan_guru_split_dft_c2r qs rank dims hrank hdims ri ii out flags None
  | GS3_plan r : guru_kosherp rank dims hrank hdims = true ->
      mkapiplan_rdft2 qs (c2r_flags flags out ri) true (mktensor_iodims rank dims 1 1) (mktensor_iodims hrank hdims 1 1) out ri ii r ->
      plan_guru_split_dft_c2r qs rank dims hrank hdims ri ii out flags r.
(** XGURU(dft_r2c), api/plan-guru-dft-r2c.h:24-43 *)
Inductive plan_guru_dft_r2c (qs : qsort_t) (rank : Z) (dims : Z -> iodim) (hrank : Z) (hdims : Z -> iodim)
    (inp out : loc) (flags : Z) : option r2plan -> Prop :=
  | G2_null : guru_kosherp rank dims hrank hdims = false ->
      plan_guru_dft_r2c qs rank dims hrank hdims inp out flags None
  | G2_plan r : guru_kosherp rank dims hrank hdims = true ->
      mkapiplan_rdft2 qs flags false (mktensor_iodims rank dims 1 2) (mktensor_iodims hrank hdims 1 2)
        inp (fst (extract_reim FFT_SIGN out)) (snd (extract_reim FFT_SIGN out)) r ->
      plan_guru_dft_r2c qs rank dims hrank hdims inp out flags r.
(** XGURU(dft_c2r), api/plan-guru-dft-c2r.h:24-44 *)
Inductive plan_guru_dft_c2r (qs : qsort_t) (rank : Z) (dims : Z -> iodim) (hrank : Z) (hdims : Z -> iodim)
    (inp out : loc) (flags : Z) : option r2plan -> Prop :=
  | G3_null : guru_kosherp rank dims hrank hdims = false ->
      plan_guru_dft_c2r qs rank dims hrank hdims inp out flags None
  | G3_plan r : guru_kosherp rank dims hrank hdims = true ->
      mkapiplan_rdft2 qs (c2r_flags flags out (fst (extract_reim FFT_SIGN inp))) true
        (mktensor_iodims rank dims 2 1) (mktensor_iodims hrank hdims 2 1)
        out (fst (extract_reim FFT_SIGN inp)) (snd (extract_reim FFT_SIGN inp)) r ->
      plan_guru_dft_c2r qs rank dims hrank hdims inp out flags r.

(** X(plan_many_dft_r2c), api/plan-many-dft-r2c.c:24-57; the transform size tensor is [r2c_tensor] of ApiModel *)
Inductive plan_many_dft_r2c (qs : qsort_t) (rank : Z) (n : Z -> Z) (howmany : Z)
    (inp : loc) (inembed : option (Z -> Z)) (istride idist : Z)
    (out : loc) (onembed : option (Z -> Z)) (ostride odist : Z) (flags : Z) : option r2plan -> Prop :=
  | M2_null : many_kosherp rank n howmany = false ->
      plan_many_dft_r2c qs rank n howmany inp inembed istride idist out onembed ostride odist flags None
  | M2_plan r : many_kosherp rank n howmany = true ->
      mkapiplan_rdft2 qs flags false
        (r2c_tensor rank n inembed istride onembed ostride (loc_same inp (fst (extract_reim FFT_SIGN out))))
        (mktensor_1d howmany idist (2 * odist))
        inp (fst (extract_reim FFT_SIGN out)) (snd (extract_reim FFT_SIGN out)) r ->
      plan_many_dft_r2c qs rank n howmany inp inembed istride idist out onembed ostride odist flags r.
(** X(plan_many_dft_c2r), api/plan-many-dft-c2r.c:24-59 *)
Inductive plan_many_dft_c2r (qs : qsort_t) (rank : Z) (n : Z -> Z) (howmany : Z)
    (inp : loc) (inembed : option (Z -> Z)) (istride idist : Z)
    (out : loc) (onembed : option (Z -> Z)) (ostride odist : Z) (flags : Z) : option r2plan -> Prop :=
  | M3_null : many_kosherp rank n howmany = false ->
      plan_many_dft_c2r qs rank n howmany inp inembed istride idist out onembed ostride odist flags None
  | M3_plan r : many_kosherp rank n howmany = true ->
      mkapiplan_rdft2 qs (c2r_flags flags out (fst (extract_reim FFT_SIGN inp))) true
        (c2r_tensor rank n inembed istride onembed ostride (loc_same out (fst (extract_reim FFT_SIGN inp))))
        (mktensor_1d howmany (2 * idist) odist)
        out (fst (extract_reim FFT_SIGN inp)) (snd (extract_reim FFT_SIGN inp)) r ->
      plan_many_dft_c2r qs rank n howmany inp inembed istride idist out onembed ostride odist flags r.

(** X(plan_dft_r2c), api/plan-dft-r2c.c:23-29; X(plan_dft_c2r), api/plan-dft-c2r.c:23-27 *)
Definition plan_dft_r2c qs rank n inp out flags := plan_many_dft_r2c qs rank n 1 inp None 1 1 out None 1 1 flags.
Definition plan_dft_c2r qs rank n inp out flags := plan_many_dft_c2r qs rank n 1 inp None 1 1 out None 1 1 flags.
(** api/plan-dft-r2c-{1,2,3}d.c, api/plan-dft-c2r-{1,2,3}d.c *)
Definition plan_dft_r2c_1d qs n := plan_dft_r2c qs 1 (fun _ => n).
Definition plan_dft_r2c_2d qs nx ny := plan_dft_r2c qs 2 (fun i => if i =? 0 then nx else ny).
Definition plan_dft_r2c_3d qs nx ny nz := plan_dft_r2c qs 3 (fun i => if i =? 0 then nx else if i =? 1 then ny else nz).
Definition plan_dft_c2r_1d qs n := plan_dft_c2r qs 1 (fun _ => n).
Definition plan_dft_c2r_2d qs nx ny := plan_dft_c2r qs 2 (fun i => if i =? 0 then nx else ny).
Definition plan_dft_c2r_3d qs nx ny nz := plan_dft_c2r qs 3 (fun i => if i =? 0 then nx else if i =? 1 then ny else nz).

(** X(execute), api/execute.c:23-27, with X(rdft2_solve), rdft/solve2.c:25-32 *)
Definition execute_2 (p : r2plan) (nx : nat) (m : mem) : mem :=
  if r2_c2r p then r2_apply p nx (r2_c p) (r2_r p) m else r2_apply p nx (r2_r p) (r2_c p) m.
(** X(execute_dft_r2c), api/execute-dft-r2c.c:25-30; X(execute_split_dft_r2c),
    api/execute-split-dft-r2c.c:25-30.  The second pointers of the real and of the complex array
    are determined by the plan. *)
Definition execute_dft_r2c (p : r2plan) (nx : nat) (inp out : loc) (m : mem) : mem := r2_apply p nx inp out m.
(** X(execute_dft_c2r), api/execute-dft-c2r.c:25-30; X(execute_split_dft_c2r), api/execute-split-dft-c2r.c:25-30 *)
Definition execute_dft_c2r (p : r2plan) (nx : nat) (inp out : loc) (m : mem) : mem := r2_apply p nx inp out m.
