(** * The planning and execution entry points for r2r transforms (api/). *)
From Coq Require Import Reals ZArith List Lia Bool.
From Verif Require Import Spec SpecR2R TensorModel Offs XForm DftModel RdftModel FlagsModel ApiModel.
Import ListNotations.
Open Scope Z_scope.

(** X(map_r2r_kind), api/map-r2r-kind.c:24-50, on one kind; the numbers are
    the enumerators of api/fftw3.h:96-100 *)
Definition map_r2r_kind1 (k : Z) : rkind :=
  if k =? 0 then R2HC else if k =? 1 then HC2R else if k =? 2 then DHT
  else if k =? 3 then REDFT00 else if k =? 4 then REDFT01
  else if k =? 5 then REDFT10 else if k =? 6 then REDFT11
  else if k =? 7 then RODFT00 else if k =? 8 then RODFT01
  else if k =? 9 then RODFT10 else if k =? 10 then RODFT11
  else R2HC.
Definition map_r2r_kind (rank : Z) (kind : Z -> Z) : list rkind := map (fun i => map_r2r_kind1 (kind i)) (zr rank).

(** struct apiplan, api/api.h:62-70: the plan and the pointers of the problem *)
Record rplan := mkrp { rp_apply : rapply; rp_I : loc; rp_O : loc }.

(** X(mkproblem_rdft_d) + X(mkapiplan), rdft/problem.c:135-216,
    api/apiplan.c:86-165: the outcome is NULL or some plan the solvers can
    build (relation [rchild] of RdftModel) under the obligations of the flags;
    the problem is in place if both pointers are equal, rdft/problem.c:146-147. *)
Inductive mkapiplan_rdft (qs : qsort_t) (flags : Z) (sz : list rdim) (vec : list iodim) (I O : loc) : option rplan -> Prop :=
  | MKR_null : mkapiplan_rdft qs flags sz vec I O None
  | MKR_plan f :
      rchild qs (flagset (FlagsModel.PLNR_L flags) NO_DESTROY_INPUT) (loc_same I O) sz vec f ->
      mkapiplan_rdft qs flags sz vec I O (Some (mkrp f I O)).

(** XGURU(r2r), api/plan-guru-r2r.h:24-45 *)
Inductive plan_guru_r2r (qs : qsort_t) (rank : Z) (dims : Z -> iodim) (hrank : Z) (hdims : Z -> iodim)
    (inp out : loc) (kind : Z -> Z) (flags : Z) : option rplan -> Prop :=
  | GR_null : guru_kosherp rank dims hrank hdims = false ->
      plan_guru_r2r qs rank dims hrank hdims inp out kind flags None
  | GR_plan r : guru_kosherp rank dims hrank hdims = true ->
      mkapiplan_rdft qs flags (combine (map_r2r_kind rank kind) (mktensor_iodims rank dims 1 1))
        (mktensor_iodims hrank hdims 1 1) inp out r ->
      plan_guru_r2r qs rank dims hrank hdims inp out kind flags r.

(** X(plan_many_r2r), api/plan-many-r2r.c:26-50 *)
Inductive plan_many_r2r (qs : qsort_t) (rank : Z) (n : Z -> Z) (howmany : Z)
    (inp : loc) (inembed : option (Z -> Z)) (istride idist : Z)
    (out : loc) (onembed : option (Z -> Z)) (ostride odist : Z) (kind : Z -> Z) (flags : Z) : option rplan -> Prop :=
  | MR_null : many_kosherp rank n howmany = false ->
      plan_many_r2r qs rank n howmany inp inembed istride idist out onembed ostride odist kind flags None
  | MR_plan r : many_kosherp rank n howmany = true ->
      mkapiplan_rdft qs flags
        (combine (map_r2r_kind rank kind) (mktensor_rowmajor rank n (N0 inembed n) (N0 onembed n) istride ostride))
        (mktensor_1d howmany idist odist) inp out r ->
      plan_many_r2r qs rank n howmany inp inembed istride idist out onembed ostride odist kind flags r.

(** X(plan_r2r), api/plan-r2r.c:23-28 *)
Definition plan_r2r qs rank n inp out kind flags :=
  plan_many_r2r qs rank n 1 inp None 1 1 out None 1 1 kind flags.
(** X(plan_r2r_1d), X(plan_r2r_2d), X(plan_r2r_3d), api/plan-r2r-{1,2,3}d.c *)
Definition plan_r2r_1d qs n inp out kind := plan_r2r qs 1 (fun _ => n) inp out (fun _ => kind).
Definition plan_r2r_2d qs nx ny inp out kindx kindy :=
  plan_r2r qs 2 (fun i => if i =? 0 then nx else ny) inp out (fun i => if i =? 0 then kindx else kindy).
Definition plan_r2r_3d qs nx ny nz inp out kindx kindy kindz :=
  plan_r2r qs 3 (fun i => if i =? 0 then nx else if i =? 1 then ny else nz) inp out
    (fun i => if i =? 0 then kindx else if i =? 1 then kindy else kindz).

(** X(execute), api/execute.c:23-27, with X(rdft_solve), rdft/solve.c:25-30 *)
Definition execute_r (p : rplan) (nx : nat) (m : mem) : mem := rp_apply p nx (rp_I p) (rp_O p) m.
(** X(execute_r2r), api/execute-r2r.c:25-29 *)
Definition execute_r2r (p : rplan) (nx : nat) (inp out : loc) (m : mem) : mem := rp_apply p nx inp out m.
