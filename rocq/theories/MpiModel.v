(** * MpiModel: the MPI block distribution

    Transcription of mpi/block.c, mpi/choose-radix.c, of dtensor_canonical in
    mpi/dtensor.c, and of the local_size family in mpi/api.c.

    Simplifications: INT arithmetic is unbounded here except inside is_prime
    and isqrt (overflow of products of array sizes is not modelled); division
    and remainder by zero are undefined behaviour ([UB]); a failed CK() aborts
    the program and is modelled by [Diverge]; MPI_Comm_rank and MPI_Comm_size
    are the arguments [my_pe] and [n_pes]. *)
From Coq Require Import ZArith List Lia Bool.
From Verif Require Import Base PrimesModel.
Import ListNotations.
Open Scope Z_scope.

(** C division and remainder of INTs. *)
Definition cdiv (a b : Z) : out Z := if b =? 0 then UB else Ret (Z.quot a b).
Definition crem (a b : Z) : out Z := if b =? 0 then UB else Ret (Z.rem a b).

(** mpi/ifftw-mpi.h:60 [block_kind] *)
Inductive kind := IB | OB.

(** mpi/ifftw-mpi.h:61-64 [ddim]: a dimension n, with block sizes b[IB], b[OB].
    A dtensor of finite rank is a list of these. *)
Record ddim := mkdd { dn_ : Z; bI : Z; bO : Z }.
Definition bk (k : kind) (d : ddim) : Z := match k with IB => bI d | OB => bO d end.
Definition setb (k : kind) (b : Z) (d : ddim) : ddim :=
  match k with IB => mkdd (dn_ d) b (bO d) | OB => mkdd (dn_ d) (bI d) b end.

(** mpi/block.c:23-26 num_blocks *)
Definition num_blocks (n block : Z) : out Z := cdiv (n + block - 1) block.

(** mpi/block.c:39-42 default_block *)
Definition default_block (n n_pes : Z) : out Z := cdiv (n + n_pes - 1) n_pes.

(** mpi/block.c:46-50 block *)
Definition block (n block which_block : Z) : Z :=
  let d := n - which_block * block in
  if d <=? 0 then 0 else if block <? d then block else d.

(** mpi/block.c:52-55 num_blocks_kind *)
Definition num_blocks_kind (d : ddim) (k : kind) : out Z := num_blocks (dn_ d) (bk k d).

(** mpi/block.c:57-68 num_blocks_total (finite rank) *)
Fixpoint num_blocks_total_loop (sz : list ddim) (k : kind) (ntot : Z) : out Z :=
  match sz with
  | [] => Ret ntot
  | d :: t => nb <- num_blocks_kind d k ;; num_blocks_total_loop t k (ntot * nb)
  end.
Definition num_blocks_total (sz : list ddim) (k : kind) : out Z := num_blocks_total_loop sz k 1.

(** mpi/block.c:79-89 block_coords; the loop runs from the last dimension to
    the first. *)
Fixpoint block_coords_loop (rsz : list ddim) (k : kind) (which_pe : Z) (acc : list Z) : out (list Z) :=
  match rsz with
  | [] => Ret acc
  | d :: t => nb <- num_blocks_kind d k ;; c <- crem which_pe nb ;; w <- cdiv which_pe nb ;;
              block_coords_loop t k w (c :: acc)
  end.
Definition block_coords (sz : list ddim) (k : kind) (which_pe : Z) : out (list Z) :=
  block_coords_loop (rev sz) k which_pe [].

(** mpi/block.c:91-105 total_block *)
Fixpoint prod_blocks (sz : list ddim) (k : kind) (coords : list Z) : Z :=
  match sz, coords with
  | d :: t, c :: cs => block (dn_ d) (bk k d) c * prod_blocks t k cs
  | _, _ => 1
  end.
Definition total_block (sz : list ddim) (k : kind) (which_pe : Z) : out Z :=
  nt <- num_blocks_total sz k ;;
  if nt <=? which_pe then Ret 0
  else cs <- block_coords sz k which_pe ;; Ret (prod_blocks sz k cs).

(** mpi/block.c:108-115 is_local_after, on the dimensions from [dim] on *)
Fixpoint is_local_after (sz : list ddim) (k : kind) : out bool :=
  match sz with
  | [] => Ret true
  | d :: t => nb <- num_blocks (dn_ d) (bk k d) ;; if 1 <? nb then Ret false else is_local_after t k
  end.

(** mpi/block.c:124-132 is_block1d; [i] is the loop counter *)
Fixpoint is_block1d_loop (sz : list ddim) (k : kind) (i : Z) : out bool :=
  match sz with
  | [] => Ret false
  | d :: t => nb <- num_blocks_kind d k ;;
      if nb =? 1 then is_block1d_loop t k (i + 1)
      else if i <? 2 then is_local_after t k else Ret false
  end.
Definition is_block1d (sz : list ddim) (k : kind) : out bool := is_block1d_loop sz k 0.

(** mpi/dtensor.c:84-114 dtensor_canonical with compress = 0; [None] is a
    tensor of rank RNK_MINFTY.  The first loop (94-99) only looks for n <= 0. *)
Definition canonical_block (d : ddim) (k : kind) : out Z :=
  nb <- num_blocks (dn_ d) (bk k d) ;; Ret (if nb =? 1 then dn_ d else bk k d).
Fixpoint canonical_dims (sz : list ddim) : out (list ddim) :=
  match sz with
  | [] => Ret []
  | d :: t => bi <- canonical_block d IB ;; bo <- canonical_block d OB ;;
      r <- canonical_dims t ;; Ret (mkdd (dn_ d) bi bo :: r)
  end.
Definition dtensor_canonical (sz : list ddim) : out (option (list ddim)) :=
  if existsb (fun d => dn_ d <=? 0) sz then Ret None
  else r <- canonical_dims sz ;; Ret (Some r).

(** mpi/api.c:187-196, the loop over the dimensions for one block kind:
    [d0] is the dimension as given by the user (block 0 = unspecified), [d]
    the dimension being filled in; it stops as soon as np <= 1. *)
Fixpoint fill_blocks (n_pes : Z) (k : kind) (dims0 sz : list ddim) (nb np : Z) : out (list ddim) :=
  match dims0, sz with
  | d0 :: t0, d :: t =>
      if 1 <? np then
        if bk k d0 =? 0 then
          b <- default_block (dn_ d) np ;;
          nb1 <- num_blocks (dn_ d) b ;;
          let nb' := nb * nb1 in
          np' <- cdiv n_pes nb' ;;
          r <- fill_blocks n_pes k t0 t nb' np' ;; Ret (setb k b d :: r)
        else r <- fill_blocks n_pes k t0 t nb np ;; Ret (d :: r)
      else Ret (d :: t)
  | _, _ => Ret sz
  end.
Definition fill_kind (n_pes : Z) (k : kind) (dims0 sz : list ddim) : out (list ddim) :=
  nb <- num_blocks_total sz k ;;
  np <- cdiv n_pes nb ;;
  fill_blocks n_pes k dims0 sz nb np.

(** mpi/api.c:165-208 default_sz with rdft2 = 0; [M] bounds INT for is_prime *)
Definition default_sz (M : Z) (dims0 : list ddim) (n_pes : Z) : out (option (list ddim)) :=
  let sz := map (fun d => mkdd (dn_ d) (if bI d =? 0 then dn_ d else bI d)
                                       (if bO d =? 0 then dn_ d else bO d)) dims0 in
  sz <- fill_kind n_pes IB dims0 sz ;;
  sz <- fill_kind n_pes OB dims0 sz ;;
  sz <- match sz with
        | [d] => p <- is_prime M (dn_ d) ;; Ret (if p then [mkdd (dn_ d) (dn_ d) (dn_ d)] else [d])
        | _ => Ret sz
        end ;;
  dtensor_canonical sz.

(** mpi/api.c:223-239 local_size: the arrays (local_n, local_start) *)
Fixpoint local_blocks (sz : list ddim) (k : kind) (coords : list Z) : list Z * list Z :=
  match sz, coords with
  | d :: t, c :: cs => let '(ln, ls) := local_blocks t k cs in
      (block (dn_ d) (bk k d) c :: ln, c * bk k d :: ls)
  | _, _ => ([], [])
  end.
Definition local_size (my_pe : Z) (sz : list ddim) (k : kind) : out (list Z * list Z) :=
  nt <- num_blocks_total sz k ;;
  if nt <=? my_pe then Ret (map (fun _ => 0) sz, map (fun _ => 0) sz)
  else cs <- block_coords sz k my_pe ;; Ret (local_blocks sz k cs).

(** mpi/api.c:240-246 prod *)
Definition prod (l : list Z) : Z := fold_left Z.mul l 1.

(** mpi/choose-radix.c:50-83 choose_radix.  The [for] loop over r (67-68) is
    [radix_loop]; [fuel] exceeds n - isqrt(n), and the theorems establish that
    the loop ends.  FFT_SIGN is -1 (FFTW_FORWARD).  Result: r and the block
    sizes rblock, mblock (both kinds get the same), or [None] for 0. *)
Fixpoint radix_loop (fuel : nat) (n r : Z) : out Z :=
  match fuel with
  | O => Diverge
  | S f => x <- crem n r ;; if x =? 0 then Ret r else radix_loop f n (r + 1)
  end.
Definition choose_radix_mpi (M n n_pes sign : Z) : out (option (Z * Z * Z)) :=
  x <- crem n n_pes ;;
  q <- cdiv n n_pes ;;
  r <- (if (x =? 0) && (n_pes <=? q) then Ret q
        else s <- isqrt M n ;; radix_loop (Z.to_nat n) n s) ;;
  if (r =? 1) || (r =? n) then Ret None
  else
    rm <- (if negb (sign =? -1) then r' <- cdiv n r ;; Ret (r', r)
           else m <- cdiv n r ;; Ret (r, m)) ;;
    let '(r, m) := rm in
    rb <- default_block r n_pes ;;
    mb <- default_block m n_pes ;;
    Ret (Some (r, rb, mb)).

(** mpi/fftw3-mpi.h:212-213, mpi/api.c:30: FFTW_MPI_SCRAMBLED_IN = 1<<27, _OUT = 1<<28,
    MPI_FLAGS(f) = f >> 27 *)
Definition SCRAMBLED_IN : Z := 2 ^ 27.
Definition SCRAMBLED_OUT : Z := 2 ^ 28.
Definition MPI_FLAGS (f : Z) : Z := Z.shiftr f 27.
Definition has (flags bit : Z) : bool := negb (Z.land flags bit =? 0).

(** mpi/api.c:282-292, the extra space for transposed intermediate data: the
    first i in {0,1} that is local in both distributions *)
Definition extra_transposed (n_pes my_pe : Z) (d0 d1 : ddim) (rest : list ddim) (N : Z) : out Z :=
  let try (di dj : ddim) (mk : ddim -> ddim -> list ddim) (otherwise : out Z) : out Z :=
    bi <- num_blocks (dn_ di) (bI di) ;;
    bo <- (if bi =? 1 then num_blocks (dn_ di) (bO di) else Ret 0) ;;
    if (bi =? 1) && (bo =? 1) then
      b <- default_block (dn_ di) n_pes ;;
      l <- local_size my_pe (mk (setb IB b di) (setb IB (dn_ dj) dj)) IB ;;
      Ret (Z.max N (prod (fst l)))
    else otherwise in
  try d0 d1 (fun a b => a :: b :: rest) (try d1 d0 (fun a b => b :: a :: rest) (Ret N)).

(** mpi/api.c:295-299 and 302-306: space for dft-rank-geq2 *)
Definition extra_geq2 (n_pes my_pe howmany n Nafter N : Z) : out Z :=
  b <- default_block Nafter n_pes ;;
  x <- cdiv (n * block Nafter b my_pe + howmany - 1) howmany ;;
  Ret (Z.max N x).

(** mpi/api.c:248-352 local_size_guru: ((local_n_in, local_start_in),
    (local_n_out, local_start_out)) and the returned size.  A tensor of rank
    RNK_MINFTY (some n <= 0) makes it run off its arrays. *)
Definition local_size_guru (M : Z) (dims0 : list ddim) (howmany n_pes my_pe sign flags : Z)
  : out (Z * (list Z * list Z) * (list Z * list Z)) :=
  match dims0 with
  | [] => Ret (howmany, ([], []), ([], []))
  | _ =>
    o <- default_sz M dims0 n_pes ;;
    match o with
    | None => UB
    | Some sz =>
      szN <- match sz with
             | [d] =>
                 if (n_pes <=? howmany) && (MPI_FLAGS flags =? 0) then
                   b <- default_block howmany n_pes ;;
                   l <- local_size my_pe [mkdd (dn_ d) (dn_ d) (bO d); mkdd howmany b howmany] IB ;;
                   x <- cdiv (prod (fst l) + howmany - 1) howmany ;;
                   Ret (sz, Z.max 1 x)
                 else if negb ((sign =? -1) || (sign =? 1)) then Diverge
                 else
                   c <- choose_radix_mpi M (dn_ d) n_pes sign ;;
                   match c with
                   | None => Ret (sz, 1)
                   | Some (r, rb, mb) =>
                       m <- cdiv (dn_ d) r ;;
                       let '(bi, N) := if has flags SCRAMBLED_IN then (rb * m, 1) else (r * mb, Z.max 1 (rb * m)) in
                       let '(bo, N) := if has flags SCRAMBLED_OUT then (r * mb, N) else (rb * m, Z.max N (r * mb)) in
                       Ret ([mkdd (dn_ d) bi bo], N)
                   end
             | d0 :: d1 :: rest =>
                 p <- is_block1d sz IB ;;
                 q <- (if p then is_block1d sz OB else Ret false) ;;
                 if p && q then
                   N <- extra_transposed n_pes my_pe d0 d1 rest 1 ;;
                   N <- extra_geq2 n_pes my_pe howmany (dn_ d0)
                          (fold_left Z.mul (map dn_ (d1 :: rest)) howmany) N ;;
                   N <- extra_geq2 n_pes my_pe howmany (dn_ d1)
                          (fold_left Z.mul (map dn_ rest) (howmany * dn_ d0)) N ;;
                   Ret (sz, N)
                 else Ret (sz, 1)
             | [] => Ret (sz, 1)
             end ;;
      let '(sz, N) := szN in
      i <- local_size my_pe sz IB ;;
      u <- local_size my_pe sz OB ;;
      let N := Z.max N (Z.max (prod (fst i)) (prod (fst u))) in
      Ret (N * howmany, i, u)
    end
  end.

(** mpi/api.c:354-409 local_size_many_transposed: (size, local_nx,
    local_x_start, local_ny, local_y_start).  [dims] is simple_dims (211-219)
    with the edits of lines 378-388. *)
Definition many_dims (n : list Z) (xblock yblock : Z) : list ddim :=
  match n with
  | [] => []
  | [n0] => [mkdd n0 xblock xblock]
  | n0 :: n1 :: t =>
      (if yblock <? n1 then [mkdd n0 xblock n0; mkdd n1 n1 yblock] else [mkdd n0 xblock xblock; mkdd n1 n1 n1])
      ++ map (fun x => mkdd x x x) t
  end.
Definition local_size_many_transposed (M : Z) (n : list Z) (howmany xblock yblock n_pes my_pe : Z)
  : out (Z * (Z * Z) * (Z * Z)) :=
  match n with
  | [] => Ret (howmany, (1, 0), (1, 0))
  | _ =>
    r <- local_size_guru M (many_dims n xblock yblock) howmany n_pes my_pe 0 0 ;;
    match r with
    | (N, (nx :: _, xs :: _), (_, _)) =>
        match r, n with
        | (_, _, (_ :: ny :: _, _ :: ys :: _)), _ :: _ :: _ => Ret (N, (nx, xs), (ny, ys))
        | _, _ => Ret (N, (nx, xs), (nx, xs))
        end
    | _ => UB
    end
  end.

(** mpi/api.c:408-421 local_size_many: yblock = n[1] (or 0 for rank 1) *)
Definition local_size_many (M : Z) (n : list Z) (howmany xblock n_pes my_pe : Z) : out (Z * (Z * Z)) :=
  let yblock := match n with _ :: n1 :: _ => n1 | _ => 0 end in
  r <- local_size_many_transposed M n howmany xblock yblock n_pes my_pe ;;
  Ret (fst r).

(** mpi/api.c:424-437 local_size_transposed and 439-446 local_size *)
Definition local_size_transposed (M : Z) (n : list Z) (n_pes my_pe : Z) : out (Z * (Z * Z) * (Z * Z)) :=
  local_size_many_transposed M n 1 0 0 n_pes my_pe.
Definition local_size_api (M : Z) (n : list Z) (n_pes my_pe : Z) : out (Z * (Z * Z)) :=
  local_size_many M n 1 0 n_pes my_pe.

(** mpi/api.c:449-460 local_size_many_1d: one dimension, default blocks *)
Definition local_size_many_1d (M : Z) (nx howmany n_pes my_pe sign flags : Z)
  : out (Z * (list Z * list Z) * (list Z * list Z)) :=
  local_size_guru M [mkdd nx 0 0] howmany n_pes my_pe sign flags.
