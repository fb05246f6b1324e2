(** * Model of kernel/kalloc.c (WITH_OUR_MALLOC), kernel/alloc.c, api/malloc.c and
    of the allocation of buffers in kernel/ifftw.h; 64-bit size_t and uintptr_t. *)
From Coq Require Import ZArith List Bool.
From Verif Require Import Base SpecAlloc.
Import ListNotations.
Open Scope Z_scope.

(** kernel/kalloc.c:61 and kernel/ifftw.h:191-192:
    x & (~((uintptr_t) (MIN_ALIGNMENT - 1))), unsigned 64 bit *)
Definition mask_align (A x : Z) : Z := Z.land (x mod W64) (W64 - 1 - (A - 1)).

(** kernel/kalloc.c:57-64 our_malloc.  The first argument of malloc, n + MIN_ALIGNMENT,
    is computed modulo 2^64. *)
Definition our_malloc_size (A n : Z) : Z := (n + A) mod W64.
(** [p0], [h]: what malloc returned, and the heap after it *)
Definition our_malloc (A p0 : Z) (h : heap) : out (Z * heap) :=
  if p0 =? 0 then Ret (0, h) else
  let p := mask_align A (p0 + A) in
  h <- wr_ptr h (p - 8) p0 ;;            (* the word before p is p0 *)
  Ret (p, h).

(** kernel/kalloc.c:65-68 our_free *)
Definition our_free (p : Z) (h : heap) : out heap :=
  if p =? 0 then Ret h else
  p0 <- rd_ptr h (p - 8) ;;
  sys_free p0 h.

(** kernel/alloc.c:23-37 malloc_plain: the size passed on to kernel_malloc; a null
    result aborts (CK), modelled by Diverge. *)
Definition malloc_plain_size (n : Z) : Z := if n =? 0 then 1 else n.
Definition malloc_plain (A p0 : Z) (h : heap) : out (Z * heap) :=
  r <- our_malloc A p0 h ;;
  if fst r =? 0 then Diverge else Ret r.

(** api/malloc.c:43-51 alloc_real, alloc_complex: the size passed on, modulo 2^64
    (R = double) *)
Definition alloc_real_size (n : Z) : Z := (8 * n) mod W64.
Definition alloc_complex_size (n : Z) : Z := (16 * n) mod W64.

(** kernel/ifftw.h:188-193 STACK_MALLOC: [p0] is what alloca returned for
    n + MIN_ALIGNMENT bytes *)
Definition stack_malloc (A p0 : Z) : Z := mask_align A (p0 + (A - 1)).

(** kernel/align.c:33-42 ialignment_of, with SIMD *)
Definition ialignment_of (p : Z) : Z := p mod 16.

(** ** A process that uses the allocator

    The pointers the program has obtained and not freed ([w_live], with the sizes it
    asked for), and the blocks that it has obtained from the system itself
    ([w_other]). *)
Record world := mkworld { w_heap : heap; w_live : list (Z * Z); w_other : list (Z * Z) }.
Definition set_byte (h : heap) (a v : Z) : heap := mkheap (h_blocks h) (fun x => if x =? a then v else h_bytes h x).

(** One step: fftw_malloc, fftw_free of a pointer obtained from it, malloc, free, and
    the program writing into memory that belongs to it. *)
Inductive wstep (A : Z) : world -> world -> Prop :=
| ws_malloc h l o n p0 h0 p h' : 0 <= n -> n + A < W64 ->
    sys_malloc h (our_malloc_size A n) p0 h0 -> our_malloc A p0 h0 = Ret (p, h') ->
    wstep A (mkworld h l o) (mkworld h' (if p =? 0 then l else (p, n) :: l) o)
| ws_free h l1 l2 o p n h' : our_free p h = Ret h' ->
    wstep A (mkworld h (l1 ++ (p, n) :: l2) o) (mkworld h' (l1 ++ l2) o)
| ws_write h l o p n a v : In (p, n) l -> p <= a < p + n ->
    wstep A (mkworld h l o) (mkworld (set_byte h a v) l o)
| ws_other_malloc h l o sz p0 h' : 0 < sz -> sys_malloc h sz p0 h' ->
    wstep A (mkworld h l o) (mkworld h' l (if p0 =? 0 then o else (p0, sz) :: o))
| ws_other_free h l o1 o2 p sz h' : sys_free p h = Ret h' ->
    wstep A (mkworld h l (o1 ++ (p, sz) :: o2)) (mkworld h' l (o1 ++ o2))
| ws_other_write h l o p sz a v : In (p, sz) o -> p <= a < p + sz ->
    wstep A (mkworld h l o) (mkworld (set_byte h a v) l o).

Inductive reachable (A : Z) : world -> Prop :=
| re_init h : h_blocks h = [] -> reachable A (mkworld h [] [])
| re_step w w' : reachable A w -> wstep A w w' -> reachable A w'.
