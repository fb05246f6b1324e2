(** * The system's allocator, as specified by the C standard (no model of FFTW code)

    Addresses are byte addresses of a 64-bit machine.  The heap consists of the
    blocks obtained from malloc and not yet freed (address and size), and of the
    contents of memory. *)
From Coq Require Import ZArith List Bool Permutation.
From Verif Require Import Base.
Import ListNotations.
Open Scope Z_scope.

Definition W64 : Z := 2 ^ 64.
Record heap := mkheap { h_blocks : list (Z * Z); h_bytes : Z -> Z }.

Definition inside (b : Z * Z) (a : Z) : Prop := fst b <= a < fst b + snd b.
Definition disjoint (b c : Z * Z) : Prop := forall a, ~ (inside b a /\ inside c a).

(** malloc(sz) returns p0: a null pointer, or the address of a new block, aligned
    for pointers, that overlaps no other; the contents of the block are
    unspecified. *)
Definition sys_malloc (h : heap) (sz p0 : Z) (h' : heap) : Prop :=
  (p0 = 0 /\ h' = h) \/
  (0 < p0 /\ p0 mod 8 = 0 /\ p0 + sz < W64 /\ Forall (disjoint (p0, sz)) (h_blocks h) /\
   h_blocks h' = (p0, sz) :: h_blocks h /\ forall a, ~ inside (p0, sz) a -> h_bytes h' a = h_bytes h a).

(** free(p): p must be null or the address of a block. *)
Fixpoint remove_block (p : Z) (l : list (Z * Z)) : option (list (Z * Z)) :=
  match l with
  | [] => None
  | b :: l => if fst b =? p then Some l else match remove_block p l with Some l => Some (b :: l) | None => None end
  end.
Definition sys_free (p : Z) (h : heap) : out heap :=
  if p =? 0 then Ret h else
  match remove_block p (h_blocks h) with Some l => Ret (mkheap l (h_bytes h)) | None => UB end.

(** A store or load of one byte: the address must be in a block. *)
Definition in_heap (h : heap) (a : Z) : bool := existsb (fun b => (fst b <=? a) && (a <? fst b + snd b)) (h_blocks h).
Definition wr_byte (h : heap) (a v : Z) : out heap :=
  if in_heap h a then Ret (mkheap (h_blocks h) (fun x => if x =? a then v else h_bytes h x)) else UB.
Definition rd_byte (h : heap) (a : Z) : out Z := if in_heap h a then Ret (h_bytes h a) else UB.

(** A store or load of a pointer (8 bytes, little endian). *)
Fixpoint wr_bytes (k : nat) (h : heap) (a v : Z) : out heap :=
  match k with O => Ret h | S k => h <- wr_byte h a (v mod 256) ;; wr_bytes k h (a + 1) (v / 256) end.
Fixpoint rd_bytes (k : nat) (h : heap) (a : Z) : out Z :=
  match k with O => Ret 0 | S k => b <- rd_byte h a ;; v <- rd_bytes k h (a + 1) ;; Ret (b + 256 * v) end.
Definition wr_ptr := wr_bytes 8.
Definition rd_ptr := rd_bytes 8.
