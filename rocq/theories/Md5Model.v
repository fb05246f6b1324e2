(** * The MD5 implementation (kernel/md5.c, kernel/md5-1.c).

    [unsigned] and [md5uint] are 32-bit words (kernel/ifftw.h:386-390): every
    operation is reduced modulo 2^32. *)
From Coq Require Import ZArith List Lia Bool.
From Verif Require Import Base.
Import ListNotations.
Open Scope Z_scope.

Definition M32 (z : Z) : Z := z mod 2 ^ 32.
(** sintab, kernel/md5.c:32-49 *)
Definition sintab : list Z :=
 [ 0xd76aa478; 0xe8c7b756; 0x242070db; 0xc1bdceee;
   0xf57c0faf; 0x4787c62a; 0xa8304613; 0xfd469501;
   0x698098d8; 0x8b44f7af; 0xffff5bb1; 0x895cd7be;
   0x6b901122; 0xfd987193; 0xa679438e; 0x49b40821;
   0xf61e2562; 0xc040b340; 0x265e5a51; 0xe9b6c7aa;
   0xd62f105d; 0x02441453; 0xd8a1e681; 0xe7d3fbc8;
   0x21e1cde6; 0xc33707d6; 0xf4d50d87; 0x455a14ed;
   0xa9e3e905; 0xfcefa3f8; 0x676f02d9; 0x8d2a4c8a;
   0xfffa3942; 0x8771f681; 0x6d9d6122; 0xfde5380c;
   0xa4beea44; 0x4bdecfa9; 0xf6bb4b60; 0xbebfbc70;
   0x289b7ec6; 0xeaa127fa; 0xd4ef3085; 0x04881d05;
   0xd9d4d039; 0xe6db99e5; 0x1fa27cf8; 0xc4ac5665;
   0xf4292244; 0x432aff97; 0xab9423a7; 0xfc93a039;
   0x655b59c3; 0x8f0ccc92; 0xffeff47d; 0x85845dd1;
   0x6fa87e4f; 0xfe2ce6e0; 0xa3014314; 0x4e0811a1;
   0xf7537e82; 0xbd3af235; 0x2ad7d2bb; 0xeb86d391 ].
(** roundtab, kernel/md5.c:52-72 *)
Definition roundtab : list (Z * Z) :=
 [ ( 0,  7); ( 1, 12); ( 2, 17); ( 3, 22);
   ( 4,  7); ( 5, 12); ( 6, 17); ( 7, 22);
   ( 8,  7); ( 9, 12); (10, 17); (11, 22);
   (12,  7); (13, 12); (14, 17); (15, 22);
   ( 1,  5); ( 6,  9); (11, 14); ( 0, 20);
   ( 5,  5); (10,  9); (15, 14); ( 4, 20);
   ( 9,  5); (14,  9); ( 3, 14); ( 8, 20);
   (13,  5); ( 2,  9); ( 7, 14); (12, 20);
   ( 5,  4); ( 8, 11); (11, 16); (14, 23);
   ( 1,  4); ( 4, 11); ( 7, 16); (10, 23);
   (13,  4); ( 0, 11); ( 3, 16); ( 6, 23);
   ( 9,  4); (12, 11); (15, 16); ( 2, 23);
   ( 0,  6); ( 7, 10); (14, 15); ( 5, 21);
   (12,  6); ( 3, 10); (10, 15); ( 1, 21);
   ( 8,  6); (15, 10); ( 6, 15); (13, 21);
   ( 4,  6); (11, 10); ( 2, 15); ( 9, 21) ].

(** the macro rol, kernel/md5.c:74 *)
Definition rol (a s : Z) : Z := Z.lor (M32 (Z.shiftl a s)) (Z.shiftr a (32 - s)).
Definition cnot (a : Z) : Z := M32 (Z.lnot a).
(** doblock, kernel/md5.c:76-107 *)
Definition x_of (data : Z -> Z) (i : Z) : Z :=
  let p k := data (4 * i + k) in
  Z.lor (Z.lor (Z.lor (p 0) (M32 (Z.shiftl (p 1) 8))) (M32 (Z.shiftl (p 2) 16))) (M32 (Z.shiftl (p 3) 24)).
Definition state4 := (Z * Z * Z * Z)%type.
Definition round (x : Z -> Z) (st : state4) (i : Z) : state4 :=
  let '(a, b, c, d) := st in
  let '(k, s) := nth (Z.to_nat i) roundtab (0, 0) in
  let a1 := M32 (a + (if Z.shiftr i 4 =? 0 then Z.lor (Z.land b c) (Z.land (cnot b) d)
                      else if Z.shiftr i 4 =? 1 then Z.lor (Z.land b d) (Z.land c (cnot d))
                      else if Z.shiftr i 4 =? 2 then Z.lxor (Z.lxor b c) d
                      else Z.lxor c (Z.lor b (cnot d)))) in
  let a2 := M32 (a1 + nth (Z.to_nat i) sintab 0) in
  let a3 := M32 (a2 + x k) in
  let a4 := Z.land a3 0xffffffff in
  let t := M32 (b + rol a4 s) in
  (d, t, b, c).
Fixpoint rounds (cnt : nat) (x : Z -> Z) (st : state4) (i : Z) : state4 :=
  match cnt with O => st | S cnt' => rounds cnt' x (round x st i) (i + 1) end.
Definition doblock (state : state4) (data : Z -> Z) : state4 :=
  let '(sa, sb, sc, sd) := state in
  let '(a, b, c, d) := rounds 64 (x_of data) state 0 in
  (Z.land (M32 (sa + a)) 0xffffffff, Z.land (M32 (sb + b)) 0xffffffff, Z.land (M32 (sc + c)) 0xffffffff, Z.land (M32 (sd + d)) 0xffffffff).

(** md5, kernel/ifftw.h:394-401: state, 64-byte buffer, length *)
Record md5 := mkmd5 { m_s : state4; m_c : Z -> Z; m_l : Z }.
(** md5begin, kernel/md5.c:110-117; the buffer is left uninitialised *)
Definition md5begin (junk : Z -> Z) : md5 := mkmd5 (0x67452301, 0xefcdab89, 0x98badcfe, 0x10325476) junk 0.
(** md5putc, kernel/md5.c:119-123 *)
Definition md5putc (p : md5) (c : Z) : md5 :=
  let buf := fun j => if j =? m_l p mod 64 then c else m_c p j in
  let l' := M32 (m_l p + 1) in
  mkmd5 (if l' mod 64 =? 0 then doblock (m_s p) buf else m_s p) buf l'.
(** md5end, kernel/md5.c:125-142 *)
Fixpoint pad_loop (fuel : nat) (p : md5) : out md5 :=
  match fuel with
  | O => Diverge
  | S fuel' => if m_l p mod 64 =? 56 then Ret p else pad_loop fuel' (md5putc p 0)
  end.
Fixpoint len_loop (cnt : nat) (p : md5) (l : Z) : md5 :=
  match cnt with O => p | S cnt' => len_loop cnt' (md5putc p (Z.land l 0xFF)) (Z.shiftr l 8) end.
Definition md5end (p : md5) : out md5 :=
  let l := M32 (8 * m_l p) in
  p1 <- pad_loop 65 (md5putc p 0x80);;
  Ret (len_loop 8 p1 l).
(** md5putb, md5puts, md5int, md5INT, md5unsigned, kernel/md5-1.c:24-53; an
    int (unsigned, INT) is 4 (4, 8) bytes, least significant first *)
Definition md5putb (p : md5) (d : list Z) : md5 := fold_left md5putc d p.
Definition md5puts (p : md5) (s : list Z) : md5 := md5putb p (map (fun c => Z.land c 0xFF) (s ++ [0])).
Definition le_bytes (n : nat) (z : Z) : list Z := map (fun k => Z.shiftr z (8 * Z.of_nat k) mod 256) (seq 0 n).
Definition md5int (p : md5) (i : Z) : md5 := md5putb p (le_bytes 4 i).
Definition md5INT (p : md5) (i : Z) : md5 := md5putb p (le_bytes 8 i).
Definition md5unsigned (p : md5) (i : Z) : md5 := md5putb p (le_bytes 4 i).
