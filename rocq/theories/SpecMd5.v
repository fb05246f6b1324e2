(** * MD5 as defined by RFC 1321, on lists of bytes.

    Words are integers in [0, 2^32).  The constants T[i] are those printed in
    the RFC's reference implementation. *)
From Coq Require Import ZArith List.
Import ListNotations.
Open Scope Z_scope.

Definition W : Z := 2 ^ 32.
Definition not32 (x : Z) : Z := W - 1 - x.
(** section 3.4: auxiliary functions *)
Definition fF (x y z : Z) : Z := Z.lor (Z.land x y) (Z.land (not32 x) z).
Definition fG (x y z : Z) : Z := Z.lor (Z.land x z) (Z.land y (not32 z)).
Definition fH (x y z : Z) : Z := Z.lxor x (Z.lxor y z).
Definition fI (x y z : Z) : Z := Z.lxor y (Z.lor x (not32 z)).
(** rotate left *)
Definition rotl (x s : Z) : Z := x * 2 ^ s mod W + x / 2 ^ (32 - s).

Definition Ttab : list Z :=
 [ 0xd76aa478; 0xe8c7b756; 0x242070db; 0xc1bdceee; 0xf57c0faf; 0x4787c62a; 0xa8304613; 0xfd469501;
   0x698098d8; 0x8b44f7af; 0xffff5bb1; 0x895cd7be; 0x6b901122; 0xfd987193; 0xa679438e; 0x49b40821;
   0xf61e2562; 0xc040b340; 0x265e5a51; 0xe9b6c7aa; 0xd62f105d; 0x02441453; 0xd8a1e681; 0xe7d3fbc8;
   0x21e1cde6; 0xc33707d6; 0xf4d50d87; 0x455a14ed; 0xa9e3e905; 0xfcefa3f8; 0x676f02d9; 0x8d2a4c8a;
   0xfffa3942; 0x8771f681; 0x6d9d6122; 0xfde5380c; 0xa4beea44; 0x4bdecfa9; 0xf6bb4b60; 0xbebfbc70;
   0x289b7ec6; 0xeaa127fa; 0xd4ef3085; 0x04881d05; 0xd9d4d039; 0xe6db99e5; 0x1fa27cf8; 0xc4ac5665;
   0xf4292244; 0x432aff97; 0xab9423a7; 0xfc93a039; 0x655b59c3; 0x8f0ccc92; 0xffeff47d; 0x85845dd1;
   0x6fa87e4f; 0xfe2ce6e0; 0xa3014314; 0x4e0811a1; 0xf7537e82; 0xbd3af235; 0x2ad7d2bb; 0xeb86d391 ].
(** operation number i (0..63): the word of the block it uses and its rotation *)
Definition kidx (i : Z) : Z :=
  if i <? 16 then i else if i <? 32 then (1 + 5 * i) mod 16 else if i <? 48 then (5 + 3 * i) mod 16 else (7 * i) mod 16.
Definition sidx (i : Z) : Z :=
  nth (Z.to_nat (i mod 4)) (nth (Z.to_nat (i / 16)) [[7; 12; 17; 22]; [5; 9; 14; 20]; [4; 11; 16; 23]; [6; 10; 15; 21]] []) 0.
Definition rnd (i : Z) : Z -> Z -> Z -> Z :=
  if i <? 16 then fF else if i <? 32 then fG else if i <? 48 then fH else fI.

(** the four registers A, B, C, D are numbered 0, 1, 2, 3; operation i works on
    [ABCD], [DABC], [CDAB], [BCDA], in turn:
    a = b + ((a + f(b,c,d) + X[k] + T[i]) <<< s) *)
Definition regs := Z -> Z.
Definition op (X : Z -> Z) (r : regs) (i : Z) : regs :=
  let a := (- i) mod 4 in let b := (1 - i) mod 4 in let c := (2 - i) mod 4 in let d := (3 - i) mod 4 in
  let v := (r b + rotl ((r a + rnd i (r b) (r c) (r d) + X (kidx i) + nth (Z.to_nat i) Ttab 0) mod W) (sidx i)) mod W in
  fun j => if j =? a then v else r j.
Definition ops64 : list Z := map Z.of_nat (seq 0 64).
(** word number i of a block, low-order byte first *)
Definition word (blk : list Z) (i : Z) : Z :=
  let b k := nth (Z.to_nat (4 * i + k)) blk 0 in b 0 + 2 ^ 8 * b 1 + 2 ^ 16 * b 2 + 2 ^ 24 * b 3.
Definition compress (r : regs) (blk : list Z) : regs :=
  let r' := fold_left (op (word blk)) ops64 r in fun j => (r j + r' j) mod W.
Definition init : regs := fun j => nth (Z.to_nat j) [0x67452301; 0xefcdab89; 0x98badcfe; 0x10325476] 0.

(** sections 3.1 and 3.2: padding and length *)
Definition le64 (n : Z) : list Z := map (fun k => n / 2 ^ (8 * Z.of_nat k) mod 256) (seq 0 8).
Definition pad (m : list Z) : list Z :=
  let n := Z.of_nat (length m) in m ++ [128] ++ repeat 0 (Z.to_nat ((55 - n) mod 64)) ++ le64 (8 * n mod 2 ^ 64).
Fixpoint blocks (k : nat) (m : list Z) (r : regs) : regs :=
  match k with O => r | S k' => blocks k' (skipn 64 m) (compress r (firstn 64 m)) end.
Definition MD5 (m : list Z) : regs := let p := pad m in blocks (length p / 64) p init.

(** test vectors of RFC 1321, appendix A.5 (words low-order byte first):
    MD5 ("") = d41d8cd98f00b204e9800998ecf8427e,
    MD5 ("abc") = 900150983cd24fb0d6963f7d28e17f72,
    MD5 ("abcdefghijklmnopqrstuvwxyz") = c3fcd3d76192e4007dfb496cca67e13b *)
Example MD5_empty : map (MD5 []) [0; 1; 2; 3] = [0xd98c1dd4; 0x04b2008f; 0x980980e9; 0x7e42f8ec].
Proof. vm_compute. reflexivity. Qed.
Example MD5_abc : map (MD5 [97; 98; 99]) [0; 1; 2; 3] = [0x98500190; 0xb04fd23c; 0x7d3f96d6; 0x727fe128].
Proof. vm_compute. reflexivity. Qed.
Example MD5_alphabet : map (MD5 (map (fun i => 97 + Z.of_nat i) (seq 0 26))) [0; 1; 2; 3] = [0xd7d3fcc3; 0x00e49261; 0x6c49fb7d; 0x3be167ca].
Proof. vm_compute. reflexivity. Qed.
