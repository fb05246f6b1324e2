(** * Wisdom text: kernel/print.c, kernel/scan.c and the readers and writers of
    api/ that they are used with.

    Characters are integers; a C [char] is signed (-128..127), and so are the
    values getchr returns, EOF being -1.  (A byte 0xff of the input is therefore
    indistinguishable from the end of the input, in the code as in the model.)
    [long] and INT have 64 bits, [int] and [unsigned] 32.  Signed overflow is
    the outcome [UB]. *)
From Coq Require Import ZArith List Lia Bool Ascii String.
From Verif Require Import Base.
Import ListNotations.
Open Scope Z_scope.

(** a C string literal *)
Definition cs (s : string) : list Z := map (fun a => Z.of_nat (nat_of_ascii a)) (list_ascii_of_string s).
Definition EOF : Z := -1.
Definition LONG_MAX : Z := 2 ^ 63 - 1.
Definition ckl (z : Z) : out Z := if (- LONG_MAX - 1 <=? z) && (z <=? LONG_MAX) then Ret z else UB.
(** conversion of a long to int (modulo 2^32, as every compiler of interest does) *)
Definition to_int (z : Z) : Z := (z + 2 ^ 31) mod 2 ^ 32 - 2 ^ 31.
Definition to_unsigned (z : Z) : Z := z mod 2 ^ 32.

(** kernel/scan.c:38-45 *)
Definition isspace (x : Z) : bool := (0 <=? x) && (x <=? 32).
Definition isdigit (x : Z) : bool := (48 <=? x) && (x <=? 57).
Definition isupper (x : Z) : bool := (65 <=? x) && (x <=? 90).
Definition islower (x : Z) : bool := (97 <=? x) && (x <=? 122).

(** ** Scanning *)
(** struct scanner_s with its one-character pushback, kernel/ifftw.h:541-546;
    the source is the list of the values getchr will return, then EOF forever *)
Record scanner := mksc { ungotc : Z; source : list Z }.
(** mygetc, myungetc, kernel/scan.c:48-63 *)
Definition mygetc (sc : scanner) : Z * scanner :=
  if negb (ungotc sc =? EOF) then (ungotc sc, mksc EOF (source sc))
  else match source sc with [] => (EOF, mksc EOF []) | c :: l => (c, mksc EOF l) end.
Definition myungetc (sc : scanner) (c : Z) : scanner := mksc c (source sc).
(** mkscanner, kernel/scan.c:191-199 *)
Definition mkscanner (l : list Z) : scanner := mksc EOF l.

(** The loops below work on the list of the characters still to be delivered;
    [getc]/[ungetc] are mygetc/myungetc on that list ([pending_*] show this: an
    ungetc always follows a getc, and pushing back EOF pushes back nothing). *)
Definition pending (sc : scanner) : list Z := if ungotc sc =? EOF then source sc else ungotc sc :: source sc.
Definition getc (l : list Z) : Z * list Z := match l with [] => (EOF, []) | c :: l' => (c, l') end.
Definition ungetc (c : Z) (l : list Z) : list Z := if c =? EOF then l else c :: l.
Lemma pending_mk l : pending (mkscanner l) = l.
Proof. reflexivity. Qed.
Lemma pending_getc sc : let '(c, sc') := mygetc sc in getc (pending sc) = (c, pending sc') /\ ungotc sc' = EOF.
Proof.
  unfold mygetc, pending. destruct sc as [u l]; cbn [ungotc source]. destruct (Z.eqb_spec u EOF) as [->|N]; cbn [negb].
  - destruct l; cbn; auto.
  - cbn. auto.
Qed.
Lemma pending_ungetc sc c : ungotc sc = EOF -> pending (myungetc sc c) = ungetc c (pending sc).
Proof. intros H. unfold myungetc, pending, ungetc. rewrite H. cbn [ungotc source]. change (EOF =? EOF) with true. destruct (c =? EOF); reflexivity. Qed.

(** eat_blanks, kernel/scan.c:67-73 *)
Fixpoint eat_blanks (l : list Z) : list Z :=
  match l with
  | [] => ungetc EOF []
  | c :: l' => if isspace c then eat_blanks l' else ungetc c l'
  end.
(** mygets, kernel/scan.c:75-86: [room] characters can still be stored; returns
    the stored string (without its final 0) *)
Fixpoint mygets (l : list Z) (room : nat) : list Z * list Z :=
  match l with
  | [] => ([], [])
  | ch :: l' =>
      if negb (ch =? EOF) && negb (isspace ch) && negb (ch =? 41) && negb (ch =? 40) then
        match room with
        | O => ([], ungetc ch l')
        | S room' => let '(s, r) := mygets l' room' in ((ch + 128) mod 256 - 128 :: s, r)
        end
      else ([], ungetc ch l')
  end.
(** getlong, kernel/scan.c:88-114: value, whether there was a digit, rest *)
Definition digit_of (ch : Z) : option Z :=
  if isdigit ch then Some (ch - 48) else if isupper ch then Some (ch - (65 - 10)) else if islower ch then Some (ch - (97 - 10)) else None.
Fixpoint digits_loop (l : list Z) (base x : Z) (count : bool) : out (Z * bool * list Z) :=
  match l with
  | [] => Ret (x, count, [])
  | ch :: l' =>
      match digit_of ch with
      | Some d => x1 <- ckl (x * base);; x2 <- ckl (x1 + d);; digits_loop l' base x2 true
      | None => Ret (x, count, ungetc ch l')
      end
  end.
Definition getlong (l : list Z) (base : Z) : out (Z * bool * list Z) :=
  let '(ch, l1) := getc l in
  let '(sign, l2) := if (ch =? 45) || (ch =? 43) then ((if ch =? 45 then -1 else 1), l1) else (1, l) in
  r <- digits_loop l2 base 0 false;;
  let '(x, ok, l3) := r in
  x' <- ckl (x * sign);; Ret (x', ok, l3).

(** vscan, kernel/scan.c:122-179.  The results are what would be stored through
    the pointer arguments; [stars] are the arguments of '*'.  An unknown format
    (an assertion in debug builds) is UB; "%**s" is not treated. *)
Inductive sval := VStr (s : list Z) | VInt (z : Z) | VMd5 (z : Z).
Definition scan_item (c : Z) (fmt_len : Z) (l : list Z) : out (option sval * list Z) :=
  if c =? 115 (* s *) then let '(s, l') := mygets l (Z.to_nat fmt_len) in Ret (Some (VStr s), l')
  else if c =? 100 (* d *) then r <- getlong l 10;; let '(x, ok, l') := r in Ret (if ok : bool then Some (VInt (to_int x)) else None, l')
  else if c =? 120 (* x *) then r <- getlong l 16;; let '(x, ok, l') := r in Ret (if ok : bool then Some (VInt (to_int x)) else None, l')
  else if c =? 77 (* M *) then r <- getlong l 16;; let '(x, ok, l') := r in Ret (if ok : bool then Some (VMd5 (Z.land 0xFFFFFFFF x)) else None, l')
  else UB.
Definition scan_char (c : Z) (l : list Z) : bool * list Z :=
  let l1 := if isspace c || (c =? 40) || (c =? 41) then eat_blanks l else l in
  if isspace c then (true, l1)
  else let '(ch, l2) := getc l1 in if ch =? c then (true, l2) else (false, ungetc ch l2).
Fixpoint vscan (fmt : list Z) (stars : list Z) (acc : list sval) (l : list Z) : out (option (list sval) * list Z) :=
  match fmt with
  | [] => Ret (Some acc, l)
  | c :: s =>
      if c =? 37 (* % *) then
        match s with
        | 42 (* '*' *) :: c2 :: s2 =>
            match stars with
            | n :: stars' =>
                if n <=? 0 then Ret (None, l)
                else r <- scan_item c2 n l;;
                     match r with (Some v, l') => vscan s2 stars' (acc ++ [v]) l' | (None, l') => Ret (None, l') end
            | [] => UB
            end
        | c2 :: s2 =>
            r <- scan_item c2 0 l;;
            match r with (Some v, l') => vscan s2 stars (acc ++ [v]) l' | (None, l') => Ret (None, l') end
        | [] => UB
        end
      else let '(ok, l') := scan_char c l in if ok : bool then vscan s stars acc l' else Ret (None, l')
  end.
Definition scan (fmt : list Z) (stars : list Z) (l : list Z) : out (option (list sval) * list Z) := vscan fmt stars [] l.

(** ** Printing: the sequence of characters passed to putchr *)
Definition digits : list Z := cs "0123456789abcdef".
Definition BSZ : Z := 64.
(** the loops filling buf[BSZ], kernel/print.c:57-60 and 72-75: least significant
    digit first *)
Fixpoint digit_loop (fuel : nat) (i base : Z) (buf : list Z) : out (list Z) :=
  match fuel with
  | O => Diverge
  | S fuel' =>
      if Z.of_nat (List.length buf) <? BSZ then
        let buf' := buf ++ [nth (Z.to_nat (i mod base)) digits 0] in
        if i / base =? 0 then Ret buf' else digit_loop fuel' (i / base) base buf'
      else UB
  end.
(** putint, kernel/print.c:47-65 *)
Definition putint (i : Z) : out (list Z) :=
  r <- (if i <? 0 then i' <- ckl (- i);; Ret ([45], i') else Ret ([], i));;
  let '(sg, i') := r in
  buf <- digit_loop 65 i' 10 [];;
  Ret (sg ++ rev buf).
(** putulong, kernel/print.c:67-85 *)
Definition putulong (i base : Z) (width : Z) : out (list Z) :=
  buf <- digit_loop 65 i base [];;
  Ret (repeat 48 (Z.to_nat (width - Z.of_nat (List.length buf))) ++ rev buf).
(** vprint, kernel/print.c:87-214, for the formats %s %d %D %u %x %M *)
Inductive parg := AStr (s : list Z) | AInt (z : Z) | AU (z : Z) | AMd5 (z : Z).
Fixpoint vprint (fmt : list Z) (args : list parg) : out (list Z) :=
  match fmt with
  | [] => Ret []
  | c :: s =>
      if c =? 37 then
        match s, args with
        | c2 :: s2, a :: args' =>
            t <- (match a with
                  | AMd5 x => if c2 =? 77 then putulong (Z.land 0xffffffff x) 16 8 else UB
                  | AStr x => if c2 =? 115 then Ret x else UB
                  | AInt x => if c2 =? 100 then putint x else if c2 =? 68 then putint x else UB
                  | AU x => if c2 =? 120 then putulong x 16 0 else if c2 =? 117 then putulong x 10 0 else UB
                  end);;
            t' <- vprint s2 args';; Ret (t ++ t')
        | _, _ => UB
        end
      else t' <- vprint s args;; Ret (c :: t')
  end.

(** ** Sources of characters *)
(** getchr_str, api/import-wisdom-from-string.c:28-34 *)
Definition getchr_str (s : list Z) : Z * list Z :=
  match s with [] => (EOF, []) | c :: s' => if c =? 0 then (EOF, s) else (c, s') end.
(** getchr_file, api/import-wisdom-from-file.c:42-54.  [fread] may deliver any
    non-zero number of bytes, at most BUFSZ, while there are any: [ch] gives the
    number delivered by the successive calls. *)
Definition BUFSZ : nat := 256.
Record filesrc := mkfs { f_buf : list Z; f_rest : list Z; f_reads : list nat }.
Definition fread (f : filesrc) : list Z * list Z * list nat :=
  match f_reads f with
  | [] => (firstn BUFSZ (f_rest f), skipn BUFSZ (f_rest f), [])
  | n :: ns => let k := Nat.min BUFSZ (Nat.max 1 n) in (firstn k (f_rest f), skipn k (f_rest f), ns)
  end.
Definition getchr_file (f : filesrc) : Z * filesrc :=
  match f_buf f with
  | c :: b => (c, mkfs b (f_rest f) (f_reads f))
  | [] =>
      let '(b, r, ns) := fread f in
      match b with [] => (EOF, mkfs [] r ns) | c :: b' => (c, mkfs b' r ns) end
  end.

(** ** Sinks of characters *)
(** putchr_cnt, mkprinter_cnt, api/mkprinter-str.c:23-42; size_t has 64 bits *)
Definition putchr_cnt (cnt : Z) (c : Z) : Z := (cnt + 1) mod 2 ^ 64.
Definition count_text (t : list Z) : Z := fold_left putchr_cnt t 0.
(** putchr_str, mkprinter_str, api/mkprinter-str.c:44-63, into a block of [sz] chars *)
Record strsink := mkss { ss_mem : Z -> Z; ss_pos : Z }.
Definition storeb (sz : Z) (m : Z -> Z) (p c : Z) : out (Z -> Z) :=
  if (0 <=? p) && (p <? sz) then Ret (fun q => if q =? p then c else m q) else UB.
Definition putchr_str (sz : Z) (s : strsink) (c : Z) : out strsink :=
  m1 <- storeb sz (ss_mem s) (ss_pos s) c;;
  m2 <- storeb sz m1 (ss_pos s + 1) 0;;
  Ret (mkss m2 (ss_pos s + 1)).
Fixpoint put_all (sz : Z) (s : strsink) (t : list Z) : out strsink :=
  match t with [] => Ret s | c :: t' => s' <- putchr_str sz s c;; put_all sz s' t' end.
Definition mkprinter_str (sz : Z) (junk : Z -> Z) : out strsink := m <- storeb sz junk 0 0;; Ret (mkss m 0).
(** export_wisdom_to_string, api/export-wisdom-to-string.c:23-43: the count
    pass, the allocation of cnt + 1 chars, the writing pass *)
Definition text_to_string (t : list Z) (junk : Z -> Z) : out (Z * strsink) :=
  let cnt := count_text t in
  s0 <- mkprinter_str (cnt + 1) junk;; s <- put_all (cnt + 1) s0 t;; Ret (cnt + 1, s).
(** mkprinter_file, myputchr, myflush, mycleanup, api/mkprinter-file.c:24-60 *)
Record filesink := mkfk { fk_buf : list Z; fk_out : list Z }.
Definition myflush (p : filesink) : filesink := mkfk [] (fk_out p ++ fk_buf p).
Definition myputchr (p : filesink) (c : Z) : out filesink :=
  let p1 := if Nat.leb BUFSZ (List.length (fk_buf p)) then myflush p else p in
  if Nat.ltb (List.length (fk_buf p1)) BUFSZ then Ret (mkfk (fk_buf p1 ++ [c]) (fk_out p1)) else UB.
Fixpoint putf_all (p : filesink) (t : list Z) : out filesink :=
  match t with [] => Ret p | c :: t' => p' <- myputchr p c;; putf_all p' t' end.
Definition text_to_file (t : list Z) : out (list Z) :=
  p <- putf_all (mkfk [] []) t;; Ret (fk_out (myflush p)).
