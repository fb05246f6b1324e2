(** * Export and import of wisdom: kernel/planner.c:138-149 and 785-906, and the
    entry points in api/.

    The text is a list of characters (TextModel).  X(export_wisdom_to_file),
    X(export_wisdom_to_string) and X(export_wisdom) pass the characters of [exprt]
    to a sink (the sinks are in TextModel), X(import_wisdom_from_file),
    X(import_wisdom_from_string) and X(import_wisdom) call [imprt] with the
    characters their source delivers.  R is double; the version is that of
    configure.ac:8-12. *)
From Coq Require Import String ZArith List Bool.
From Verif Require Import Base SpecWisdom HashModel Md5Model TextModel PlannerModel.
Import ListNotations.
Open Scope Z_scope.

Section Wis.
Context {P B : Type}.
Notation registry := (registry P B).
Notation slvdesc := (slvdesc P B).
(** signature_of_configuration, kernel/planner.c:138-149; [junk]: the
    uninitialised buffer of the md5 structure *)
Definition feed_desc (m : md5) (d : slvdesc) : md5 := md5puts (md5int m (sd_id d)) (sd_nam d).
Definition signature_of_configuration (junk : Z -> Z) (rg : registry) : out sig :=
  m <- md5end (fold_left feed_desc (rg_descs rg) (md5unsigned (md5begin junk) 8));;
  let '(a, b, c, d) := m_s m in Ret (mksig a b c d).

(** WISDOM_PREAMBLE, stimeout, kernel/planner.c:786-787; MAXNAM, kernel/planner.c:40 *)
Definition WISDOM_PREAMBLE : list Z := cs "fftw-3.3.11 fftw_wisdom".
Definition stimeout : list Z := cs "TIMEOUT".
Definition MAXNAM : Z := 64.
Definition header_fmt : list Z := cs "(" ++ WISDOM_PREAMBLE ++ cs " #x%M #x%M #x%M #x%M" ++ [10].
Definition line_fmt : list Z := cs "  (%s %d #x%x #x%x #x%x #x%M #x%M #x%M #x%M)" ++ [10].
Definition end_fmt : list Z := cs ")" ++ [10].

(** exprt, kernel/planner.c:790-826: the characters printed *)
Definition export_line (rg : registry) (l : slot) : out (list Z) :=
  if slive l then
    ni <- (if sndx l =? INFEASIBLE_SLVNDX then Ret (stimeout, 0)
           else d <- desc_at rg (sndx l);; Ret (sd_nam d, sd_id d));;
    vprint line_fmt [AStr (fst ni); AInt (snd ni); AU (fl (sflags l)); AU (fu (sflags l)); AU (ftl (sflags l));
                     AMd5 (s0 (skey l)); AMd5 (s1 (skey l)); AMd5 (s2 (skey l)); AMd5 (s3 (skey l))]
  else Ret [].
Fixpoint export_loop (cnt : nat) (h : Z) (rg : registry) (ht : hashtab) : out (list Z) :=
  match cnt with
  | O => Ret []
  | S cnt' => l <- slot_at ht h;; t <- export_line rg l;; t' <- export_loop cnt' (h + 1) rg ht;; Ret (t ++ t')
  end.
Definition exprt (junk : Z -> Z) (rg : registry) (s : st) : out (list Z) :=
  m <- signature_of_configuration junk rg;;
  t1 <- vprint header_fmt [AMd5 (s0 m); AMd5 (s1 m); AMd5 (s2 m); AMd5 (s3 m)];;
  t2 <- export_loop (Z.to_nat (hashsiz (s_hb s))) 0 rg (s_hb s);;
  t3 <- vprint end_fmt [];;
  Ret (t1 ++ t2 ++ t3).

(** imprt, kernel/planner.c:830-906.  The result is [Some true] (1), [Some false]
    (0), or [None]: a CK() failed and the program is aborted.  Also returned: what
    is left of the input. *)
Definition line_in_fmt : list Z := cs "(%*s %d #x%x #x%x #x%x #x%M #x%M #x%M #x%M)".
(** a char array as a C string *)
Fixpoint c_string (s : list Z) : list Z := match s with [] => [] | c :: s' => if c =? 0 then [] else c :: c_string s' end.
(** lines 873-885: the solver index, or [bad] *)
Definition import_solver (rg : registry) (nam : list Z) (id tl : Z) : option Z :=
  if str_eqb nam stimeout && (id =? 0) then Some INFEASIBLE_SLVNDX
  else if negb (tl =? 0) then None
  else let n := slookup rg nam id in if n =? INFEASIBLE_SLVNDX then None else Some n.
(** lines 887-899 *)
Definition import_record (s : st) (k : sig) (l u tl n : Z) : out (option st) :=
  if (l <? 2 ^ 20) && (u <? 2 ^ 20) && (tl <? 2 ^ 9) then
    let f := mkfl l u tl true in
    r <- hlookup s k f;;
    match r with Some _ => Ret (Some s) | None => s' <- hinsert s k f n;; Ret (Some s') end
  else Ret None.
(** the loop and the exits, lines 864-906; [old]: the backup *)
Fixpoint import_loop (fuel : nat) (rg : registry) (old : hashtab) (s : st) (txt : list Z) : out (option bool * list Z * st) :=
  match fuel with
  | O => Diverge
  | S fuel' =>
      r <- scan (cs ")") [] txt;;
      match fst r with
      | Some _ => Ret (Some true, snd r, s)
      | None =>
          q <- scan line_in_fmt [MAXNAM] (snd r);;
          match q with
          | (None, txt') => Ret (Some false, txt', set_tabs s old (s_hu s))
          | (Some [VStr buf; VInt id; VInt l; VInt u; VInt tl; VMd5 a; VMd5 b; VMd5 c; VMd5 d], txt') =>
              match import_solver rg (c_string buf) id (to_unsigned tl) with
              | None => Ret (Some false, txt', set_tabs s old (s_hu s))
              | Some n =>
                  o <- import_record s (mksig a b c d) (to_unsigned l) (to_unsigned u) (to_unsigned tl) n;;
                  match o with
                  | None => Ret (None, txt', s)
                  | Some s' => import_loop fuel' rg old s' txt'
                  end
              end
          | _ => UB
          end
      end
  end.
Definition imprt (junk : Z -> Z) (rg : registry) (s : st) (txt : list Z) : out (option bool * list Z * st) :=
  r <- scan header_fmt [] txt;;
  match r with
  | (None, txt') => Ret (Some false, txt', s)
  | (Some [VMd5 a; VMd5 b; VMd5 c; VMd5 d], txt') =>
      m <- signature_of_configuration junk rg;;
      if negb (md5eq m (mksig a b c d)) then Ret (Some false, txt', s)
      else import_loop (S (List.length txt')) rg (s_hb s) s txt'
  | _ => UB
  end.
End Wis.
