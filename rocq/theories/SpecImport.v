(** * Specification vocabulary for moving wisdom between planners *)
From Coq Require Import String ZArith List Permutation.
From Verif Require Import Base SpecWisdom HashModel SpecMd5 TextModel PlannerModel.
Import ListNotations.
Open Scope Z_scope.

(** the record fits the fields it is kept in: 20 + 20 + 9 bits of flags, four
    32-bit words (kernel/ifftw.h:386-392, 631-643) *)
Definition representable (r : record) : Prop :=
  0 <= rl r < 2 ^ 20 /\ 0 <= ru r < 2 ^ 20 /\ 0 <= rtl r < 2 ^ 9 /\
  0 <= s0 (rkey r) < 2 ^ 32 /\ 0 <= s1 (rkey r) < 2 ^ 32 /\ 0 <= s2 (rkey r) < 2 ^ 32 /\ 0 <= s3 (rkey r) < 2 ^ 32.
(** the record names a solver of a library with [n] solvers, or a failure; only
    failures have a time-limit class *)
Definition names_solver (n : Z) (r : record) : Prop := infeasible r \/ (0 <= rndx r < n /\ rtl r = 0).

(** no run of more than 15 letters and digits: no number overflows a long *)
Definition letter_or_digit (c : Z) : Prop := 48 <= c <= 57 \/ 65 <= c <= 90 \/ 97 <= c <= 122.
Definition no_long_words (l : list Z) : Prop := forall a w b, l = a ++ w ++ b -> Forall letter_or_digit w -> (length w <= 15)%nat.

(** printable characters other than blanks and parentheses *)
Definition nice (c : Z) : Prop := 33 <= c <= 126 /\ c <> 40 /\ c <> 41.
Section Reg.
Context {P B : Type}.
(** a table of registrations as in the library: the names are distinct words of
    at most 64 characters, none of them TIMEOUT; at most 4095 solvers *)
Definition usable (tbl : list (list Z * list (nat * (P -> prog P B)))) : Prop :=
  NoDup (map fst tbl) /\
  (forall x, In x tbl -> Forall nice (fst x) /\ (length (fst x) <= 64)%nat /\ fst x <> cs "TIMEOUT") /\
  (length (flat_map snd tbl) <= 4095)%nat.
(** the solvers a table registers, in order: name of the entry and number in it *)
Definition solver_names (tbl : list (list Z * list (nat * (P -> prog P B)))) : list (list Z * Z) :=
  flat_map (fun x => map (fun i => (fst x, Z.of_nat i)) (seq 0 (length (snd x)))) tbl.
End Reg.

(** the configuration of a library, as a string of bytes: the size of a real
    number, then number and name of each solver *)
Definition le32 (z : Z) : list Z := map (fun k => z / 2 ^ (8 * Z.of_nat k) mod 256) (seq 0 4).
Definition config_bytes (names : list (list Z * Z)) : list Z :=
  le32 8 ++ concat (map (fun x => le32 (snd x) ++ map (fun c => c mod 256) (fst x) ++ [0]) names).
Definition md5_words (m : list Z) : sig := mksig (MD5 m 0) (MD5 m 1) (MD5 m 2) (MD5 m 3).

(** ** the beginning of wisdom text.  The scanner skips blanks, and reads past an
    end of file (-1) that is followed by further characters. *)
Definition ignored (c : Z) : Prop := 0 <= c <= 32 \/ c = -1.
Definition digit_value (c : Z) : Z := if c <=? 57 then c - 48 else if c <=? 90 then c - 55 else c - 87.
(** a hexadecimal numeral with a value that is [w] modulo 2^32; letters after f count
    as digits *)
Definition hex_numeral (t : list Z) (w : Z) : Prop :=
  exists sg ds sign, t = sg ++ ds /\ ((sg = [] /\ sign = 1) \/ (sg = cs "+" /\ sign = 1) \/ (sg = cs "-" /\ sign = -1)) /\
    ds <> [] /\ Forall letter_or_digit ds /\ (sign * fold_left (fun x c => 16 * x + digit_value c) ds 0) mod 2 ^ 32 = w.
(** a parenthesis, the words fftw-3.3.11 and fftw_wisdom, and the four words of [m] *)
Definition headed (m : sig) (txt : list Z) : Prop :=
  exists g0 g1 g2 n0 g3 n1 g4 n2 g5 n3 body,
    txt = g0 ++ cs "(fftw-3.3.11" ++ g1 ++ cs "fftw_wisdom" ++ g2 ++ cs "#x" ++ n0 ++ g3 ++ cs "#x" ++ n1 ++ g4 ++ cs "#x" ++ n2 ++ g5 ++ cs "#x" ++ n3 ++ body /\
    Forall ignored (g0 ++ g1 ++ g2 ++ g3 ++ g4 ++ g5) /\
    hex_numeral n0 (s0 m) /\ hex_numeral n1 (s1 m) /\ hex_numeral n2 (s2 m) /\ hex_numeral n3 (s3 m) /\
    match body with [] => True | c :: _ => ~ letter_or_digit c end.

(** what a collection of records lets a planner conclude *)
Definition plan_known (R : list record) (k : sig) (l u tl : Z) : Prop :=
  exists r, In r R /\ rkey r = k /\ ~ infeasible r /\ licenses r l u tl.
Definition failure_known (R : list record) (k : sig) (l u tl : Z) : Prop :=
  exists r, In r R /\ rkey r = k /\ infeasible r /\ licenses r l u tl.
(** no record makes another superfluous *)
Definition independent (R : list record) : Prop :=
  NoDup R /\ forall r r', In r R -> In r' R -> supersedes r r' -> r = r'.
(** no failure is recorded under restrictions for which, or for a part of which,
    a plan is known *)
Definition consistent (R : list record) : Prop :=
  forall x y, In x R -> In y R -> rkey x = rkey y -> ~ infeasible x -> infeasible y -> ~ subset (rl y) (rl x).
