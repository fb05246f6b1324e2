(** * C29, C30: wisdom text is written and read back faithfully *)
From Coq Require Import String Ascii ZArith List Lia Bool.
From Verif Require Import Base TextModel.
Import ListNotations.
Open Scope Z_scope.

(** ** digits *)
Definition stops (rest : list Z) : Prop := match rest with [] => True | c :: _ => digit_of c = None /\ c <> EOF end.
Definition dval (c : Z) : Z := match digit_of c with Some d => d | None => 0 end.
Definition eval (base x : Z) (ds : list Z) : Z := fold_left (fun x c => x * base + dval c) ds x.
Definition dig (base c : Z) : Prop := exists d, digit_of c = Some d /\ 0 <= d < base.
Lemma eval_app b x l l' : eval b x (l ++ l') = eval b (eval b x l) l'.
Proof. apply fold_left_app. Qed.
Lemma eval_mono b ds : forall x, 1 <= b -> 0 <= x -> Forall (dig b) ds -> x <= eval b x ds.
Proof.
  induction ds as [|c ds IH]; intros x Hb Hx F; cbn [eval fold_left]; [lia|]. inversion F as [|? ? (d & E & D) F']; subst.
  assert (DV : dval c = d) by (unfold dval; now rewrite E). change (x <= eval b (x * b + dval c) ds). rewrite DV.
  transitivity (x * b + d); [nia|]. apply IH; auto. nia.
Qed.
Lemma digits_loop_run b ds rest : forall x cnt, 1 <= b -> 0 <= x -> Forall (dig b) ds -> eval b x ds <= LONG_MAX ->
  digits_loop (ds ++ rest) b x cnt = digits_loop rest b (eval b x ds) (match ds with [] => cnt | _ => true end).
Proof.
  induction ds as [|c ds IH]; intros x cnt Hb Hx F Hm; cbn [app digits_loop eval fold_left]; [reflexivity|].
  inversion F as [|? ? (d & E & D) F']; subst. assert (DV : dval c = d) by (unfold dval; now rewrite E).
  change (eval b (x * b + dval c) ds <= LONG_MAX) in Hm. change (fold_left (fun x0 c0 => x0 * b + dval c0) ds (x * b + dval c)) with (eval b (x * b + dval c) ds).
  rewrite DV in *. pose proof (eval_mono b ds (x * b + d) Hb ltac:(nia) F') as M.
  rewrite E. unfold ckl.
  replace ((- LONG_MAX - 1 <=? x * b) && (x * b <=? LONG_MAX)) with true
    by (symmetry; apply andb_true_iff; rewrite !Z.leb_le; unfold LONG_MAX in *; nia).
  cbn [bind]. replace ((- LONG_MAX - 1 <=? x * b + d) && (x * b + d <=? LONG_MAX)) with true
    by (symmetry; apply andb_true_iff; rewrite !Z.leb_le; unfold LONG_MAX in *; nia).
  cbn [bind]. rewrite IH; auto; [|nia]. destruct ds; reflexivity.
Qed.
Lemma digits_loop_stop b rest x cnt : stops rest -> digits_loop rest b x cnt = Ret (x, cnt, rest).
Proof.
  destruct rest as [|c rest]; cbn [digits_loop]; auto. intros [E N]. rewrite E. unfold ungetc. destruct (Z.eqb_spec c EOF); [contradiction|reflexivity].
Qed.
Lemma nth_digits : forall d, 0 <= d < 16 -> digit_of (nth (Z.to_nat d) digits 0) = Some d.
Proof.
  intros d Hd. assert (d = 0 \/ d = 1 \/ d = 2 \/ d = 3 \/ d = 4 \/ d = 5 \/ d = 6 \/ d = 7 \/ d = 8 \/ d = 9 \/ d = 10 \/ d = 11 \/ d = 12 \/ d = 13 \/ d = 14 \/ d = 15) as C by lia.
  repeat (destruct C as [->|C]; [reflexivity|]). subst. reflexivity.
Qed.
Lemma digit_loop_ok b : 2 <= b <= 16 -> forall (k fuel : nat) i buf, 0 <= i < b ^ Z.of_nat k -> (1 <= k <= fuel)%nat -> (length buf + k <= 64)%nat ->
  exists ds, digit_loop fuel i b buf = Ret (buf ++ ds) /\ (1 <= length ds <= k)%nat /\ Forall (dig b) (rev ds) /\
    forall x, eval b x (rev ds) = x * b ^ Z.of_nat (length ds) + i.
Proof.
  intros Hb. induction k as [|k IH]; intros fuel i buf Hi Hk Hl; [lia|]. destruct fuel as [|fuel]; [lia|]. cbn [digit_loop].
  replace (Z.of_nat (length buf) <? BSZ) with true by (symmetry; apply Z.ltb_lt; unfold BSZ; lia).
  pose proof (Z.mod_pos_bound i b ltac:(lia)) as Hm. pose proof (nth_digits (i mod b) ltac:(lia)) as Hd.
  set (c := nth (Z.to_nat (i mod b)) digits 0) in *. pose proof (Z.div_mod i b ltac:(lia)) as DM.
  destruct (Z.eqb_spec (i / b) 0) as [E|N].
  - exists [c]. split; [reflexivity|]. cbn [length rev app]. split; [lia|]. split.
    + constructor; [exists (i mod b); auto|constructor].
    + intros x. cbn [eval fold_left]. unfold dval. rewrite Hd. change (Z.of_nat 1) with 1. rewrite Z.pow_1_r. lia.
  - assert (0 <= i / b) by (apply Z.div_pos; lia).
    assert (Hk1 : (1 <= k)%nat).
    { destruct k; [|lia]. exfalso. change (Z.of_nat 1) with 1 in Hi. rewrite Z.pow_1_r in Hi. apply N, Z.div_small. lia. }
    destruct (IH fuel (i / b) (buf ++ [c])) as (ds & E & L & F & V).
    + split; [auto|]. apply Z.div_lt_upper_bound; [lia|]. rewrite <- Z.pow_succ_r by lia. replace (Z.succ (Z.of_nat k)) with (Z.of_nat (S k)) by lia. lia.
    + lia.
    + rewrite app_length. cbn [length]. lia.
    + exists (c :: ds). rewrite E, <- app_assoc. split; [reflexivity|]. cbn [length rev]. split; [lia|]. split.
      * apply Forall_app. split; auto. constructor; [exists (i mod b); auto|constructor].
      * intros x. rewrite eval_app, V. cbn [eval fold_left]. unfold dval. rewrite Hd.
        rewrite Nat2Z.inj_succ, Z.pow_succ_r by lia. lia.
Qed.
Lemma dig_first b c l : b <= 36 -> Forall (dig b) (c :: l) -> (c =? 45) || (c =? 43) = false.
Proof.
  intros Hb F. inversion F as [|? ? (d & E & D) _]; subst. destruct (Z.eqb_spec c 45) as [->|]; [discriminate|]. destruct (Z.eqb_spec c 43) as [->|]; [discriminate|]. reflexivity.
Qed.
(** reading a non-empty run of digits *)
Lemma getlong_digits b ds rest : 2 <= b <= 16 -> ds <> [] -> Forall (dig b) ds -> eval b 0 ds <= LONG_MAX -> stops rest ->
  getlong (ds ++ rest) b = Ret (eval b 0 ds, true, rest).
Proof.
  intros Hb N F Hm Hs. unfold getlong. destruct ds as [|c ds]; [congruence|]. cbn [app getc]. rewrite (dig_first b c ds) by (auto; lia).
  rewrite app_comm_cons, digits_loop_run by (auto; lia). rewrite digits_loop_stop by auto. cbn [bind].
  pose proof (eval_mono b (c :: ds) 0 ltac:(lia) ltac:(lia) F) as M. rewrite Z.mul_1_r. unfold ckl.
  replace ((- LONG_MAX - 1 <=? eval b 0 (c :: ds)) && (eval b 0 (c :: ds) <=? LONG_MAX)) with true; [reflexivity|].
  symmetry. apply andb_true_iff. rewrite !Z.leb_le. unfold LONG_MAX in *. lia.
Qed.

(** C29: reading a hexadecimal number, lower or upper case, whatever follows that
    is not a letter or digit.  The value is that of positional notation. *)
Definition hexchar (c v : Z) : Prop := (48 <= c <= 57 /\ v = c - 48) \/ (65 <= c <= 70 /\ v = c - 65 + 10) \/ (97 <= c <= 102 /\ v = c - 97 + 10).
Definition no_alnum (rest : list Z) : Prop :=
  match rest with [] => True | c :: _ => 0 <= c < 256 /\ ~ 48 <= c <= 57 /\ ~ 65 <= c <= 90 /\ ~ 97 <= c <= 122 end.
Theorem C29_read_hex : forall ds vs rest, ds <> [] -> Forall2 hexchar ds vs -> fold_left (fun x v => 16 * x + v) vs 0 <= LONG_MAX -> no_alnum rest ->
  getlong (ds ++ rest) 16 = Ret (fold_left (fun x v => 16 * x + v) vs 0, true, rest).
Proof.
  assert (D : forall c v, hexchar c v -> digit_of c = Some v /\ 0 <= v < 16).
  { intros c v H. unfold digit_of, isdigit, isupper, islower. destruct H as [[H ->]|[[H ->]|[H ->]]];
      destruct (Z.leb_spec 48 c), (Z.leb_spec c 57), (Z.leb_spec 65 c), (Z.leb_spec c 90), (Z.leb_spec 97 c), (Z.leb_spec c 122); cbn [andb]; try lia; split; try lia; f_equal; lia. }
  intros ds vs rest N F Hm Hr.
  assert (F1 : Forall (dig 16) ds). { clear -F D. induction F; constructor; auto. destruct (D _ _ H). exists y. auto. }
  assert (V : forall x, eval 16 x ds = fold_left (fun x v => 16 * x + v) vs x).
  { clear -F D. induction F as [|c v l l' H F IH]; intros x; [reflexivity|]. destruct (D _ _ H) as [E _].
    change (eval 16 x (c :: l)) with (eval 16 (x * 16 + dval c) l). rewrite IH. cbn [fold_left]. unfold dval. rewrite E. f_equal. lia. }
  rewrite getlong_digits; auto; [now rewrite V|lia|now rewrite V|].
  destruct rest as [|c rest]; [exact I|]. destruct Hr as (R0 & R1 & R2 & R3). split; [|unfold EOF; lia].
  unfold digit_of, isdigit, isupper, islower.
  destruct (Z.leb_spec 48 c), (Z.leb_spec c 57), (Z.leb_spec 65 c), (Z.leb_spec c 90), (Z.leb_spec 97 c), (Z.leb_spec c 122); cbn [andb]; try lia; reflexivity.
Qed.
Example C29_read_hex_case : Forall2 hexchar (cs "0fE") [0; 15; 14] /\ no_alnum (cs ")") /\ getlong (cs "0fE)") 16 = Ret (254, true, cs ")").
Proof.
  split; [|split; [cbn; lia|reflexivity]]. unfold hexchar. repeat (constructor; [cbn; lia|]). constructor.
Qed.

(** C29: every INT that has a negative prints in decimal and reads back, whatever follows
    that is not a letter or digit *)
Theorem C29_int : forall z rest, - LONG_MAX <= z <= LONG_MAX -> stops rest ->
  exists t, putint z = Ret t /\ getlong (t ++ rest) 10 = Ret (z, true, rest).
Proof.
  intros z rest Hz Hs. unfold putint.
  destruct (digit_loop_ok 10 ltac:(lia) 20 65 (Z.abs z) []) as (ds & E & L & F & V).
  - unfold LONG_MAX in Hz. change (10 ^ Z.of_nat 20) with 100000000000000000000. lia.
  - lia.
  - cbn [length]. lia.
  - assert (V0 : eval 10 0 (rev ds) = Z.abs z) by (rewrite V; lia).
    assert (N : rev ds <> []) by (intros Q; apply (f_equal (@length Z)) in Q; rewrite rev_length in Q; cbn in Q; lia).
    destruct (Z.ltb_spec z 0) as [L0|L0].
    + assert (C : ckl (- z) = Ret (- z)).
      { unfold ckl. replace ((- LONG_MAX - 1 <=? - z) && (- z <=? LONG_MAX)) with true; auto. symmetry. apply andb_true_iff. rewrite !Z.leb_le. lia. }
      rewrite C. cbn [bind]. rewrite Z.abs_neq in * by lia. rewrite E. cbn [bind app]. eexists. split; [reflexivity|].
      unfold getlong. cbn [app getc]. change ((45 =? 45) || (45 =? 43)) with true. change (45 =? 45) with true. cbv iota.
      rewrite digits_loop_run by (auto; lia). rewrite digits_loop_stop by auto. rewrite V0. cbn [bind].
      replace (- z * -1) with z by lia. unfold ckl. replace ((- LONG_MAX - 1 <=? z) && (z <=? LONG_MAX)) with true.
      2:{ symmetry. apply andb_true_iff. rewrite !Z.leb_le. lia. }
      cbn [bind]. destruct (rev ds); [contradiction|reflexivity].
    + cbn [bind]. rewrite Z.abs_eq in * by lia. rewrite E. cbn [bind app]. eexists. split; [reflexivity|]. cbn [app].
      rewrite getlong_digits; auto; [now rewrite V0|lia|lia].
Qed.
(** the most negative INT cannot be printed: negating it overflows *)
Theorem C29_int_min_refuted : putint (- LONG_MAX - 1) = UB.
Proof. reflexivity. Qed.

Lemma putulong_ok x b w rest : 2 <= b <= 16 -> 10 <= b -> 0 <= x < 2 ^ 32 -> stops rest ->
  exists t, putulong x b w = Ret t /\ t <> [] /\ getlong (t ++ rest) b = Ret (x, true, rest).
Proof.
  intros Hb Hb2 Hx Hs. unfold putulong.
  destruct (digit_loop_ok b Hb 20 65 x []) as (ds & E & L & F & V).
  - split; [lia|]. apply Z.lt_le_trans with (10 ^ Z.of_nat 20); [change (10 ^ Z.of_nat 20) with 100000000000000000000; lia|]. apply Z.pow_le_mono_l. lia.
  - lia.
  - cbn [length]. lia.
  - rewrite E. cbn [bind app]. eexists. split; [reflexivity|]. set (z := repeat 48 _).
    assert (Fz : Forall (dig b) z). { unfold z. apply Forall_forall. intros c Hc. apply repeat_spec in Hc. subst. exists 0. split; [reflexivity|lia]. }
    assert (Ez : forall n, eval b 0 (repeat 48 n) = 0). { induction n; cbn [repeat eval fold_left]; auto. }
    assert (EV : eval b 0 (z ++ rev ds) = x) by (rewrite eval_app; unfold z; rewrite Ez, V; lia).
    assert (N : z ++ rev ds <> []). { intros Q. apply (f_equal (@length Z)) in Q. rewrite app_length, rev_length in Q. cbn in Q. lia. }
    split; [auto|]. rewrite getlong_digits; auto; [now rewrite EV|apply Forall_app; auto|rewrite EV; unfold LONG_MAX; lia].
Qed.

(** C29: every 32-bit word of a signature prints as (at least) eight
    hexadecimal digits and reads back *)
Theorem C29_hash_word : forall x rest, 0 <= x < 2 ^ 32 -> stops rest ->
  exists t, vprint (cs "%M") [AMd5 x] = Ret t /\ (8 <= length t)%nat /\ scan (cs "%M") [] (t ++ rest) = Ret (Some [VMd5 x], rest).
Proof.
  intros x rest Hx Hs. assert (Lx : Z.land 0xffffffff x = x) by (rewrite Z.land_comm; change 0xffffffff with (Z.ones 32); rewrite Z.land_ones by lia; apply Z.mod_small; lia).
  destruct (putulong_ok x 16 8 rest ltac:(lia) ltac:(lia) Hx Hs) as (t & E & N & G). exists t.
  cbn [cs map list_ascii_of_string vprint]. change (Z.of_nat (nat_of_ascii "%")) with 37. change (Z.of_nat (nat_of_ascii "M")) with 77.
  change (37 =? 37) with true. change (77 =? 77) with true. cbv iota. rewrite Lx, E. cbn [bind]. rewrite app_nil_r. split; [reflexivity|]. split.
  - unfold putulong in E. destruct (digit_loop 65 x 16 []) as [buf| |]; try discriminate. cbn [bind] in E. assert (Et : t = repeat 48 (Z.to_nat (8 - Z.of_nat (List.length buf))) ++ rev buf) by congruence. subst t.
    rewrite app_length, repeat_length, rev_length. lia.
  - unfold scan. cbn [vscan]. change (37 =? 37) with true. cbv iota. unfold scan_item. change (77 =? 115) with false. change (77 =? 100) with false.
    change (77 =? 120) with false. change (77 =? 77) with true. cbv iota. rewrite G. cbn [bind]. rewrite Lx. reflexivity.
Qed.
(** C29: flag words print in hexadecimal and read back as the same 32 bits *)
Theorem C29_flags_word : forall x rest, 0 <= x < 2 ^ 32 -> stops rest ->
  exists t v, vprint (cs "%x") [AU x] = Ret t /\ scan (cs "%x") [] (t ++ rest) = Ret (Some [VInt v], rest) /\ to_unsigned v = x.
Proof.
  intros x rest Hx Hs. destruct (putulong_ok x 16 0 rest ltac:(lia) ltac:(lia) Hx Hs) as (t & E & N & G). exists t, (to_int x).
  cbn [cs map list_ascii_of_string vprint]. change (Z.of_nat (nat_of_ascii "%")) with 37. change (Z.of_nat (nat_of_ascii "x")) with 120.
  change (37 =? 37) with true. change (120 =? 120) with true. cbv iota. rewrite E. cbn [bind]. rewrite app_nil_r. split; [reflexivity|]. split.
  - unfold scan. cbn [vscan]. change (37 =? 37) with true. cbv iota. unfold scan_item. change (120 =? 115) with false. change (120 =? 100) with false.
    change (120 =? 120) with true. cbv iota. rewrite G. cbn [bind]. reflexivity.
  - unfold to_unsigned, to_int. rewrite Zminus_mod_idemp_l. replace (x + 2 ^ 31 - 2 ^ 31) with x by lia. apply Z.mod_small. lia.
Qed.
(** C29: an int prints and reads back through %d *)
Theorem C29_percent_d : forall x rest, - 2 ^ 31 <= x < 2 ^ 31 -> stops rest ->
  exists t, vprint (cs "%d") [AInt x] = Ret t /\ scan (cs "%d") [] (t ++ rest) = Ret (Some [VInt x], rest).
Proof.
  intros x rest Hx Hs. destruct (C29_int x rest) as (t & E & G); auto; [unfold LONG_MAX; lia|]. exists t.
  cbn [cs map list_ascii_of_string vprint]. change (Z.of_nat (nat_of_ascii "%")) with 37. change (Z.of_nat (nat_of_ascii "d")) with 100.
  change (37 =? 37) with true. change (100 =? 100) with true. cbv iota. rewrite E. cbn [bind]. rewrite app_nil_r. split; [reflexivity|].
  unfold scan. cbn [vscan]. change (37 =? 37) with true. cbv iota. unfold scan_item. change (100 =? 115) with false.
  change (100 =? 100) with true. cbv iota. rewrite G. cbn [bind]. unfold to_int. rewrite Z.mod_small by lia. do 4 f_equal. replace (x + 2 ^ 31 - 2 ^ 31) with x by lia. reflexivity.
Qed.

(** names *)
Definition name_char (c : Z) : Prop := 33 <= c <= 126 /\ c <> 40 /\ c <> 41.
Definition name_end (rest : list Z) : Prop := match rest with [] => True | c :: _ => isspace c = true \/ c = 40 \/ c = 41 end.
Lemma mygets_ok s rest : forall room, Forall name_char s -> (length s <= room)%nat -> name_end rest -> mygets (s ++ rest) room = (s, rest).
Proof.
  induction s as [|c s IH]; intros room F L E; cbn [app mygets].
  - destruct rest as [|c rest]; cbn [mygets]; [reflexivity|].
    assert (C : negb (c =? EOF) && negb (isspace c) && negb (c =? 41) && negb (c =? 40) = false).
    { destruct E as [E|[->| ->]]; [rewrite E; cbn [negb]; now rewrite !andb_false_r|reflexivity|reflexivity]. }
    rewrite C. unfold ungetc. destruct (Z.eqb_spec c EOF) as [->|]; [|reflexivity]. exfalso. destruct E as [E|[E|E]]; discriminate.
  - inversion F as [|? ? [C1 [C2 C3]] F']; subst.
    assert (C : negb (c =? EOF) && negb (isspace c) && negb (c =? 41) && negb (c =? 40) = true).
    { unfold isspace, EOF. repeat (apply andb_true_iff; split); apply negb_true_iff; try (apply Z.eqb_neq; lia). apply andb_false_iff. right. apply Z.leb_gt. lia. }
    rewrite C. destruct room as [|room]; cbn [length] in L; [lia|]. rewrite IH by (auto; lia). f_equal. f_equal.
    rewrite Z.mod_small by lia. lia.
Qed.
(** C29: a name of at most [maxlen] characters prints and reads back *)
Theorem C29_name : forall s maxlen rest, Forall name_char s -> Z.of_nat (length s) <= maxlen -> 0 < maxlen -> name_end rest ->
  vprint (cs "%s") [AStr s] = Ret s /\ scan (cs "%*s") [maxlen] (s ++ rest) = Ret (Some [VStr s], rest).
Proof.
  intros s maxlen rest F L P E. split.
  - cbn [cs map list_ascii_of_string vprint]. change (Z.of_nat (nat_of_ascii "%")) with 37. change (Z.of_nat (nat_of_ascii "s")) with 115.
    change (37 =? 37) with true. change (115 =? 115) with true. cbv iota. cbn [bind]. now rewrite app_nil_r.
  - unfold scan. cbn [cs map list_ascii_of_string]. change (Z.of_nat (nat_of_ascii "%")) with 37. change (Z.of_nat (nat_of_ascii "s")) with 115.
    change (Z.of_nat (nat_of_ascii "*")) with 42. cbn [vscan]. change (37 =? 37) with true. cbv iota.
    destruct (Z.leb_spec maxlen 0); [lia|]. unfold scan_item. change (115 =? 115) with true. cbv iota. rewrite mygets_ok; auto. lia.
Qed.
(** the scanner never stores more than [maxlen] characters plus the final zero,
    whatever the input *)
Theorem C29_name_bounded : forall l room, (length (fst (mygets l room)) <= room)%nat.
Proof.
  induction l as [|c l IH]; intros room; cbn [mygets fst length]; [lia|].
  destruct (negb (c =? EOF) && negb (isspace c) && negb (c =? 41) && negb (c =? 40)); [|cbn; lia].
  destruct room as [|room]; [cbn; lia|]. specialize (IH room). destruct (mygets l room) as [s r]. cbn [fst length] in *. lia.
Qed.

(** C29: reading from a file delivers its bytes and then EOF for ever, however
    fread splits them *)
Fixpoint pull (n : nat) (f : filesrc) : list Z := match n with O => [] | S n' => let '(c, f') := getchr_file f in c :: pull n' f' end.
Fixpoint pull_str (n : nat) (s : list Z) : list Z := match n with O => [] | S n' => let '(c, s') := getchr_str s in c :: pull_str n' s' end.
Lemma firstn_eofs n l : firstn n (l ++ repeat EOF n) = firstn n (l ++ repeat EOF (S n)).
Proof.
  replace (repeat EOF (S n)) with (repeat EOF n ++ [EOF]) by (now rewrite <- repeat_cons). rewrite app_assoc, (firstn_app n (l ++ repeat EOF n) [EOF]).
  replace (n - List.length (l ++ repeat EOF n))%nat with 0%nat by (rewrite app_length, repeat_length; lia). cbn [firstn]. now rewrite app_nil_r.
Qed.
Lemma pull_gen : forall n b r ns, pull n (mkfs b r ns) = firstn n ((b ++ r) ++ repeat EOF n).
Proof.
  induction n as [|n IH]; intros b r ns; [reflexivity|]. cbn [pull]. unfold getchr_file. cbn [f_buf]. destruct b as [|c b].
  - unfold fread. cbn [f_reads f_rest].
    assert (G : forall k ns', (1 <= k)%nat -> (let '(b, r0, ns0) := (firstn k r, skipn k r, ns') in
        match b with [] => (EOF, mkfs [] r0 ns0) | c :: b' => (c, mkfs b' r0 ns0) end) =
        match r with [] => (EOF, mkfs [] [] ns') | c :: r' => (c, mkfs (firstn (k - 1) r') (skipn (k - 1) r') ns') end).
    { intros [|k] ns' Hk; [lia|]. replace (S k - 1)%nat with k by lia. destruct r; reflexivity. }
    destruct ns as [|n0 ns]; (rewrite G by (unfold BUFSZ; lia); destruct r as [|c r]; rewrite IH).
    + cbn [app repeat firstn]. reflexivity.
    + rewrite firstn_skipn, firstn_eofs. reflexivity.
    + reflexivity.
    + rewrite firstn_skipn, firstn_eofs. reflexivity.
  - rewrite IH, firstn_eofs. reflexivity.
Qed.
Theorem C29_file_chunking : forall n bytes reads, pull n (mkfs [] bytes reads) = firstn n (bytes ++ repeat EOF n).
Proof. intros. apply pull_gen. Qed.
Theorem C29_string_source : forall n s junk, ~ In 0 s -> pull_str n (s ++ 0 :: junk) = firstn n (s ++ repeat EOF n).
Proof.
  induction n as [|n IH]; intros s junk Hs; [reflexivity|]. cbn [pull_str]. destruct s as [|c s].
  - cbn [app getchr_str]. change (0 =? 0) with true. cbv iota. cbn [app repeat firstn]. f_equal.
    specialize (IH [] junk Hs). cbn [app] in IH. exact IH.
  - cbn [app getchr_str]. destruct (Z.eqb_spec c 0) as [->|N]; [exfalso; apply Hs; now left|].
    rewrite IH by (intros Q; apply Hs; now right). rewrite firstn_eofs. reflexivity.
Qed.

(** ** C30 *)
Lemma count_len t : forall c, 0 <= c -> c + Z.of_nat (length t) < 2 ^ 64 -> fold_left putchr_cnt t c = c + Z.of_nat (length t).
Proof.
  induction t as [|x t IH]; intros c Hc Hl; cbn [fold_left length] in *; [lia|]. unfold putchr_cnt at 2. rewrite Z.mod_small by lia. rewrite IH; lia.
Qed.
Lemma put_all_ok sz t : forall s, 0 <= ss_pos s -> ss_pos s + Z.of_nat (length t) < sz -> ss_mem s (ss_pos s) = 0 ->
  exists s', put_all sz s t = Ret s' /\ ss_pos s' = ss_pos s + Z.of_nat (length t) /\
    (forall q, q < ss_pos s -> ss_mem s' q = ss_mem s q) /\
    (forall k, (k < length t)%nat -> ss_mem s' (ss_pos s + Z.of_nat k) = nth k t 0) /\ ss_mem s' (ss_pos s') = 0.
Proof.
  induction t as [|c t IH]; intros s Hp Hl H0; cbn [put_all length] in *.
  - exists s. split; [reflexivity|]. split; [lia|]. split; [auto|]. split; [intros; lia|auto].
  - unfold putchr_str, storeb. replace ((0 <=? ss_pos s) && (ss_pos s <? sz)) with true by (symmetry; apply andb_true_iff; rewrite Z.leb_le, Z.ltb_lt; lia).
    cbn [bind]. replace ((0 <=? ss_pos s + 1) && (ss_pos s + 1 <? sz)) with true by (symmetry; apply andb_true_iff; rewrite Z.leb_le, Z.ltb_lt; lia).
    cbn [bind]. set (s1 := mkss _ _). destruct (IH s1) as (s' & E & P & Q & V & T); unfold s1 in *; cbn [ss_pos ss_mem] in *; try lia.
    { now rewrite Z.eqb_refl. }
    exists s'. split; auto. split; [lia|]. split; [|split; auto].
    + intros q Hq. rewrite Q by lia. destruct (Z.eqb_spec q (ss_pos s + 1)); [lia|]. destruct (Z.eqb_spec q (ss_pos s)); [lia|reflexivity].
    + intros [|k] Hk.
      * rewrite Z.add_0_r. rewrite Q by lia. destruct (Z.eqb_spec (ss_pos s) (ss_pos s + 1)); [lia|]. now rewrite Z.eqb_refl.
      * cbn [nth]. rewrite <- V by lia. f_equal. lia.
Qed.
(** C30: whatever text is exported, the block allocated after the counting pass
    is exactly large enough for it and its final zero: no store is out of bounds
    and the block holds the text, zero-terminated *)
Theorem C30_string_exact : forall t junk, Z.of_nat (length t) + 1 < 2 ^ 64 ->
  exists sz s, text_to_string t junk = Ret (sz, s) /\ sz = Z.of_nat (length t) + 1 /\
    (forall k, (k < length t)%nat -> ss_mem s (Z.of_nat k) = nth k t 0) /\ ss_mem s (Z.of_nat (length t)) = 0.
Proof.
  intros t junk Hl. unfold text_to_string. cbv zeta. assert (C : count_text t = Z.of_nat (length t)) by (unfold count_text; rewrite count_len; lia).
  rewrite C. unfold mkprinter_str, storeb. replace ((0 <=? 0) && (0 <? Z.of_nat (length t) + 1)) with true by (symmetry; apply andb_true_iff; rewrite Z.leb_le, Z.ltb_lt; lia).
  cbn [bind]. set (s0 := mkss _ _). destruct (put_all_ok (Z.of_nat (length t) + 1) t s0) as (s' & E & P & Q & V & T); unfold s0 in *; cbn [ss_pos ss_mem] in *; try lia; [reflexivity|].
  rewrite E. cbn [bind]. exists (Z.of_nat (length t) + 1), s'. split; [reflexivity|]. split; [reflexivity|]. split.
  - intros k Hk. rewrite <- V by auto. f_equal.
  - rewrite P in T. exact T.
Qed.
(** C30: the file writer neither overruns its buffer nor loses or reorders
    characters *)
Theorem C30_file_exact : forall t, text_to_file t = Ret t.
Proof.
  intros t. unfold text_to_file. assert (G : forall t p, (length (fk_buf p) <= BUFSZ)%nat -> exists p', putf_all p t = Ret p' /\ fk_out p' ++ fk_buf p' = fk_out p ++ fk_buf p ++ t).
  { clear t. induction t as [|c t IH]; intros p Hp; cbn [putf_all].
    - exists p. now rewrite app_nil_r.
    - unfold myputchr. set (p1 := if Nat.leb BUFSZ (length (fk_buf p)) then myflush p else p).
      assert (E1 : fk_out p1 ++ fk_buf p1 = fk_out p ++ fk_buf p) by (unfold p1, myflush; destruct (Nat.leb _ _); cbn [fk_out fk_buf]; auto; now rewrite app_nil_r).
      assert (L1 : (length (fk_buf p1) < BUFSZ)%nat).
      { unfold p1. destruct (Nat.leb_spec BUFSZ (length (fk_buf p))); [cbn; unfold BUFSZ; lia|lia]. }
      clearbody p1. destruct (Nat.ltb_spec (length (fk_buf p1)) BUFSZ); [|lia]. cbn [bind].
      destruct (IH (mkfk (fk_buf p1 ++ [c]) (fk_out p1))) as (p' & E & Q); [cbn [fk_buf]; rewrite app_length; cbn [length]; lia|].
      exists p'. split; auto. rewrite Q. cbn [fk_out fk_buf]. rewrite !app_assoc, E1. rewrite <- !app_assoc. reflexivity. }
  destruct (G t (mkfk [] [])) as (p' & E & Q); [cbn; lia|]. rewrite E. cbn [bind myflush fk_out fk_buf] in *. now rewrite Q.
Qed.

(** non-vacuity *)
Example C29_case : (t <- vprint (cs "  (%s %d #x%x #x%M)") [AStr (cs "fftw_codelet_n1_16"); AInt (-12); AU 0x1bdd; AMd5 0x98500190];; Ret (t, scan (cs "(%*s %d #x%x #x%M)") [64] (t ++ cs "(rest")))
  = Ret (cs "  (fftw_codelet_n1_16 -12 #x1bdd #x98500190)",
         Ret (Some [VStr (cs "fftw_codelet_n1_16"); VInt (-12); VInt 0x1bdd; VMd5 0x98500190], cs "(rest")).
Proof. vm_compute. reflexivity. Qed.
Example C30_case : (r <- text_to_string (cs "(fftw)") (fun _ => 99);; Ret (fst r, map (ss_mem (snd r)) [0; 1; 5; 6])) = Ret (7, [40; 102; 41; 0]).
Proof. vm_compute. reflexivity. Qed.

Print Assumptions C29_int.
Print Assumptions C29_read_hex.
Print Assumptions C29_hash_word.
Print Assumptions C29_flags_word.
Print Assumptions C29_percent_d.
Print Assumptions C29_name.
Print Assumptions C29_name_bounded.
Print Assumptions C29_file_chunking.
Print Assumptions C29_string_source.
Print Assumptions C30_string_exact.
Print Assumptions C30_file_exact.
