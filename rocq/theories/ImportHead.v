(** * What an accepted header looks like; the configuration is determined by its bytes *)
From Coq Require Import String ZArith List Lia Bool Permutation.
From Verif Require Import Base SpecWisdom HashModel Md5Model TextModel PropText PlannerModel PlannerScope SpecImport ImportModel ImportScan ImportProofs ImportRound ImportMerge.
Import ListNotations.
Open Scope Z_scope.

Lemma eat_gap l : exists g, l = g ++ eat_blanks l /\ Forall ignored g.
Proof.
  induction l as [|c l (g & E & F)]; [exists []; split; [reflexivity|constructor]|]. cbn [eat_blanks]. destruct (isspace c) eqn:S.
  - exists (c :: g). split; [cbn; congruence|]. constructor; auto. unfold isspace in S. apply andb_true_iff in S as [S1 S2]. apply Z.leb_le in S1, S2. left. lia.
  - unfold ungetc. destruct (Z.eqb_spec c EOF) as [->|].
    + exists [EOF]. split; [reflexivity|]. constructor; [right; reflexivity|constructor].
    + exists []. split; [reflexivity|constructor].
Qed.
Lemma inv_space c s st acc l vs l' : isspace c = true -> c <> 37 -> vscan (c :: s) st acc l = Ret (Some vs, l') ->
  exists g l1, l = g ++ l1 /\ Forall ignored g /\ vscan s st acc l1 = Ret (Some vs, l').
Proof.
  intros S N H. rewrite vscan_chr in H by auto. unfold scan_char in H. rewrite S in H. cbn [orb] in H. destruct (eat_gap l) as (g & E & F). exists g, (eat_blanks l). auto.
Qed.
Lemma inv_char c (l1 : list Z) : c <> EOF -> (let '(ch, l2) := getc l1 in if ch =? c then (true, l2) else (false, ungetc ch l2)) = (true, tl l1) \/
  fst (let '(ch, l2) := getc l1 in if ch =? c then (true, l2) else (false, ungetc ch l2)) = false.
Proof.
  intros N. destruct l1 as [|x l1]; cbn [getc tl]; [destruct (Z.eqb_spec EOF c); [congruence|now right]|]. destruct (x =? c); auto.
Qed.
Lemma inv_lit c s st acc l vs l' : isspace c = false -> c <> 37 -> c <> EOF -> c <> 40 -> c <> 41 -> vscan (c :: s) st acc l = Ret (Some vs, l') ->
  exists l1, l = c :: l1 /\ vscan s st acc l1 = Ret (Some vs, l').
Proof.
  intros S N NE N1 N2 H. rewrite vscan_chr in H by auto. unfold scan_char in H. rewrite S in H. destruct (Z.eqb_spec c 40); [congruence|]. destruct (Z.eqb_spec c 41); [congruence|]. cbn [orb] in H.
  destruct l as [|x l]; cbn [getc] in H.
  - destruct (Z.eqb_spec EOF c); [congruence|discriminate].
  - destruct (Z.eqb_spec x c) as [->|]; [|discriminate]. exists l. auto.
Qed.
Lemma inv_open s st acc l vs l' : vscan (40 :: s) st acc l = Ret (Some vs, l') ->
  exists g l1, l = g ++ 40 :: l1 /\ Forall ignored g /\ vscan s st acc l1 = Ret (Some vs, l').
Proof.
  intros H. rewrite vscan_chr in H by discriminate. unfold scan_char in H. change (isspace 40) with false in H. cbn [orb] in H. change (40 =? 40) with true in H. cbv iota in H. cbn [orb] in H.
  destruct (eat_gap l) as (g & E & F). destruct (eat_blanks l) as [|x l1]; cbn [getc] in H.
  - change (EOF =? 40) with false in H. discriminate.
  - destruct (Z.eqb_spec x 40) as [->|]; [|discriminate]. exists g, l1. auto.
Qed.
Lemma alnum_iff c : letter_or_digit c <-> digit_of c <> None.
Proof.
  unfold letter_or_digit, digit_of, isdigit, isupper, islower.
  destruct (Z.leb_spec 48 c), (Z.leb_spec c 57), (Z.leb_spec 65 c), (Z.leb_spec c 90), (Z.leb_spec 97 c), (Z.leb_spec c 122); cbn; split; intros; try lia; try congruence.
Qed.
Lemma digit_val c d : digit_of c = Some d -> digit_value c = d.
Proof.
  unfold digit_value, digit_of, isdigit, isupper, islower.
  destruct (Z.leb_spec 48 c), (Z.leb_spec c 57), (Z.leb_spec 65 c), (Z.leb_spec c 90), (Z.leb_spec 97 c), (Z.leb_spec c 122); cbn; intros H'; inversion H'; lia.
Qed.
Definition quiet (l : list Z) : Prop := match l with [] => True | c :: _ => ~ letter_or_digit c end.
Lemma digits_inv b : forall l x cnt y ok l', digits_loop l b x cnt = Ret (y, ok, l') ->
  exists ds g, l = ds ++ g ++ l' /\ Forall letter_or_digit ds /\ y = fold_left (fun x c => x * b + digit_value c) ds x /\ (g = [] \/ g = [EOF]) /\ (ok = true -> cnt = true \/ ds <> []) /\ quiet (g ++ l').
Proof.
  induction l as [|c l IH]; intros x cnt y ok l' H; cbn [digits_loop] in H.
  - inversion H; subst. exists [], []. cbn. split; auto. split; [constructor|]. auto.
  - destruct (digit_of c) as [d|] eqn:D.
    + ib H z1 E1. ib H z2 E2. apply IH in H as (ds & g & E & F & V & G & O & Q). exists (c :: ds), g.
      assert (Z1 : z1 = x * b) by (unfold ckl in E1; destruct (_ && _) in E1; inversion E1; reflexivity).
      assert (Z2 : z2 = z1 + d) by (unfold ckl in E2; destruct (_ && _) in E2; inversion E2; reflexivity).
      split; [cbn; congruence|]. split; [constructor; auto; apply alnum_iff; congruence|].
      split; [cbn [fold_left]; rewrite (digit_val c d D), <- Z1, <- Z2; exact V|]. split; auto. split; auto. intros _. right. discriminate.
    + inversion H; subst. unfold ungetc. assert (NL : ~ letter_or_digit c) by (intros Q; apply alnum_iff in Q; congruence). destruct (Z.eqb_spec c EOF) as [->|].
      * exists [], [EOF]. cbn. split; auto. split; [constructor|]. split; auto.
      * exists [], []. cbn. split; auto. split; [constructor|]. split; auto.
Qed.
Lemma land_mod x : Z.land 0xFFFFFFFF x = x mod 2 ^ 32.
Proof. rewrite Z.land_comm. change 0xFFFFFFFF with (Z.ones 32). now rewrite Z.land_ones by lia. Qed.
Lemma fold16 ds : forall x, fold_left (fun x c => x * 16 + digit_value c) ds x = fold_left (fun x c => 16 * x + digit_value c) ds x.
Proof. induction ds as [|c ds IH]; intros x; cbn [fold_left]; [reflexivity|]. rewrite IH. f_equal. lia. Qed.
Lemma inv_M s st acc l vs l' : vscan (37 :: 77 :: s) st acc l = Ret (Some vs, l') ->
  exists t w g l1, l = t ++ g ++ l1 /\ hex_numeral t w /\ Forall ignored g /\ quiet (g ++ l1) /\ vscan s st (acc ++ [VMd5 w]) l1 = Ret (Some vs, l').
Proof.
  intros H. rewrite vscan_pct in H by discriminate. unfold scan_item in H. change (77 =? 115) with false in H. change (77 =? 100) with false in H. change (77 =? 120) with false in H. change (77 =? 77) with true in H. cbv iota in H.
  destruct (getlong l 16) as [[[x ok] r]| |] eqn:E; try discriminate. cbn [bind] in H. destruct ok; [|discriminate].
  unfold getlong in E. destruct (getc l) as [ch l1] eqn:G.
  assert (K : exists sg sign l2, l = sg ++ l2 /\ ((sg = [] /\ sign = 1) \/ (sg = cs "+" /\ sign = 1) \/ (sg = cs "-" /\ sign = -1)) /\ (r0 <- digits_loop l2 16 0 false;; (let '(x0, ok0, l3) := r0 in x' <- ckl (x0 * sign);; Ret (x', ok0, l3))) = Ret (x, true, r)).
  { destruct ((ch =? 45) || (ch =? 43)) eqn:C; cbn beta iota in E.
    - destruct l as [|c l]; cbn in G; [injection G as <- <-; discriminate C|]. injection G as -> ->. destruct (Z.eqb_spec ch 45) as [->|].
      + exists [45], (-1), l1. split; [reflexivity|]. split; [right; right; split; reflexivity|exact E].
      + cbn [orb] in C. apply Z.eqb_eq in C. subst ch. exists [43], 1, l1. split; [reflexivity|]. split; [right; left; split; reflexivity|exact E].
    - exists [], 1, l. split; [reflexivity|]. split; [left; auto|exact E]. }
  destruct K as (sg & sign & l2 & -> & HS & K). ib K r0 E0. destruct r0 as [[x0 ok0] l3]. ib K x' Ex. assert (X' : x' = x0 * sign) by (unfold ckl in Ex; destruct (_ && _) in Ex; inversion Ex; reflexivity).
  assert (Q1 : x' = x) by congruence. assert (Q2 : ok0 = true) by congruence. assert (Q3 : l3 = r) by congruence. subst ok0 l3. clear K Ex G E.
  apply digits_inv in E0 as (ds & g & -> & F & V & HG & O & Q). exists (sg ++ ds), (Z.land 0xFFFFFFFF x), g, r. rewrite <- !app_assoc. split; [reflexivity|].
  split; [|split; [|split; [exact Q|exact H]]].
  - exists sg, ds, sign. split; auto. split; auto. split; [destruct (O eq_refl); [discriminate|assumption]|]. split; auto. rewrite land_mod. rewrite <- Q1, X', V, fold16. f_equal. lia.
  - destruct HG as [->| ->]; constructor; [right; reflexivity|constructor].
Qed.
Lemma header_list2 : header_fmt = [40; 102; 102; 116; 119; 45; 51; 46; 51; 46; 49; 49; 32; 102; 102; 116; 119; 95; 119; 105; 115; 100; 111; 109; 32; 35; 120; 37; 77; 32; 35; 120; 37; 77; 32; 35; 120; 37; 77; 32; 35; 120; 37; 77; 10].
Proof. vm_compute. reflexivity. Qed.
Lemma vscan_nil st acc l vs l' : vscan [] st acc l = Ret (Some vs, l') -> vs = acc /\ l' = l.
Proof. cbn [vscan]. intros H. split; congruence. Qed.
Lemma header_headed l m l' : scan header_fmt [] l = Ret (Some [VMd5 (s0 m); VMd5 (s1 m); VMd5 (s2 m); VMd5 (s3 m)], l') -> headed m l.
Proof.
  rewrite header_list2. unfold scan. intros H.
  apply inv_open in H as (g0 & l0 & -> & F0 & H).
  repeat (apply inv_lit in H as (? & -> & H); [|reflexivity|discriminate..]).
  apply inv_space in H as (g1 & l1 & -> & F1 & H); [|reflexivity|discriminate].
  repeat (apply inv_lit in H as (? & -> & H); [|reflexivity|discriminate..]).
  apply inv_space in H as (g2 & l2 & -> & F2 & H); [|reflexivity|discriminate].
  repeat (apply inv_lit in H as (? & -> & H); [|reflexivity|discriminate..]).
  apply inv_M in H as (n0 & w0 & h0 & k0 & -> & M0 & G0 & _ & H).
  apply inv_space in H as (g3 & l3 & -> & F3 & H); [|reflexivity|discriminate].
  repeat (apply inv_lit in H as (? & -> & H); [|reflexivity|discriminate..]).
  apply inv_M in H as (n1 & w1 & h1 & k1 & -> & M1 & G1 & _ & H).
  apply inv_space in H as (g4 & l4 & -> & F4 & H); [|reflexivity|discriminate].
  repeat (apply inv_lit in H as (? & -> & H); [|reflexivity|discriminate..]).
  apply inv_M in H as (n2 & w2 & h2 & k2 & -> & M2 & G2 & _ & H).
  apply inv_space in H as (g5 & l5 & -> & F5 & H); [|reflexivity|discriminate].
  repeat (apply inv_lit in H as (? & -> & H); [|reflexivity|discriminate..]).
  apply inv_M in H as (n3 & w3 & h3 & k3 & -> & M3 & G3 & Q3 & H).
  apply inv_space in H as (g6 & l6 & -> & F6 & H); [|reflexivity|discriminate].
  apply vscan_nil in H as [H _]. cbn [app] in H. injection H as E0 E1 E2 E3.
  exists g0, g1, g2, n0, (h0 ++ g3), n1, (h1 ++ g4), n2, (h2 ++ g5), n3, (h3 ++ g6 ++ l6).
  rewrite E0, E1, E2, E3. split; [|split; [|split; [exact M0|split; [exact M1|split; [exact M2|split; [exact M3|exact Q3]]]]]].
  - rewrite <- !app_assoc. reflexivity.
  - rewrite !Forall_app. auto 20.
Qed.

(** ** the bytes of a configuration determine the solvers *)
Lemma le32_inj a b x y : 0 <= a < 2 ^ 32 -> 0 <= b < 2 ^ 32 -> le32 a ++ x = le32 b ++ y -> a = b /\ x = y.
Proof.
  intros Ha Hb H. unfold le32 in H. cbn [seq map app] in H. injection H as E0 E1 E2 E3 ->. split; auto.
  cbn [Z.of_nat Pos.of_succ_nat Z.mul Pos.mul Pos.add Z.pow Z.pow_pos Pos.iter Pos.succ] in *. Z.div_mod_to_equations. lia.
Qed.
Lemma name_inj : forall a b x y, Forall nice a -> Forall nice b -> map (fun c => c mod 256) a ++ 0 :: x = map (fun c => c mod 256) b ++ 0 :: y -> a = b /\ x = y.
Proof.
  assert (M : forall c, nice c -> c mod 256 = c) by (intros c [Hc _]; apply Z.mod_small; lia).
  induction a as [|c a IH]; intros b x y Fa Fb H; destruct b as [|d b]; cbn [map app] in H.
  - injection H as ->. auto.
  - inversion Fb as [|? ? Hd _]; subst. rewrite (M d Hd) in H. injection H as E _. destruct Hd as [Hd _]. lia.
  - inversion Fa as [|? ? Hd _]; subst. rewrite (M c Hd) in H. injection H as E _. destruct Hd as [Hd _]. lia.
  - inversion Fa as [|? ? Hc Fa']; inversion Fb as [|? ? Hd Fb']; subst. rewrite (M c Hc), (M d Hd) in H. injection H as -> H. apply IH in H as [-> ->]; auto.
Qed.
Lemma config_inj : forall n1 n2, (forall x, In x n1 -> Forall nice (fst x) /\ 0 <= snd x < 2 ^ 32) -> (forall x, In x n2 -> Forall nice (fst x) /\ 0 <= snd x < 2 ^ 32) ->
  config_bytes n1 = config_bytes n2 -> n1 = n2.
Proof.
  unfold config_bytes. intros n1 n2 H1 H2 H. apply le32_inj in H as [_ H]; [|lia|lia]. revert n2 H1 H2 H.
  induction n1 as [|[a i] n1 IH]; intros [|[b j] n2] H1 H2 H; cbn [map concat fst snd] in H.
  - reflexivity.
  - exfalso. unfold le32 in H. cbn in H. discriminate.
  - exfalso. unfold le32 in H. cbn in H. discriminate.
  - destruct (H1 (a, i) (or_introl eq_refl)) as [Fa Ri]. destruct (H2 (b, j) (or_introl eq_refl)) as [Fb Rj]. cbn [fst snd] in *. rewrite <- !app_assoc in H. apply le32_inj in H as [-> H]; auto.
    cbn [app] in H. apply name_inj in H as [-> H]; auto. f_equal. apply IH; auto; intros x Hx; [apply H1|apply H2]; now right.
Qed.
