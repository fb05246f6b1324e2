(** * Importing a sequence of exported records *)
From Coq Require Import String ZArith List Lia Bool Permutation.
From Verif Require Import Base SpecWisdom SpecMd5 HashModel HashProofs Md5Model TextModel PropText PropMd5 PropWisdom Offs NumTheory PlannerModel PlannerScope SpecImport ImportModel ImportScan ImportProofs ImportRound.
Import ListNotations.
Open Scope Z_scope.

(** ** registries *)
Section Reg.
Context {P B : Type}.
Notation registry := (registry P B).
Notation table := (list (list Z * list (nat * (P -> prog P B)))).
Definition nm (d : slvdesc P B) : list Z * Z := (sd_nam d, sd_id d).
Lemma reg_list (l : list (nat * (P -> prog P B))) : forall rg : registry,
  let rg' := fold_left (fun rg s => register_solver rg (fst s) (snd s)) l rg in
  map nm (rg_descs rg') = map nm (rg_descs rg) ++ map (fun i => (rg_nam rg, rg_id rg + Z.of_nat i)) (seq 0 (length l)) /\
  (Forall (fun d => sd_hash d = hash_str (sd_nam d)) (rg_descs rg) -> Forall (fun d => sd_hash d = hash_str (sd_nam d)) (rg_descs rg')).
Proof.
  induction l as [|x l IH]; intros rg; cbn [fold_left length seq map].
  - split; [now rewrite app_nil_r|auto].
  - destruct (IH (register_solver rg (fst x) (snd x))) as [I1 I2]. split.
    + rewrite I1. unfold register_solver at 1. cbn [rg_descs rg_nam rg_id]. rewrite map_app, <- app_assoc. f_equal. cbn [map app nm sd_nam sd_id]. f_equal.
      * apply (f_equal (pair (rg_nam rg))). cbn [sd_id]. lia.
      * rewrite <- seq_shift, map_map. apply map_ext. intros i. cbn [register_solver rg_nam rg_id]. apply (f_equal (pair (rg_nam rg))). lia.
    + intros F. apply I2. cbn [register_solver rg_descs]. apply Forall_app. split; [exact F|]. constructor; [reflexivity|constructor].
Qed.
Lemma exec_list (tbl : table) : forall rg : registry,
  map nm (rg_descs (solvtab_exec tbl rg)) = map nm (rg_descs rg) ++ solver_names tbl /\
  (Forall (fun d => sd_hash d = hash_str (sd_nam d)) (rg_descs rg) -> Forall (fun d => sd_hash d = hash_str (sd_nam d)) (rg_descs (solvtab_exec tbl rg))).
Proof.
  unfold solvtab_exec. induction tbl as [|x tbl IH]; intros rg; cbn [fold_left solver_names flat_map].
  - split; [now rewrite app_nil_r|auto].
  - set (rg1 := fold_left _ (snd x) _). destruct (IH rg1) as [I1 I2]. destruct (reg_list (snd x) (mkrg (rg_descs rg) (rg_heads rg) (fst x) 0)) as [R1 R2]. fold rg1 in R1, R2. cbn [rg_descs rg_nam rg_id] in *.
    split; [|auto]. rewrite I1, R1, <- app_assoc. reflexivity.
Qed.
Lemma exec_names (tbl : table) : map nm (rg_descs (solvtab_exec tbl no_solvers)) = solver_names tbl.
Proof. now rewrite (proj1 (exec_list tbl no_solvers)). Qed.
Lemma exec_hash (tbl : table) : Forall (fun d => sd_hash d = hash_str (sd_nam d)) (rg_descs (solvtab_exec tbl no_solvers)).
Proof. apply exec_list. constructor. Qed.
Lemma names_length (tbl : table) : length (solver_names tbl) = length (flat_map snd tbl).
Proof.
  unfold solver_names. induction tbl as [|x tbl IH]; cbn [flat_map]; [reflexivity|]. rewrite !app_length, IH, map_length, seq_length. reflexivity.
Qed.
Lemma exec_length (tbl : table) : length (rg_descs (solvtab_exec tbl no_solvers)) = length (flat_map snd tbl).
Proof. rewrite <- (map_length nm), exec_names. apply names_length. Qed.
Lemma names_NoDup (tbl : table) : NoDup (map fst tbl) -> NoDup (solver_names tbl).
Proof.
  unfold solver_names. induction tbl as [|x tbl IH]; cbn [flat_map map]; intros H; [constructor|]. inversion H as [|? ? N1 N2]; subst.
  assert (D : forall (a b : list (list Z * Z)), NoDup a -> NoDup b -> (forall y, In y a -> ~ In y b) -> NoDup (a ++ b)).
  { induction a as [|y a IHa]; intros b Na Nb Hd; cbn [app]; auto. inversion Na; subst. constructor.
    - intros Q. apply in_app_or in Q as [Q|Q]; [contradiction|]. exact (Hd y (or_introl eq_refl) Q).
    - apply IHa; auto. intros z Hz. apply Hd. now right. }
  apply D; auto.
  - apply FinFun.Injective_map_NoDup; [|apply seq_NoDup]. intros i j Q. injection Q as Q. lia.
  - intros [a i] Hy Q. apply in_map_iff in Hy as (j & Q1 & _). injection Q1 as <- _. apply in_flat_map in Q as (y & Hy & Q). apply in_map_iff in Q as (j' & Q1 & _). injection Q1 as E _.
    apply N1. rewrite <- E. apply in_map_iff. eauto.
Qed.
Lemma names_in (tbl : table) a i : In (a, i) (solver_names tbl) -> exists x, In x tbl /\ a = fst x /\ 0 <= i < Z.of_nat (length (flat_map snd tbl)).
Proof.
  unfold solver_names. intros H. apply in_flat_map in H as (x & Hx & H). apply in_map_iff in H as (j & Q & Hj). injection Q as <- <-. exists x. split; auto. split; auto.
  apply in_seq in Hj. assert (L : (length (snd x) <= length (flat_map snd tbl))%nat).
  { clear -Hx. induction tbl as [|y tbl IH]; [destruct Hx|]. cbn [flat_map]. rewrite app_length. destruct Hx as [->|Hx]; [lia|]. specialize (IH Hx). lia. }
  lia.
Qed.
Lemma str_eqb_iff a : forall b, str_eqb a b = true <-> a = b.
Proof.
  induction a as [|x a IH]; intros [|y b]; cbn [str_eqb]; try (split; congruence). rewrite andb_true_iff, Z.eqb_eq, IH. split; [intros [-> ->]; auto|intros H; injection H; auto].
Qed.
Lemma slookup_loop_nth l : forall n k d, NoDup (map nm l) -> Forall (fun d => sd_hash d = hash_str (sd_nam d)) l -> nth_error l k = Some d ->
  slookup_loop l n (sd_nam d) (hash_str (sd_nam d)) (sd_id d) = n + Z.of_nat k.
Proof.
  induction l as [|x l IH]; intros n k d ND FH Hk; [destruct k; discriminate|]. cbn [slookup_loop]. inversion ND as [|? ? N1 N2]; subst. inversion FH as [|? ? F1 F2]; subst.
  destruct k as [|k]; cbn [nth_error] in Hk.
  - injection Hk as ->. rewrite Z.eqb_refl, F1, Z.eqb_refl. replace (str_eqb (sd_nam d) (sd_nam d)) with true by (symmetry; now apply str_eqb_iff). cbn [andb]. lia.
  - replace ((sd_id x =? sd_id d) && (sd_hash x =? hash_str (sd_nam d)) && str_eqb (sd_nam x) (sd_nam d)) with false.
    + rewrite (IH (n + 1) k d); auto. lia.
    + symmetry. apply not_true_iff_false. intros Q. apply andb_true_iff in Q as [Q Q3]. apply andb_true_iff in Q as [Q1 _]. apply Z.eqb_eq in Q1. apply str_eqb_iff in Q3.
      apply N1. replace (nm x) with (nm d) by (unfold nm; congruence). apply in_map. eapply nth_error_In; eauto.
Qed.

(** ** one exported line *)
Variable tbl : table.
Hypothesis HT : usable tbl.
Let rg : registry := solvtab_exec tbl no_solvers.
Let nsl : Z := Z.of_nat (length (flat_map snd tbl)).
Lemma nice_name s : Forall nice s -> Forall name_char s.
Proof. intros H. eapply Forall_impl; [|exact H]. auto. Qed.
Lemma c_string_nice s : Forall nice s -> c_string s = s.
Proof.
  induction 1 as [|c s Hc Hs IH]; cbn [c_string]; [reflexivity|]. destruct (Z.eqb_spec c 0) as [->|]; [unfold nice in Hc; lia|]. now rewrite IH.
Qed.
Definition LineOf (r : record) (t : list Z) : Prop :=
  exists t' nam id, t = 32 :: 32 :: t' /\ import_solver rg (c_string nam) id (rtl r) = Some (rndx r) /\
    forall rest, starts 40 (t' ++ rest) /\
      scan line_in_fmt [MAXNAM] (t' ++ rest) = Ret (Some [VStr nam; VInt id; VInt (to_int (rl r)); VInt (to_int (ru r)); VInt (to_int (rtl r)); VMd5 (s0 (rkey r)); VMd5 (s1 (rkey r)); VMd5 (s2 (rkey r)); VMd5 (s3 (rkey r))], 10 :: rest).
Lemma RT_line r nam id : representable r -> Forall name_char nam -> Z.of_nat (length nam) <= MAXNAM -> - 2 ^ 31 <= id < 2 ^ 31 ->
  import_solver rg (c_string nam) id (rtl r) = Some (rndx r) ->
  exists t, vprint line_fmt [AStr nam; AInt id; AU (rl r); AU (ru r); AU (rtl r); AMd5 (s0 (rkey r)); AMd5 (s1 (rkey r)); AMd5 (s2 (rkey r)); AMd5 (s3 (rkey r))] = Ret t /\ LineOf r t.
Proof.
  intros (H1 & H2 & H3 & H4 & H5 & H6 & H7) Hn Hm Hi Hs.
  destruct (line_round nam id (rl r) (ru r) (rtl r) (s0 (rkey r)) (s1 (rkey r)) (s2 (rkey r)) (s3 (rkey r))) as (t & Et & Ht); auto; try lia.
  exists (32 :: 32 :: t). rewrite line_fmt_body. rewrite !vprint_chr, Et by discriminate. split; [reflexivity|].
  exists t, nam, id. split; auto. split; auto. intros rest. destruct (Ht rest) as [Q1 Q2]. split; auto. exact (Q2 []).
Qed.
Lemma export_line_ok l : slive l = true -> representable (rec_of l) -> names_solver nsl (rec_of l) ->
  exists t, export_line rg l = Ret t /\ LineOf (rec_of l) t.
Proof.
  intros Hl Hr Hn. unfold export_line. rewrite Hl. destruct HT as (T1 & T2 & T3).
  destruct (Z.eqb_spec (sndx l) INFEASIBLE_SLVNDX) as [Ei|Ei].
  - cbn [bind fst snd]. apply (RT_line (rec_of l) stimeout 0 Hr).
    + apply nice_name. vm_compute. repeat constructor; discriminate.
    + vm_compute. discriminate.
    + lia.
    + cbn [rec_of rndx]. rewrite Ei. reflexivity.
  - destruct Hn as [Hn|[Hn Ht]]; [unfold infeasible in Hn; cbn in Hn; contradiction|]. cbn [rec_of rndx rtl] in Hn, Ht.
    unfold desc_at. destruct (Z.leb_spec 0 (sndx l)); [|lia].
    destruct (nth_error (rg_descs rg) (Z.to_nat (sndx l))) as [d|] eqn:Ed.
    2:{ apply nth_error_None in Ed. unfold rg in Ed. rewrite exec_length in Ed. unfold nsl in Hn. lia. }
    cbn [bind fst snd].
    assert (Hin : In (nm d) (solver_names tbl)) by (rewrite <- exec_names; apply in_map; eapply nth_error_In; exact Ed).
    unfold nm in Hin. apply names_in in Hin as (x & Hx & Ex & Hid). destruct (T2 x Hx) as (Hc & HL & Hto). rewrite <- Ex in *.
    apply (RT_line (rec_of l) (sd_nam d) (sd_id d) Hr); [now apply nice_name|unfold MAXNAM; lia|lia|].
    rewrite c_string_nice by auto. unfold import_solver. replace (str_eqb (sd_nam d) stimeout) with false.
    2:{ symmetry. apply not_true_iff_false. intros Q. apply str_eqb_iff in Q. contradiction. }
    cbn [andb rec_of rtl rndx]. rewrite Ht. change (negb (0 =? 0)) with false. cbv iota. unfold slookup.
    rewrite (slookup_loop_nth (rg_descs rg) 0 (Z.to_nat (sndx l)) d); auto.
    + rewrite Z2Nat.id by lia. rewrite Z.add_0_l. destruct (Z.eqb_spec (sndx l) INFEASIBLE_SLVNDX); [contradiction|reflexivity].
    + unfold rg. rewrite exec_names. now apply names_NoDup.
    + apply exec_hash.
Qed.
(** ** the whole table *)
Lemma export_loop_ok ht : (forall r, In r (records ht) -> representable r /\ names_solver nsl r) ->
  forall cnt h, 0 <= h -> h + Z.of_nat cnt <= hashsiz ht ->
  exists ts, export_loop cnt h rg ht = Ret (concat ts) /\ Forall2 LineOf (map (fun g => rec_of (sols ht g)) (filter (live_at ht) (zrange h cnt))) ts.
Proof.
  intros HR. induction cnt as [|cnt IH]; intros h Hh Hc; cbn [export_loop].
  - exists []. split; [reflexivity|constructor].
  - rewrite slot_at_ok by lia. cbn [bind]. destruct (IH (h + 1)) as (ts & Et & Ft); [lia|lia|].
    assert (Z1 : zrange h (S cnt) = h :: zrange (h + 1) cnt).
    { unfold zrange. cbn [seq map]. f_equal; [lia|]. rewrite <- seq_shift, map_map. apply map_ext. intros i. lia. }
    rewrite Z1. cbn [filter]. destruct (live_at ht h) eqn:Lh.
    + destruct (HR (rec_of (sols ht h))) as [R1 R2]. { apply in_records. exists h. split; [lia|]. split; auto. }
      destruct (export_line_ok (sols ht h) Lh R1 R2) as (t & E1 & L1). rewrite E1. cbn [bind]. rewrite Et. cbn [bind]. exists (t :: ts). split; [reflexivity|].
      cbn [map]. constructor; auto.
    + unfold export_line. unfold live_at in Lh. rewrite Lh. cbn [bind]. rewrite Et. cbn [bind app]. exists ts. split; auto.
Qed.

(** ** absorbing records *)
Definition absorb (s : st) (r : record) : out st :=
  let f := mkfl (rl r) (ru r) (rtl r) true in
  o <- hlookup s (rkey r) f;; match o with Some _ => Ret s | None => hinsert s (rkey r) f (rndx r) end.
Fixpoint absorb_all (rs : list record) (s : st) : out st :=
  match rs with [] => Ret s | r :: rs' => s' <- absorb s r;; absorb_all rs' s' end.
Lemma unsigned_int x : 0 <= x < 2 ^ 32 -> to_unsigned (to_int x) = x.
Proof. intros H. unfold to_unsigned, to_int. rewrite Zminus_mod_idemp_l. replace (x + 2 ^ 31 - 2 ^ 31) with x by lia. apply Z.mod_small. lia. Qed.
Lemma import_record_absorb s r : representable r -> import_record s (rkey r) (rl r) (ru r) (rtl r) (rndx r) = (s' <- absorb s r;; Ret (Some s')).
Proof.
  intros (H1 & H2 & H3 & _). unfold import_record, absorb. destruct (Z.ltb_spec (rl r) (2 ^ 20)); [|lia]. destruct (Z.ltb_spec (ru r) (2 ^ 20)); [|lia].
  destruct (Z.ltb_spec (rtl r) (2 ^ 9)); [|lia]. cbn [andb]. destruct (hlookup s (rkey r) _) as [[x|]| |]; reflexivity.
Qed.
Lemma scan_close_no l l' : eat_blanks l = 40 :: l' -> scan (cs ")") [] l = Ret (None, 40 :: l').
Proof.
  intros H. unfold scan. change (cs ")") with [41]. rewrite vscan_chr by discriminate. unfold scan_char. change (isspace 41 || (41 =? 40) || (41 =? 41)) with true.
  change (isspace 41) with false. cbv iota. rewrite H. reflexivity.
Qed.
Lemma scan_close_yes l l' : eat_blanks l = 41 :: l' -> scan (cs ")") [] l = Ret (Some [], l').
Proof.
  intros H. unfold scan. change (cs ")") with [41]. rewrite vscan_chr by discriminate. unfold scan_char. change (isspace 41 || (41 =? 40) || (41 =? 41)) with true.
  change (isspace 41) with false. cbv iota. rewrite H. reflexivity.
Qed.
Lemma eat_sp c l : isspace c = true -> eat_blanks (c :: l) = eat_blanks l.
Proof. intros H. cbn [eat_blanks]. now rewrite H. Qed.
Lemma eat_starts c l : isspace c = false -> c <> EOF -> starts c l -> eat_blanks l = l.
Proof. intros H1 H2 H3. apply (starts_solid c); auto. Qed.
Lemma import_lines old rest : forall rs ts, Forall2 LineOf rs ts -> Forall representable rs -> forall fuel s X, (length rs < fuel)%nat ->
  eat_blanks X = eat_blanks (concat ts ++ 41 :: 10 :: rest) ->
  import_loop fuel rg old s X = (s' <- absorb_all rs s;; Ret (Some true, 10 :: rest, s')).
Proof.
  induction 1 as [|r t rs ts Ht Hts IH]; intros HR fuel s X Hf HX; (destruct fuel as [|fuel]; [cbn in Hf; lia|]); cbn [import_loop absorb_all].
  - rewrite (scan_close_yes X (10 :: rest)) by exact HX. reflexivity.
  - inversion HR as [|? ? R1 R2]; subst. destruct Ht as (t' & nam & id & -> & Es & Hsc).
    set (more := concat ts ++ 41 :: 10 :: rest). destruct (Hsc more) as [St Sc].
    assert (EX : eat_blanks X = t' ++ more).
    { rewrite HX. cbn [concat app]. rewrite <- app_assoc. fold more. rewrite !eat_sp by reflexivity. apply (eat_starts 40); auto; discriminate. }
    assert (E0 : exists l', t' ++ more = 40 :: l') by exact St. destruct E0 as (l' & E0).
    rewrite (scan_close_no X l') by congruence. cbn [bind fst snd]. rewrite <- E0, Sc. cbn [bind].
    destruct (R1) as (Q1 & Q2 & Q3 & _). rewrite !unsigned_int by lia. rewrite Es.
    replace (mksig (s0 (rkey r)) (s1 (rkey r)) (s2 (rkey r)) (s3 (rkey r))) with (rkey r) by (destruct (rkey r); reflexivity).
    rewrite import_record_absorb by auto. destruct (absorb s r) as [s1| |]; cbn [bind]; try reflexivity.
    apply IH; [exact R2|cbn in Hf; lia|]. rewrite eat_sp by reflexivity. reflexivity.
Qed.
End Reg.
