(** * Import of arbitrary text: no effect on failure, no divergence, invariants *)
From Coq Require Import String ZArith List Lia Bool Permutation.
From Verif Require Import Base SpecWisdom HashModel HashProofs Md5Model TextModel PropText PlannerModel PlannerScope PlannerSafe ImportModel ImportScan.
Import ListNotations.
Open Scope Z_scope.

(** ** MD5 always ends *)
Lemma putc_len p c : m_l (md5putc p c) mod 64 = (m_l p + 1) mod 64.
Proof.
  unfold md5putc. cbn [m_l]. unfold M32. change (2 ^ 32) with (64 * 67108864). rewrite Z.rem_mul_r by lia.
  rewrite Z.mul_comm, Z_mod_plus_full. apply Z.mod_mod. lia.
Qed.
Lemma pad_ret : forall fuel p, (56 - m_l p) mod 64 < Z.of_nat fuel -> exists q, pad_loop fuel p = Ret q.
Proof.
  induction fuel as [|fuel IH]; intros p H.
  - pose proof (Z.mod_pos_bound (56 - m_l p) 64 ltac:(lia)). lia.
  - cbn [pad_loop]. destruct (Z.eqb_spec (m_l p mod 64) 56) as [|N]; [eauto|]. apply IH.
    pose proof (putc_len p 0) as L. rewrite Zminus_mod, L, <- Zminus_mod. replace (56 - (m_l p + 1)) with ((56 - m_l p) - 1) by lia.
    assert (Q : (56 - m_l p) mod 64 <> 0). { intros Q. apply N. clear -Q. Z.div_mod_to_equations. lia. }
    pose proof (Z.mod_pos_bound (56 - m_l p) 64 ltac:(lia)).
    replace ((56 - m_l p - 1) mod 64) with ((56 - m_l p) mod 64 - 1); [lia|].
    clear -Q. Z.div_mod_to_equations. lia.
Qed.
Lemma md5end_total p : exists q, md5end p = Ret q.
Proof.
  unfold md5end. destruct (pad_ret 65 (md5putc p 0x80)) as (q & E); [|rewrite E; cbn [bind]; eauto].
  pose proof (Z.mod_pos_bound (56 - m_l (md5putc p 128)) 64 ltac:(lia)). lia.
Qed.

(** ** the formats *)
Ltac fmt := repeat first [apply F_nil | apply F_star; [lia|] | (eapply F_item; [discriminate|reflexivity|]) | apply F_chr; [discriminate|]].
Lemma header_Fmt : Fmt header_fmt [] [2; 2; 2; 2]%nat.
Proof. cbv [header_fmt WISDOM_PREAMBLE]. vm_compute cs. cbn [app]. fmt. Qed.
Lemma line_Fmt : Fmt line_in_fmt [MAXNAM] [0; 1; 1; 1; 1; 2; 2; 2; 2]%nat.
Proof. cbv [line_in_fmt]. vm_compute cs. unfold MAXNAM. fmt. Qed.
Lemma close_Fmt : Fmt (cs ")") [] [].
Proof. vm_compute cs. fmt. Qed.

(** the same for [scan] *)
Lemma scan_ret fmt st sh l o l' : Fmt fmt st sh -> scan fmt st l = Ret (o, l') ->
  Suf l' l /\ (forall vs, o = Some vs -> map tag vs = sh /\ Forall val_ok vs).
Proof.
  intros F H. unfold scan in H. apply (vscan_ret _ _ _ F) in H as [H1 H2]. split; auto. intros vs Hv. destruct (H2 vs Hv) as (ws & -> & Q). exact Q.
Qed.
Lemma scan_strict c s st sh l vs l' : c <> 37 -> isspace c = false -> c <> EOF -> Fmt s st sh -> scan (c :: s) st l = Ret (Some vs, l') -> (length l' < length l)%nat.
Proof. intros N Hs He F H. unfold scan in H. eapply vscan_strict; eauto. Qed.
Lemma scan_total fmt st sh l : Fmt fmt st sh -> short_words l -> scan fmt st l <> UB.
Proof. intros F Hs. unfold scan. destruct (vscan_total _ _ _ F [] l Hs) as (r & E). rewrite E. discriminate. Qed.
Lemma scan_nodiv fmt st sh l : Fmt fmt st sh -> scan fmt st l <> Diverge.
Proof. intros F. unfold scan. now apply (vscan_nodiv _ _ _ F). Qed.
Lemma shape9 vs : map tag vs = [0; 1; 1; 1; 1; 2; 2; 2; 2]%nat ->
  exists nam id f u tl a b c d, vs = [VStr nam; VInt id; VInt f; VInt u; VInt tl; VMd5 a; VMd5 b; VMd5 c; VMd5 d].
Proof.
  intros T. do 9 (destruct vs as [|[?|?|?] vs]; cbn [map tag] in T; try discriminate). destruct vs; [|discriminate]. repeat eexists.
Qed.
Lemma shape4 vs : map tag vs = [2; 2; 2; 2]%nat -> exists a b c d, vs = [VMd5 a; VMd5 b; VMd5 c; VMd5 d].
Proof.
  intros T. do 4 (destruct vs as [|[?|?|?] vs]; cbn [map tag] in T; try discriminate). destruct vs; [|discriminate]. repeat eexists.
Qed.
Definition line_tail : list Z := tl line_in_fmt.
Lemma line_cons : line_in_fmt = 40 :: line_tail. Proof. vm_compute. reflexivity. Qed.
Lemma tail_Fmt : Fmt line_tail [MAXNAM] [0; 1; 1; 1; 1; 2; 2; 2; 2]%nat.
Proof. vm_compute line_tail. unfold MAXNAM. fmt. Qed.

Section S.
Context {P B : Type}.
Notation registry := (registry P B).
Lemma signature_total (junk : Z -> Z) (rg : registry) : exists m, signature_of_configuration junk rg = Ret m.
Proof.
  unfold signature_of_configuration. destruct (md5end_total (fold_left feed_desc (rg_descs rg) (md5unsigned (md5begin junk) 8))) as (q & E). rewrite E. cbn [bind].
  destruct (m_s q) as [[[a b] c] d]. eauto.
Qed.

(** ** the results of the two scans *)
Lemma line_shape l vs l' : scan line_in_fmt [MAXNAM] l = Ret (Some vs, l') ->
  exists nam id f u tl a b c d, vs = [VStr nam; VInt id; VInt f; VInt u; VInt tl; VMd5 a; VMd5 b; VMd5 c; VMd5 d].
Proof. intros H. apply shape9. exact (proj1 (proj2 (scan_ret _ _ _ _ _ _ line_Fmt H) vs eq_refl)). Qed.
Lemma line_shorter l vs l' : scan line_in_fmt [MAXNAM] l = Ret (Some vs, l') -> (length l' < length l)%nat.
Proof. intros H. rewrite line_cons in H. exact (scan_strict 40 line_tail _ _ l vs l' ltac:(discriminate) eq_refl ltac:(discriminate) tail_Fmt H). Qed.
Lemma header_shape l vs l' : scan header_fmt [] l = Ret (Some vs, l') -> exists a b c d, vs = [VMd5 a; VMd5 b; VMd5 c; VMd5 d].
Proof. intros H. apply shape4. exact (proj1 (proj2 (scan_ret _ _ _ _ _ _ header_Fmt H) vs eq_refl)). Qed.
Lemma scan_suf fmt st sh l o l' : Fmt fmt st sh -> scan fmt st l = Ret (o, l') -> Suf l' l.
Proof. intros F H. exact (proj1 (scan_ret _ _ _ _ _ _ F H)). Qed.

(** ** solver numbers *)
Lemma slookup_loop_range (l : list (slvdesc P B)) nam h id : forall n, slookup_loop l n nam h id = INFEASIBLE_SLVNDX \/ n <= slookup_loop l n nam h id < n + Z.of_nat (length l).
Proof.
  induction l as [|d l IH]; intros n; cbn [slookup_loop length]; [now left|]. destruct (_ && _); [right; lia|]. destruct (IH (n + 1)) as [E|E]; [now left|right; lia].
Qed.
Lemma import_solver_ok (rg : registry) nam id tl n : import_solver rg nam id tl = Some n -> n = 4095 \/ (0 <= n < Z.of_nat (length (rg_descs rg)) /\ tl = 0).
Proof.
  unfold import_solver. destruct (_ && _); [intros H; left; injection H as <-; reflexivity|]. destruct (Z.eqb_spec tl 0); cbn [negb]; [|discriminate].
  destruct (Z.eqb_spec (slookup rg nam id) INFEASIBLE_SLVNDX) as [|N]; [discriminate|]. intros H. injection H as <-. right. split; auto.
  destruct (slookup_loop_range (rg_descs rg) nam (hash_str nam) id 0) as [E|E]; [contradiction|exact E].
Qed.

(** ** only the blessed table *)
Lemma set_tabs_self s : set_tabs s (s_hb s) (s_hu s) = s. Proof. destruct s; reflexivity. Qed.
Lemma set_tabs_tabs s a b : set_tabs (set_tabs s a (s_hu s)) b (s_hu (set_tabs s a (s_hu s))) = set_tabs s b (s_hu s). Proof. reflexivity. Qed.
Lemma hinsert_only s k f n s' : fbless f = true -> hinsert s k f n = Ret s' -> s' = set_tabs s (s_hb s') (s_hu s).
Proof. intros Hb H. unfold hinsert in H. rewrite Hb in H. ib H ht E. inj H. reflexivity. Qed.
Lemma record_only s k l u tl n s' : import_record s k l u tl n = Ret (Some s') -> s' = set_tabs s (s_hb s') (s_hu s).
Proof.
  unfold import_record. intros H. destruct (_ && _); [|discriminate]. ib H r E. destruct r as [x|].
  - inj H. symmetry. apply set_tabs_self.
  - ib H s1 E1. inj H. eapply hinsert_only; [|exact E1]. reflexivity.
Qed.
Lemma loop_ret (rg : registry) old : forall fuel s txt b l' s', import_loop fuel rg old s txt = Ret (b, l', s') ->
  s' = set_tabs s (s_hb s') (s_hu s) /\ (b = Some false -> s_hb s' = old).
Proof.
  induction fuel as [|fuel IH]; intros s txt b l' s' H; cbn [import_loop] in H; [discriminate|].
  ib H r E. destruct (fst r); [inj H; split; [symmetry; apply set_tabs_self|discriminate]|].
  ib H q Eq. destruct q as [[vs|] txt'].
  2:{ inj H. split; [reflexivity|]. intros _. reflexivity. }
  destruct (line_shape _ _ _ Eq) as (nam & id & f & u & tl & x0 & x1 & x2 & x3 & ->).
  destruct (import_solver rg (c_string nam) id (to_unsigned tl)) as [n|].
  2:{ inj H. split; [reflexivity|]. intros _. reflexivity. }
  ib H o Eo. destruct o as [s1|].
  - apply record_only in Eo. apply IH in H as [H1 H2]. split; [|exact H2]. rewrite H1, Eo. reflexivity.
  - inj H. split; [symmetry; apply set_tabs_self|discriminate].
Qed.
Lemma imprt_ret junk (rg : registry) s txt b l' s' : imprt junk rg s txt = Ret (b, l', s') ->
  s' = set_tabs s (s_hb s') (s_hu s) /\ (b = Some false -> s' = s).
Proof.
  unfold imprt. intros H. ib H r E. destruct r as [[vs|] txt'].
  - destruct (header_shape _ _ _ E) as (x0 & x1 & x2 & x3 & ->). ib H m Em. destruct (negb _).
    + inj H. split; [symmetry; apply set_tabs_self|auto].
    + apply loop_ret in H as [H1 H2]. split; [exact H1|]. intros Hb. rewrite H1, (H2 Hb). apply set_tabs_self.
  - inj H. split; [symmetry; apply set_tabs_self|auto].
Qed.
End S.

Section Inv.
Context {P B : Type}.
Variable e : env P B.
Hypothesis HN : nslv e <= 4095.
Hypothesis HD : e_debug e = false.
Notation Inv := (Inv e).
Notation rec_ok := (rec_ok e).
Lemma solver_rec_ok k l u tl n nam id : import_solver (e_reg e) nam id tl = Some n -> rec_ok (mkrec k l u tl n).
Proof.
  intros H. apply import_solver_ok in H. split; cbn [rndx rtl]; [exact H|]. rewrite HD. discriminate.
Qed.
Lemma hinsert_total s k f n : Inv s -> fbless f = true -> rec_ok (mkrec k (fl f) (fu f) (ftl f) n) -> nelem (s_hb s) < 2 ^ 30 ->
  exists s', hinsert s k f n = Ret s' /\ Inv s' /\ nelem (s_hb s') <= nelem (s_hb s) + 1.
Proof.
  intros (H1 & T1 & T2 & H4) Hb Ho Hs. unfold hinsert, insert_guarded. rewrite Hb. destruct (Z.ltb_spec (nelem (s_hb s)) (2 ^ 30)); [|lia].
  assert (Hn : 0 <= n < 2 ^ 12). { destruct Ho as [[Q|Q] _]; cbn in Q; unfold nslv in *; lia. }
  destruct T1 as [W R]. destruct (htab_insert_ok (s_hb s) k f n W Hs Hn) as (ht' & E & W' & Q). rewrite E. cbn [bind]. eexists. split; [reflexivity|]. split.
  - split; [exact H1|]. split; [|split; [exact T2|exact H4]]. cbn. split; [exact W'|]. intros r Hr.
    eapply Permutation_in in Hr; [|exact Q]. destruct Hr as [<-|Hr]; [exact Ho|]. apply filter_In in Hr as [Hr _]. auto.
  - cbn. rewrite (wf_nelem _ W'), (wf_nelem _ W). apply Permutation_length in Q. cbn [length] in Q. rewrite Q.
    assert (F : forall l, (length (filter (fun r => negb (killed_by k f n r)) l) <= length l)%nat) by (induction l as [|x l IH]; cbn; [lia|destruct (negb _); cbn; lia]).
    specialize (F (records (s_hb s))). lia.
Qed.
Lemma record_total s k l u tl n : Inv s -> rec_ok (mkrec k l u tl n) -> nelem (s_hb s) < 2 ^ 30 ->
  exists o, import_record s k l u tl n = Ret o /\ match o with Some s' => Inv s' /\ nelem (s_hb s') <= nelem (s_hb s) + 1 | None => True end.
Proof.
  intros HI Ho Hs. unfold import_record. destruct (_ && _); [|eexists; split; [reflexivity|exact Logic.I]].
  destruct HI as (H1 & [W1 R1] & [W2 R2] & H4). unfold hlookup.
  destruct (htab_lookup_ok (s_hb s) k (mkfl l u tl true) W1) as (r & E & _). rewrite E. cbn [bind].
  assert (HI : Inv s) by (split; [exact H1|split; [split; assumption|split; [split; assumption|exact H4]]]).
  destruct r as [[g x]|]; [eexists; split; [reflexivity|]; split; [exact HI|lia]|].
  destruct (htab_lookup_ok (s_hu s) k (mkfl l u tl true) W2) as (r & E2 & _). rewrite E2. cbn [bind].
  destruct r as [[g x]|]; [eexists; split; [reflexivity|]; split; [exact HI|lia]|].
  destruct (hinsert_total s k (mkfl l u tl true) n HI eq_refl Ho Hs) as (s' & Eh & I' & N'). rewrite Eh. cbn [bind]. eexists. split; [reflexivity|]. split; assumption.
Qed.
(** the loop: with enough memory it ends; the only undefined behaviour is a number that does not fit a long *)
Definition fine (X : out (option bool * list Z * st)) (ok : Prop) : Prop :=
  match X with Ret (_, _, s') => Inv s' | UB => ~ ok | Diverge => False end.
Lemma set_old s old : tab_ok e old -> Inv s -> Inv (set_tabs s old (s_hu s)).
Proof. intros T (H1 & _ & T2 & H4). split; [exact H1|]. split; [exact T|split; [exact T2|exact H4]]. Qed.
Lemma loop_fine old : tab_ok e old -> forall fuel s txt, (length txt < fuel)%nat -> Inv s -> nelem (s_hb s) + Z.of_nat (length txt) < 2 ^ 30 ->
  fine (import_loop fuel (e_reg e) old s txt) (short_words txt).
Proof.
  intros HO. induction fuel as [|fuel IH]; intros s txt Hf HI Hn; [lia|]. cbn [import_loop].
  destruct (scan (cs ")") [] txt) as [[o1 t1]| |] eqn:E1; cbn [bind fst snd].
  2:{ intros Hs. exact (scan_total _ _ _ txt close_Fmt Hs E1). }
  2:{ exact (scan_nodiv _ _ _ _ close_Fmt E1). }
  destruct o1 as [v1|]; [exact HI|]. pose proof (scan_suf _ _ _ _ _ _ close_Fmt E1) as S1.
  destruct (scan line_in_fmt [MAXNAM] t1) as [[o2 t2]| |] eqn:E2; cbn [bind].
  2:{ intros Hs. exact (scan_total _ _ _ t1 line_Fmt (short_suf _ _ S1 Hs) E2). }
  2:{ exact (scan_nodiv _ _ _ _ line_Fmt E2). }
  destruct o2 as [vs|]; [|apply set_old; assumption].
  destruct (line_shape _ _ _ E2) as (nam & id & f & u & tl & x0 & x1 & x2 & x3 & ->).
  destruct (import_solver (e_reg e) (c_string nam) id (to_unsigned tl)) as [n|] eqn:En; [|apply set_old; assumption].
  pose proof (Suf_len _ _ S1) as L1. pose proof (line_shorter _ _ _ E2) as L2. pose proof (scan_suf _ _ _ _ _ _ line_Fmt E2) as S2.
  destruct (record_total s (mksig x0 x1 x2 x3) (to_unsigned f) (to_unsigned u) (to_unsigned tl) n HI (solver_rec_ok _ _ _ _ _ _ _ En)) as (o & Eo & Ho); [lia|].
  rewrite Eo. cbn [bind]. destruct o as [s1|]; [|exact HI]. destruct Ho as [I1 N1].
  specialize (IH s1 t2 ltac:(lia) I1 ltac:(lia)). unfold fine in *. destruct (import_loop fuel (e_reg e) old s1 t2) as [[[b l'] s']| |]; auto.
  intros Hs. apply IH. eapply short_suf; [|exact Hs]. eapply Suf_trans; eauto.
Qed.
Lemma imprt_fine junk s txt : Inv s -> nelem (s_hb s) + Z.of_nat (length txt) < 2 ^ 30 -> fine (imprt junk (e_reg e) s txt) (short_words txt).
Proof.
  intros HI Hn. unfold imprt.
  destruct (scan header_fmt [] txt) as [[o1 t1]| |] eqn:E1; cbn [bind].
  2:{ intros Hs. exact (scan_total _ _ _ txt header_Fmt Hs E1). }
  2:{ exact (scan_nodiv _ _ _ _ header_Fmt E1). }
  destruct o1 as [vs|]; [|exact HI]. destruct (header_shape _ _ _ E1) as (x0 & x1 & x2 & x3 & ->).
  destruct (signature_total junk (e_reg e)) as (m & Em). rewrite Em. cbn [bind]. destruct (negb _); [exact HI|].
  pose proof (scan_suf _ _ _ _ _ _ header_Fmt E1) as S1. pose proof (Suf_len _ _ S1) as L1.
  pose proof (loop_fine (s_hb s) (proj1 (proj2 HI)) (S (length t1)) s t1 ltac:(lia) HI ltac:(lia)) as F.
  unfold fine in *. destruct (import_loop (S (length t1)) (e_reg e) (s_hb s) s t1) as [[[b l'] s']| |]; auto. intros Hs. apply F. eapply short_suf; eauto.
Qed.
(** partial correctness, without a bound on the text *)
Lemma record_inv s k l u tl n s' : Inv s -> rec_ok (mkrec k l u tl n) -> import_record s k l u tl n = Ret (Some s') -> Inv s'.
Proof.
  intros HI Ho H. unfold import_record in H. destruct (_ && _); [|discriminate]. ib H r E. destruct r; [inj H; exact HI|]. ib H s1 E1. inj H.
  pose proof (hinsert_safe e HN s k (mkfl l u tl true) n HI Ho) as Q. rewrite E1 in Q. cbn in Q. apply Q.
Qed.
Lemma loop_inv old : tab_ok e old -> forall fuel s txt b l' s', Inv s -> import_loop fuel (e_reg e) old s txt = Ret (b, l', s') -> Inv s'.
Proof.
  intros HO. induction fuel as [|fuel IH]; intros s txt b l' s' HI H; cbn [import_loop] in H; [discriminate|].
  ib H r E. destruct (fst r); [inj H; exact HI|]. ib H q Eq. destruct q as [[vs|] txt'].
  2:{ inj H. now apply set_old. }
  destruct (line_shape _ _ _ Eq) as (nam & id & f & u & tl & x0 & x1 & x2 & x3 & ->).
  destruct (import_solver (e_reg e) (c_string nam) id (to_unsigned tl)) as [n|] eqn:En.
  2:{ inj H. now apply set_old. }
  ib H o Eo. destruct o as [s1|]; [|inj H; exact HI]. eapply IH; [|exact H]. eapply record_inv; [exact HI| |exact Eo]. eapply solver_rec_ok; exact En.
Qed.
Lemma imprt_inv junk s txt b l' s' : Inv s -> imprt junk (e_reg e) s txt = Ret (b, l', s') -> Inv s'.
Proof.
  intros HI H. unfold imprt in H. ib H r E. destruct r as [[vs|] txt']; [|inj H; exact HI].
  destruct (header_shape _ _ _ E) as (x0 & x1 & x2 & x3 & ->). ib H m Em. destruct (negb _); [inj H; exact HI|].
  eapply loop_inv; [|exact HI|exact H]. apply HI.
Qed.
Lemma record_noub s k l u tl n : Inv s -> rec_ok (mkrec k l u tl n) -> import_record s k l u tl n <> UB.
Proof.
  intros HI Ho. unfold import_record. destruct (_ && _); [|discriminate]. pose proof HI as (H1 & [W1 R1] & [W2 R2] & H4). unfold hlookup.
  destruct (htab_lookup_ok (s_hb s) k (mkfl l u tl true) W1) as (r & E & _). rewrite E. cbn [bind]. destruct r as [[g x]|]; [discriminate|].
  destruct (htab_lookup_ok (s_hu s) k (mkfl l u tl true) W2) as (r & E2 & _). rewrite E2. cbn [bind]. destruct r as [[g x]|]; [discriminate|].
  pose proof (hinsert_safe e HN s k (mkfl l u tl true) n HI Ho) as Q. destruct (hinsert s k (mkfl l u tl true) n); cbn in *; [discriminate|destruct Q|discriminate].
Qed.
Lemma loop_noub old : tab_ok e old -> forall fuel s txt, Inv s -> short_words txt -> import_loop fuel (e_reg e) old s txt <> UB.
Proof.
  intros HO. induction fuel as [|fuel IH]; intros s txt HI Hs; cbn [import_loop]; [discriminate|].
  destruct (scan (cs ")") [] txt) as [[o1 t1]| |] eqn:E1; cbn [bind fst snd].
  2:{ exfalso. exact (scan_total _ _ _ txt close_Fmt Hs E1). }
  2:{ discriminate. }
  destruct o1 as [v1|]; [discriminate|]. pose proof (scan_suf _ _ _ _ _ _ close_Fmt E1) as S1.
  destruct (scan line_in_fmt [MAXNAM] t1) as [[o2 t2]| |] eqn:E2; cbn [bind].
  2:{ exfalso. exact (scan_total _ _ _ t1 line_Fmt (short_suf _ _ S1 Hs) E2). }
  2:{ discriminate. }
  destruct o2 as [vs|]; [|discriminate].
  destruct (line_shape _ _ _ E2) as (nam & id & f & u & tl & x0 & x1 & x2 & x3 & ->).
  destruct (import_solver (e_reg e) (c_string nam) id (to_unsigned tl)) as [n|] eqn:En; [|discriminate].
  pose proof (scan_suf _ _ _ _ _ _ line_Fmt E2) as S2. pose proof (solver_rec_ok (mksig x0 x1 x2 x3) (to_unsigned f) (to_unsigned u) _ _ _ _ En) as Ho.
  destruct (import_record s (mksig x0 x1 x2 x3) (to_unsigned f) (to_unsigned u) (to_unsigned tl) n) as [o| |] eqn:Eo; cbn [bind]; [|exact (fun _ => record_noub _ _ _ _ _ _ HI Ho Eo)|discriminate].
  destruct o as [sx|]; [|discriminate]. apply IH; [eapply record_inv; eauto|]. eapply short_suf; [|exact Hs]. eapply Suf_trans; eauto.
Qed.
Lemma imprt_noub junk s txt : Inv s -> imprt junk (e_reg e) s txt = UB -> ~ short_words txt.
Proof.
  intros HI H Hs. unfold imprt in H.
  destruct (scan header_fmt [] txt) as [[o1 t1]| |] eqn:E1; cbn [bind] in H.
  2:{ exact (scan_total _ _ _ txt header_Fmt Hs E1). }
  2:{ discriminate. }
  destruct o1 as [vs|]; [|discriminate]. destruct (header_shape _ _ _ E1) as (x0 & x1 & x2 & x3 & ->).
  destruct (signature_total junk (e_reg e)) as (m & Em). rewrite Em in H. cbn [bind] in H. destruct (negb _); [discriminate|].
  pose proof (scan_suf _ _ _ _ _ _ header_Fmt E1) as S1.
  exact (loop_noub (s_hb s) (proj1 (proj2 HI)) (S (length t1)) s t1 HI (short_suf _ _ S1 Hs) H).
Qed.
End Inv.
