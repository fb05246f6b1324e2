(** * What exprt prints, imprt's scanner reads back *)
From Coq Require Import String ZArith List Lia Bool Permutation.
From Verif Require Import Base SpecWisdom HashModel HashProofs Md5Model TextModel PropText PlannerModel PlannerScope ImportModel ImportScan ImportProofs.
Import ListNotations.
Open Scope Z_scope.

Lemma getlong_head l b z r : getlong l b = Ret (z, true, r) -> eat_blanks l = l.
Proof.
  destruct l as [|c l]; [reflexivity|]. unfold getlong. cbn [getc]. intros H. cbn [eat_blanks].
  assert (K : forall c', digit_of c' = None -> forall l' b' r', digits_loop (c' :: l') b' 0 false = Ret r' -> snd (fst r') = false).
  { intros c' D l' b' r' E. cbn [digits_loop] in E. rewrite D in E. inversion E. reflexivity. }
  destruct (isspace c) eqn:S.
  - exfalso. unfold isspace in S. apply andb_true_iff in S as [S1 S2]. apply Z.leb_le in S1. apply Z.leb_le in S2.
    destruct (Z.eqb_spec c 45); [lia|]. destruct (Z.eqb_spec c 43); [lia|]. cbn [orb] in H.
    assert (D : digit_of c = None). { unfold digit_of, isdigit, isupper, islower. destruct (Z.leb_spec 48 c), (Z.leb_spec 65 c), (Z.leb_spec 97 c); try lia. reflexivity. }
    destruct (digits_loop (c :: l) b 0 false) as [[[x ok] l3]| |] eqn:E; try discriminate. apply (K c D) in E. cbn in E. subst ok.
    cbn [bind] in H. destruct (ckl _); cbn [bind] in H; congruence.
  - unfold ungetc. destruct (Z.eqb_spec c EOF) as [->|]; [|reflexivity]. exfalso.
    change ((EOF =? 45) || (EOF =? 43)) with false in H. cbv iota in H.
    destruct (digits_loop (EOF :: l) b 0 false) as [[[x ok] l3]| |] eqn:E; try discriminate. apply (K EOF eq_refl) in E. cbn in E. subst ok.
    cbn [bind] in H. destruct (ckl _); cbn [bind] in H; congruence.
Qed.
Lemma vprint_chr c s args : c <> 37 -> vprint (c :: s) args = (t' <- vprint s args;; Ret (c :: t')).
Proof. intros N. cbn [vprint]. destruct (Z.eqb_spec c 37); [contradiction|reflexivity]. Qed.

(** [RT F A G S V fin H]: printing the arguments [A] with [F] and scanning the
    result with [G] yields [V]; when [rest] follows, [fin rest] is left, and the
    printed text followed by [rest] has the property [H] *)
Definition RT (F : list Z) (A : list parg) (G : list Z) (S : list Z) (V : list sval) (fin : list Z -> list Z) (H : list Z -> Prop) : Prop :=
  exists t, vprint F A = Ret t /\ forall rest, H (t ++ rest) /\ forall acc, vscan G S acc (t ++ rest) = Ret (Some (acc ++ V), fin rest).
Definition starts (c : Z) (l : list Z) : Prop := exists l', l = c :: l'.
Definition solid (l : list Z) : Prop := eat_blanks l = l.
Lemma starts_solid c l : isspace c = false -> c <> EOF -> starts c l -> solid l.
Proof. intros S E [l' ->]. unfold solid. cbn [eat_blanks]. rewrite S. unfold ungetc. destruct (Z.eqb_spec c EOF); [contradiction|reflexivity]. Qed.
Lemma starts_stops c l : digit_of c = None -> c <> EOF -> starts c l -> stops l.
Proof. intros D E [l' ->]. split; auto. Qed.
Lemma starts_end c l : isspace c = true \/ c = 41 -> starts c l -> name_end l.
Proof. intros D [l' ->]. cbn. intuition. Qed.

Lemma RT_lit c F A G S V fin (H : list Z -> Prop) : c <> 37 -> isspace c = false -> c <> EOF -> RT F A G S V fin H -> RT (c :: F) A (c :: G) S V fin (starts c).
Proof.
  intros N Sp E (t & Et & Ht). exists (c :: t). rewrite vprint_chr, Et by auto. split; [reflexivity|]. intros rest. split; [now exists (t ++ rest)|].
  intros acc. rewrite vscan_chr by auto. cbn [app]. unfold scan_char. rewrite Sp.
  set (l1 := if false || (c =? 40) || (c =? 41) then eat_blanks (c :: t ++ rest) else c :: t ++ rest).
  assert (l1 = c :: t ++ rest) as ->.
  { unfold l1. destruct (_ || _); [|reflexivity]. apply (starts_solid c); auto. now exists (t ++ rest). }
  cbn [getc]. rewrite Z.eqb_refl. apply Ht.
Qed.
Lemma RT_sp c F A G S V fin (H : list Z -> Prop) : c <> 37 -> isspace c = true -> RT F A G S V fin H -> (forall l, H l -> solid l) -> RT (c :: F) A (c :: G) S V fin (starts c).
Proof.
  intros N Sp (t & Et & Ht) HS. exists (c :: t). rewrite vprint_chr, Et by auto. split; [reflexivity|]. intros rest. split; [now exists (t ++ rest)|].
  intros acc. rewrite vscan_chr by auto. cbn [app]. unfold scan_char. rewrite Sp. cbn [orb eat_blanks]. rewrite Sp.
  destruct (Ht rest) as [H1 H2]. rewrite (HS _ H1). apply H2.
Qed.
Lemma RT_M x F A G S V fin (H : list Z -> Prop) : 0 <= x < 2 ^ 32 -> RT F A G S V fin H -> (forall l, H l -> stops l) -> RT (37 :: 77 :: F) (AMd5 x :: A) (37 :: 77 :: G) S (VMd5 x :: V) fin solid.
Proof.
  intros Hx (t & Et & Ht) HS. assert (Lx : Z.land 0xffffffff x = x) by (rewrite Z.land_comm; change 0xffffffff with (Z.ones 32); rewrite Z.land_ones by lia; apply Z.mod_small; lia).
  assert (exists w, putulong x 16 8 = Ret w) as (w & Ew) by (destruct (putulong_ok x 16 8 [] ltac:(lia) ltac:(lia) Hx Logic.I) as (w & Ew & _); eauto).
  exists (w ++ t). split.
  { cbn [vprint]. change (37 =? 37) with true. change (77 =? 77) with true. cbv iota. rewrite Lx, Ew. cbn [bind]. rewrite Et. reflexivity. }
  intros rest. destruct (Ht rest) as [H1 H2]. destruct (putulong_ok x 16 8 (t ++ rest) ltac:(lia) ltac:(lia) Hx (HS _ H1)) as (w' & Ew' & _ & Gw).
  assert (w' = w) by congruence. subst w'. rewrite <- app_assoc. split; [eapply getlong_head; exact Gw|].
  intros acc. rewrite vscan_pct by discriminate. unfold scan_item. change (77 =? 115) with false. change (77 =? 100) with false. change (77 =? 120) with false. change (77 =? 77) with true. cbv iota.
  rewrite Gw. cbn [bind]. rewrite Lx, H2, <- app_assoc. reflexivity.
Qed.
Lemma RT_x x F A G S V fin (H : list Z -> Prop) : 0 <= x < 2 ^ 32 -> RT F A G S V fin H -> (forall l, H l -> stops l) -> RT (37 :: 120 :: F) (AU x :: A) (37 :: 120 :: G) S (VInt (to_int x) :: V) fin solid.
Proof.
  intros Hx (t & Et & Ht) HS.
  assert (exists w, putulong x 16 0 = Ret w) as (w & Ew) by (destruct (putulong_ok x 16 0 [] ltac:(lia) ltac:(lia) Hx Logic.I) as (w & Ew & _); eauto).
  exists (w ++ t). split.
  { cbn [vprint]. change (37 =? 37) with true. change (120 =? 120) with true. cbv iota. rewrite Ew. cbn [bind]. rewrite Et. reflexivity. }
  intros rest. destruct (Ht rest) as [H1 H2]. destruct (putulong_ok x 16 0 (t ++ rest) ltac:(lia) ltac:(lia) Hx (HS _ H1)) as (w' & Ew' & _ & Gw).
  assert (w' = w) by congruence. subst w'. rewrite <- app_assoc. split; [eapply getlong_head; exact Gw|].
  intros acc. rewrite vscan_pct by discriminate. unfold scan_item. change (120 =? 115) with false. change (120 =? 100) with false. change (120 =? 120) with true. cbv iota.
  rewrite Gw. cbn [bind]. rewrite H2, <- app_assoc. reflexivity.
Qed.
Lemma RT_d x F A G S V fin (H : list Z -> Prop) : - 2 ^ 31 <= x < 2 ^ 31 -> RT F A G S V fin H -> (forall l, H l -> stops l) -> RT (37 :: 100 :: F) (AInt x :: A) (37 :: 100 :: G) S (VInt x :: V) fin solid.
Proof.
  intros Hx (t & Et & Ht) HS. assert (Hl : - LONG_MAX <= x <= LONG_MAX) by (unfold LONG_MAX; lia).
  assert (exists w, putint x = Ret w) as (w & Ew) by (destruct (C29_int x [] Hl Logic.I) as (w & Ew & _); eauto).
  exists (w ++ t). split.
  { cbn [vprint]. change (37 =? 37) with true. change (100 =? 100) with true. cbv iota. rewrite Ew. cbn [bind]. rewrite Et. reflexivity. }
  intros rest. destruct (Ht rest) as [H1 H2]. destruct (C29_int x (t ++ rest) Hl (HS _ H1)) as (w' & Ew' & Gw).
  assert (w' = w) by congruence. subst w'. rewrite <- app_assoc. split; [eapply getlong_head; exact Gw|].
  intros acc. rewrite vscan_pct by discriminate. unfold scan_item. change (100 =? 115) with false. change (100 =? 100) with true. cbv iota.
  rewrite Gw. cbn [bind]. rewrite H2, <- app_assoc. unfold to_int. rewrite Z.mod_small by lia. replace (x + 2 ^ 31 - 2 ^ 31) with x by lia. reflexivity.
Qed.
Lemma RT_s x n F A G S V fin (H : list Z -> Prop) : Forall name_char x -> 0 < n -> Z.of_nat (length x) <= n -> RT F A G S V fin H -> (forall l, H l -> name_end l) ->
  RT (37 :: 115 :: F) (AStr x :: A) (37 :: 42 :: 115 :: G) (n :: S) (VStr x :: V) fin (fun _ => True).
Proof.
  intros Hx Hn Hl (t & Et & Ht) HS. exists (x ++ t). split.
  { cbn [vprint]. change (37 =? 37) with true. change (115 =? 115) with true. cbv iota. cbn [bind]. rewrite Et. reflexivity. }
  intros rest. destruct (Ht rest) as [H1 H2]. split; auto. intros acc. rewrite vscan_star by auto. unfold scan_item. change (115 =? 115) with true. cbv iota.
  rewrite <- app_assoc, mygets_ok by (auto; lia). cbn [bind]. rewrite H2, <- app_assoc. reflexivity.
Qed.
(** the end of a line: the newline is printed, not scanned *)
Lemma RT_end S : RT [41; 10] [] [41] S [] (fun rest => 10 :: rest) (starts 41).
Proof. exists [41; 10]. split; [reflexivity|]. intros rest. split; [now exists (10 :: rest)|]. intros acc. cbn. now rewrite app_nil_r. Qed.
(** the end of the header: the newline is printed and scanned, with the blanks that follow *)
Lemma RT_nl S : RT [10] [] [10] S [] eat_blanks (starts 10).
Proof. exists [10]. split; [reflexivity|]. intros rest. split; [now exists rest|]. intros acc. cbn. now rewrite app_nil_r. Qed.

Ltac hd := let q := fresh in let q1 := fresh in intros q; first [now intros q1 | apply starts_solid; [reflexivity|discriminate] | apply starts_stops; [reflexivity|discriminate] | apply starts_end; cbn; auto].
Ltac rt := first [ apply RT_nl | apply RT_end
  | eapply RT_lit; [discriminate|reflexivity|discriminate|rt]
  | eapply RT_sp; [discriminate|reflexivity|rt|hd]
  | eapply RT_M; [eassumption|rt|hd]
  | eapply RT_d; [eassumption|rt|hd]
  | eapply RT_x; [eassumption|rt|hd]
  | eapply RT_s; [eassumption|reflexivity|eassumption|rt|hd] ].

Lemma header_list : header_fmt = ltac:(let x := eval vm_compute in header_fmt in exact x).
Proof. vm_compute. reflexivity. Qed.
Lemma header_round a b c d : 0 <= a < 2 ^ 32 -> 0 <= b < 2 ^ 32 -> 0 <= c < 2 ^ 32 -> 0 <= d < 2 ^ 32 ->
  RT header_fmt [AMd5 a; AMd5 b; AMd5 c; AMd5 d] header_fmt [] [VMd5 a; VMd5 b; VMd5 c; VMd5 d] eat_blanks (starts 40).
Proof.
  intros Ha Hb Hc Hd. rewrite header_list.
  rt.
Qed.
Definition line_body : list Z := cs "(%s %d #x%x #x%x #x%x #x%M #x%M #x%M #x%M)" ++ [10].
Lemma line_body_list : line_body = ltac:(let x := eval vm_compute in line_body in exact x).
Proof. vm_compute. reflexivity. Qed.
Lemma line_in_list : line_in_fmt = ltac:(let x := eval vm_compute in line_in_fmt in exact x).
Proof. vm_compute. reflexivity. Qed.
Lemma line_fmt_body : line_fmt = 32 :: 32 :: line_body.
Proof. vm_compute. reflexivity. Qed.
Lemma line_round nam id l u tl a b c d : Forall name_char nam -> Z.of_nat (length nam) <= MAXNAM -> - 2 ^ 31 <= id < 2 ^ 31 ->
  0 <= l < 2 ^ 32 -> 0 <= u < 2 ^ 32 -> 0 <= tl < 2 ^ 32 ->
  0 <= a < 2 ^ 32 -> 0 <= b < 2 ^ 32 -> 0 <= c < 2 ^ 32 -> 0 <= d < 2 ^ 32 ->
  RT line_body [AStr nam; AInt id; AU l; AU u; AU tl; AMd5 a; AMd5 b; AMd5 c; AMd5 d] line_in_fmt [MAXNAM]
     [VStr nam; VInt id; VInt (to_int l); VInt (to_int u); VInt (to_int tl); VMd5 a; VMd5 b; VMd5 c; VMd5 d] (fun rest => 10 :: rest) (starts 40).
Proof.
  intros Hn Hm Hi Hl Hu Ht Ha Hb Hc Hd. rewrite line_body_list, line_in_list.
  rt.
Qed.
