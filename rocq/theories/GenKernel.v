(** * Printed codelets as kernels *)
From Coq Require Import Reals ZArith List Bool Lia Lra.
From Verif Require Import NumTheory Cplx Spec SpecR2R RSum TensorModel Offs XForm XKern RaceProofs TwModel DftModel GenExpr GenCplx GenAlg GenAlgVars GenTrans GenTransProofs GenFft GenNum GenMain GenTrig GenTrigProofs.
From Verif Require Import PropGenfft PropGenreal GenTwid GenTwidProofs PropGentwid PropGenalg PropGentrans GenAlist GenExec PropGenalist GenSched GenPrint PropGenprint GenLink GenInputs.
Import ListNotations.
Open Scope Z_scope.
Notation mem := Spec.mem.
Notation in_places := PropGentwid.in_places.

(** ** What a dag computes, place by place *)
Lemma computes_in v x l : computes (Some v) x l ->
  all_stores v /\ places v = map fst l /\ forall p a, In (p, a) l -> exists e, In (EStore p e) v /\ eval (real_env x) e = RtoC a.
Proof.
  intros (d & E & V). injection E as <-.
  assert (S : all_stores v).
  { intros r Hin. assert (Hin' := in_map (stored x) _ _ Hin). rewrite V in Hin'. apply in_map_iff in Hin'. destruct Hin' as (p & Hp & _). destruct r; cbn in Hp; try discriminate. eauto. }
  split; [exact S|]. revert l V. induction v as [|r v IH]; intros [|[p a] l] V; try discriminate; [split; [reflexivity|intros ? ? []]|].
  cbn [map] in V. injection V as V1 V2. destruct (IH (fun q Hq => S q (or_intror Hq)) l V2) as [I1 I2].
  destruct (S r (or_introl eq_refl)) as (u & y & ->). cbn [stored fst snd] in V1. injection V1 as -> Vy. split.
  - unfold places in *. cbn. now rewrite I1.
  - intros q b [Q|Hin]; [injection Q as <- <-; exists y; split; [now left|exact Vy]|]. destruct (I2 q b Hin) as (e & He & Ve). exists e. split; [now right|auto].
Qed.

(** ** Memory: the array elements [loc], and other constant cells [T] (the twiddle tables) *)
Section Mem.
  Context {T : Type}.
  Variable T_dec : forall p q : T, {p = q} + {p <> q}.
  Definition cell_dec : forall p q : loc + T, {p = q} + {p <> q}.
  Proof. decide equality. apply loc_dec. Defined.
  (** the cells as real numbers, and as the complex numbers of the semantics of expressions *)
  Definition cells (tab : T -> R) (m : mem) (q : loc + T) : R := match q with inl p => m p | inr u => tab u end.
  Definition ccells tab m q : C := RtoC (cells tab m q).

  (** a codelet whose stores are those of the transform [X] acts as the kernel of [X] *)
  Theorem kernel_runs v t addr tab m X nx (I O : loc) :
    all_stores v -> NoDup (places v) -> compiled v t -> array_layout addr v -> NoDup (map fst (xo X)) ->
    (forall o F, In (o, F) (xo X) -> exists p e, In (EStore p e) v /\ addr p = inl (sh O o) /\
       eval (fun w => ccells tab m (addr w)) e = RtoC (F (fun z => m (sh I z))) /\ exists env, eval env e <> C0) ->
    (forall p, In p (places v) -> exists o, In o (map fst (xo X)) /\ addr p = inl (sh O o)) ->
    forall (loc : locals),
      (exists s', cruns _ cell_dec addr t (loc, ccells tab m) s') /\
      forall s', cruns _ cell_dec addr t (loc, ccells tab m) s' -> forall q, snd s' q = ccells tab (kern X nx I O m) q.
  Proof.
    intros S ND Cm LA NX HV HP loc. destruct (compiled_runs v t cell_dec addr S ND Cm LA loc (ccells tab m)) as [E R]. split; [exact E|].
    intros s' Hs q. destruct (R s' Hs) as (V & _ & U). unfold kern.
    set (L := map (fun oF => (fst oF, snd oF (fun z => m (sh I z)))) (xo X)).
    assert (FL : map fst L = map fst (xo X)) by (unfold L; rewrite map_map; apply map_ext; reflexivity).
    destruct q as [q|u].
    - unfold ccells at 1. cbn [cells]. destruct (in_dec loc_dec q (map (sh O) (map fst (xo X)))) as [Hq|Hq].
      + apply in_map_iff in Hq. destruct Hq as (o & <- & Ho). apply in_map_iff in Ho. destruct Ho as ([o' F] & <- & HF). cbn [fst].
        destruct (HV o' F HF) as (p & e & He & Ap & Ve & Ne). assert (Vp := V p e He Ne). rewrite Ap in Vp. rewrite Vp, Ve. f_equal. symmetry. apply stores_in.
        * now rewrite FL.
        * unfold L. apply in_map_iff. exists (o', F). auto.
      + rewrite stores_other.
        * apply U. intros p Hp Ep. destruct (HP p Hp) as (o & Ho & Eo). apply Hq. rewrite Ep in Eo. injection Eo as ->. now apply in_map.
        * rewrite FL. intros (o & Ho & ->). apply Hq. now apply in_map.
    - apply U. intros p Hp Ep. destruct (HP p Hp) as (o & Ho & Eo). congruence.
  Qed.

  (** ** Codelets with complex inputs and outputs *)
  Definition vars (n : Z) (f : Z -> variable * variable) : list variable := flat_map (fun k => [fst (f k); snd (f k)]) (zr n).
  Lemma in_vars n f w : In w (vars n f) <-> exists k, 0 <= k < n /\ (w = fst (f k) \/ w = snd (f k)).
  Proof.
    unfold vars. rewrite in_flat_map. split.
    - intros (k & Hk & [<-|[<-|[]]]); apply in_zr in Hk; eauto.
    - intros (k & Hk & E). exists k. split; [now apply in_zr|]. cbn. intuition.
  Qed.
  (** The input and output arrays of a codelet, as its C code addresses them: element j of the input at I + j*is
      (imaginary parts di further on), of the output at O + j*os (do_); the generator knows that element j of the input
      and of the output may be in the same place; everything else is elsewhere *)
  Record io_layout (n : Z) (inp oloc : Z -> variable * variable) (addr : variable -> loc + T) (I O : loc) (di do_ is os : Z) : Prop := {
    io_in : forall j, 0 <= j < n -> addr (fst (inp j)) = inl (sh I (j * is)) /\ addr (snd (inp j)) = inl (sh I (di + j * is));
    io_out : forall k, 0 <= k < n -> addr (fst (oloc k)) = inl (sh O (k * os)) /\ addr (snd (oloc k)) = inl (sh O (do_ + k * os));
    io_other : forall w, is_locative w = false -> exists u, addr w = inr u;
    io_loc : forall w, In w (vars n inp ++ vars n oloc) -> is_locative w = true;
    io_diff : NoDup (vars n inp ++ vars n oloc);
    io_same : forall j, 0 <= j < n -> same_location (fst (oloc j)) (fst (inp j)) = true /\ same_location (snd (oloc j)) (snd (inp j)) = true
  }.
  Lemma at_places_fst n oloc Y : map fst (at_places n oloc Y) = vars n oloc.
  Proof. unfold at_places, vars. induction (zr n) as [|k l IH]; [reflexivity|]. cbn [flat_map map app fst]. now rewrite IH. Qed.

  Definition cdft1 (di do_ n is os : Z) (Y : (Z -> C) -> Z -> C) : xform :=
    cxf di do_ (locs [(n, is)]) (boxl [mkdim n is os]) (ooff [mkdim n is os]) (fun ks x => Y (fun j => x (j * is)) (hd 0 ks)).
  Lemma box1 n is os : boxl [mkdim n is os] = map (fun k => [k]) (zr n).
  Proof. cbn [boxl dn map]. induction (zr n) as [|k l IH]; [reflexivity|]. cbn [flat_map map app]. f_equal; auto. Qed.
  Lemma cdft1_xo di do_ n is os Y o F : In (o, F) (xo (cdft1 di do_ n is os Y)) <->
    exists c k, (c = 0 \/ c = 1) /\ 0 <= k < n /\ o = c * do_ + k * os /\ F = (fun x => part c (Y (fun j => cview di x (j * is)) k)).
  Proof.
    unfold cdft1. rewrite cxf_xo, box1. split.
    - intros (c & ks & Hc & Hk & -> & ->). apply in_map_iff in Hk. destruct Hk as (k & <- & Hk). apply in_zr in Hk. exists c, k. cbn [ooff hd dos]. repeat split; auto; lia.
    - intros (c & k & Hc & Hk & -> & ->). exists c, [k]. cbn [ooff hd dos]. repeat split; auto; [|lia]. apply in_map_iff. exists k. split; auto. now apply in_zr.
  Qed.

  (** Every result of the codelet depends on input 0 with a coefficient of modulus 1 *)
  Theorem complex_codelet n v t inp oloc addr tab m nx I O di do_ is os (Y : (Z -> C) -> Z -> C) (w0 : Z -> C) ip :
    0 < n ->
    (forall x, (forall w, is_locative w = false -> x w = cells tab m (addr w)) -> computes (Some v) x (at_places n oloc (Y (in_places x inp)))) ->
    (forall X X' k, (forall j, 0 <= j < n -> X j = X' j) -> Y X k = Y X' k) ->
    (forall k z, 0 <= k < n -> Y (fun j => if j =? 0 then z else C0) k = (z * w0 k)%C /\ (w0 k * Cplx.conj (w0 k))%C = C1) ->
    (forall w, loads_of v w -> In w (vars n inp) \/ var_is_constant w = true) ->
    compiled v t -> io_layout n inp oloc addr I O di do_ is os ->
    Wf nx ip I O (cdft1 di do_ n is os Y) [] -> (ip = true -> di = do_ /\ is = os) ->
    forall (loc : locals),
      (exists s', cruns _ cell_dec addr t (loc, ccells tab m) s') /\
      forall s', cruns _ cell_dec addr t (loc, ccells tab m) s' -> forall q, snd s' q = ccells tab (kern (cdft1 di do_ n is os Y) nx I O m) q.
  Proof.
    intros Hn Cv Yext Y0 Ld Cm [IN OUT OTH LOC DIFF SAME] [_ _ _ WI WO WX] Ip.
    set (xm := fun w => cells tab m (addr w)).
    destruct (computes_in v xm _ (Cv xm (fun _ _ => eq_refl))) as (S & P & V). rewrite at_places_fst in P.
    assert (NO : NoDup (vars n oloc)) by (apply NoDup_app_inv in DIFF; tauto).
    assert (NI : NoDup (vars n inp)) by (apply NoDup_app_inv in DIFF; tauto).
    assert (NX : NoDup (map fst (xo (cdft1 di do_ n is os Y)))) by (rewrite ol_nil in WO; exact WO).
    assert (ND : NoDup (places v)) by now rewrite P.
    assert (II : forall j c, 0 <= j < n -> c = 0 \/ c = 1 -> In (c * di + j * is) (il (cdft1 di do_ n is os Y) [])).
    { intros j c Hj Hc. rewrite il_nil. unfold cdft1, cxf. cbn [xi]. apply in_lplus_dim. exists c, (j * is). split; [lia|]. split; [|ring].
      cbn [locs]. apply in_lplus_dim. exists j, 0. split; [lia|]. split; [now left|ring]. }
    assert (OO : forall k c, 0 <= k < n -> c = 0 \/ c = 1 -> In (c * do_ + k * os, fun x => part c (Y (fun j => cview di x (j * is)) k)) (xo (cdft1 di do_ n is os Y))).
    { intros k c Hk Hc. apply cdft1_xo. exists c, k. auto. }
    assert (OL : forall k c, 0 <= k < n -> c = 0 \/ c = 1 -> In (c * do_ + k * os) (ol (cdft1 di do_ n is os Y) [])).
    { intros k c Hk Hc. rewrite ol_nil. change (c * do_ + k * os) with (fst (c * do_ + k * os, fun x => part c (Y (fun j => cview di x (j * is)) k))). apply in_map. auto. }
    (* outputs are at different places, wherever the real and imaginary parts are *)
    assert (Oaddr : forall p, In p (vars n oloc) -> exists k c, 0 <= k < n /\ (c = 0 \/ c = 1) /\ p = (if c =? 0 then fst (oloc k) else snd (oloc k)) /\ addr p = inl (sh O (c * do_ + k * os))).
    { intros p Hp. apply in_vars in Hp. destruct Hp as (k & Hk & [->| ->]); destruct (OUT k Hk) as [A B].
      - exists k, 0. repeat split; auto; lia.
      - exists k, 1. repeat split; auto; try lia. rewrite B. do 2 f_equal. ring. }
    assert (Iaddr : forall p, In p (vars n inp) -> exists k c, 0 <= k < n /\ (c = 0 \/ c = 1) /\ p = (if c =? 0 then fst (inp k) else snd (inp k)) /\ addr p = inl (sh I (c * di + k * is))).
    { intros p Hp. apply in_vars in Hp. destruct Hp as (k & Hk & [->| ->]); destruct (IN k Hk) as [A B].
      - exists k, 0. repeat split; auto; lia.
      - exists k, 1. repeat split; auto; try lia. rewrite B. do 2 f_equal. ring. }
    assert (Dup : forall n' st k k' c c' (Hk : 0 <= k < n') (Hk' : 0 <= k' < n') (Hc : c = 0 \/ c = 1) (Hc' : c' = 0 \/ c' = 1) d, NoDup (lplus (dimlocs (2, d)) (lplus (dimlocs (n', st)) [0])) ->
       c * d + k * st = c' * d + k' * st -> c = c' /\ k = k').
    { intros n' st k k' c c' Hk Hk' Hc Hc' d Nd Eq. 
      assert (A1 : In (k * st) (lplus (dimlocs (n', st)) [0])) by (apply in_lplus_dim; exists k, 0; split; [lia|]; split; [now left|ring]).
      assert (A2 : In (k' * st) (lplus (dimlocs (n', st)) [0])) by (apply in_lplus_dim; exists k', 0; split; [lia|]; split; [now left|ring]).
      destruct (lplus_dim_inj 2 d _ c c' (k * st) (k' * st) Nd) as [-> Ek]; try lia; auto. split; auto.
      assert (Nd2 : NoDup (lplus (dimlocs (n', st)) [0])).
      { apply (NoDup_lplus_range 2 d _ 0 1) in Nd; try lia. change (dimlocs (1, d)) with [0 * d] in Nd. rewrite Z.mul_0_l in Nd. now rewrite lplus_0_l in Nd. }
      destruct (lplus_dim_inj n' st [0] k k' 0 0 Nd2) as [-> _]; auto; try (now left). lia. }
    assert (NXi : NoDup (lplus (dimlocs (2, di)) (lplus (dimlocs (n, is)) [0]))) by (rewrite il_nil in WI; exact WI).
    assert (NXo : NoDup (lplus (dimlocs (2, do_)) (lplus (dimlocs (n, os)) [0]))).
    { rewrite ol_nil in WO. unfold cdft1 in WO. rewrite cxf_fst, boxl_ooff in WO. exact WO. }
    assert (LA : array_layout addr v).
    { constructor.
      - intros w Lw. destruct (Ld w Lw) as [Iw|Cw].
        + split.
          * assert (Lo := LOC w (in_or_app _ _ _ (or_introl Iw))). destruct w; discriminate || reflexivity.
          * rewrite P. intros Ow. apply NoDup_app_inv in DIFF. destruct DIFF as (_ & _ & D). exact (D w Iw Ow).
        + split; [destruct w; discriminate || reflexivity|]. rewrite P. intros Ow. assert (Lo := LOC w (in_or_app _ _ _ (or_intror Ow))). destruct w; discriminate.
      - intros p Hp. rewrite P in Hp. apply LOC, in_or_app. now right.
      - intros p q Hp Hq Epq. rewrite P in Hp, Hq. destruct (Oaddr p Hp) as (k & c & Hk & Hc & Ep & Ap). destruct (Oaddr q Hq) as (k' & c' & Hk' & Hc' & Eq & Aq).
        rewrite Ap, Aq in Epq. injection Epq as Epq. destruct (Dup n os k k' c c' Hk Hk' Hc Hc' do_ NXo) as [-> ->]; [lia|]. congruence.
      - intros p w Hp Lw Epw. rewrite P in Hp. destruct (Oaddr p Hp) as (k & c & Hk & Hc & Ep & Ap). destruct (Ld w Lw) as [Iw|Cw].
        + destruct (Iaddr w Iw) as (j & c' & Hj & Hc' & Ew & Aw). rewrite Ap, Aw in Epw. destruct ip.
          * destruct WX as [<- _]. destruct (Ip eq_refl) as [<- <-]. injection Epw as Epw. destruct (Dup n is k j c c' Hk Hj Hc Hc' di NXo) as [-> ->]; [lia|].
            subst p w. destruct (SAME j Hj) as [S1 S2]. destruct (c' =? 0); auto.
          * exfalso. assert (Epw' : sh I (c' * di + j * is) = sh O (c * do_ + k * os)) by congruence.
            apply (WX (sh I (c' * di + j * is))); [exists (c' * di + j * is); split; auto|]. rewrite Epw'. exists (c * do_ + k * os). split; auto.
        + exfalso. destruct (OTH w) as (u & Eu); [destruct w; discriminate || reflexivity|]. congruence.
      - intros p w Hp Cw Epw. rewrite P in Hp. destruct (Oaddr p Hp) as (k & c & Hk & Hc & Ep & Ap). destruct (OTH w) as (u & Eu); [destruct w; discriminate || reflexivity|]. congruence. }
    apply (kernel_runs v t addr tab m (cdft1 di do_ n is os Y) nx I O S ND Cm LA NX).
    - intros o F HF. apply cdft1_xo in HF. destruct HF as (c & k & Hc & Hk & -> & ->).
      set (p := if c =? 0 then fst (oloc k) else snd (oloc k)).
      assert (Hat : forall Z, In (p, part c (Z k)) (at_places n oloc Z)).
      { intros Z'. unfold at_places. apply in_flat_map. exists k. split; [now apply in_zr|]. unfold p, part. destruct Hc as [-> | ->]; cbn; auto. }
      destruct (V p _ (Hat _)) as (e & He & Ve). exists p, e. split; [exact He|]. split; [|split].
      + destruct (OUT k Hk) as [A B]. unfold p. destruct Hc as [-> | ->]; cbn [Z.eqb]; [rewrite A|rewrite B]; do 2 f_equal; ring.
      + change (fun w => ccells tab m (addr w)) with (real_env xm). rewrite Ve. f_equal. unfold part.
        rewrite (Yext (in_places xm inp) (fun j => cview di (fun z => m (sh I z)) (j * is)) k); [reflexivity|].
        intros j Hj. unfold in_places, cview, xm. destruct (IN j Hj) as [-> ->]. reflexivity.
      + (* a unit at input 0 *)
        set (z := if c =? 0 then Cplx.conj (w0 k) else (Cplx.conj (w0 k) * Ci)%C).
        set (x0 := fun w => if var_eq_dec w (fst (inp 0)) then fst z else if var_eq_dec w (snd (inp 0)) then snd z else if is_locative w then 0%R else cells tab m (addr w)).
        assert (V0 : In (fst (inp 0)) (vars n inp) /\ In (snd (inp 0)) (vars n inp)) by (split; apply in_vars; exists 0; split; auto; lia).
        assert (X0 : forall w, is_locative w = false -> x0 w = cells tab m (addr w)).
        { intros w Lw. unfold x0. destruct (var_eq_dec w (fst (inp 0))) as [->|_]; [rewrite (LOC _ (in_or_app _ _ _ (or_introl (proj1 V0)))) in Lw; discriminate|].
          destruct (var_eq_dec w (snd (inp 0))) as [->|_]; [rewrite (LOC _ (in_or_app _ _ _ (or_introl (proj2 V0)))) in Lw; discriminate|]. now rewrite Lw. }
        destruct (computes_in v x0 _ (Cv x0 X0)) as (_ & _ & V1). destruct (V1 p _ (Hat _)) as (e' & He' & Ve').
        rewrite (places_inj p v ND e' e He' He) in Ve'. exists (real_env x0). rewrite Ve'.
        assert (D0 : forall j, 0 <= j < n -> in_places x0 inp j = if j =? 0 then z else C0).
        { intros j Hj. assert (Nfs : fst (inp 0) <> snd (inp 0)).
          { intros E. clear - NI E Hn. unfold vars in NI. replace n with (1 + (n - 1)) in NI by ring. rewrite zr_add in NI by lia. rewrite zr_1 in NI. cbn in NI. inversion NI as [|? ? N1 _]; subst. apply N1. now left. }
          destruct (Z.eqb_spec j 0) as [->|Nj].
          - unfold in_places, x0. destruct (var_eq_dec (fst (inp 0)) (fst (inp 0))); [|congruence]. destruct (var_eq_dec (snd (inp 0)) (fst (inp 0))); [congruence|].
            destruct (var_eq_dec (snd (inp 0)) (snd (inp 0))); [|congruence]. now destruct z.
          - assert (Sep : forall a b, (a = fst (inp j) \/ a = snd (inp j)) -> (b = fst (inp 0) \/ b = snd (inp 0)) -> a <> b).
            { intros a b Ha Hb Eab. subst b. destruct Hb as [Hb|Hb]; clear - Ha Hb NI Hj Nj; unfold vars in NI;
              replace n with (1 + (n - 1)) in NI by ring; rewrite zr_add, zr_1 in NI by lia; cbn [flat_map app] in NI; apply NoDup_cons_iff in NI as [N1 NI2]; apply NoDup_cons_iff in NI2 as [N2 _];
               (assert (K : In a (flat_map (fun k => [fst (inp k); snd (inp k)]) (map (Z.add 1) (zr (n - 1))))) by
                 (apply in_flat_map; exists j; split; [apply in_map_iff; exists (j - 1); split; [lia|apply in_zr; lia]|cbn; intuition])).
              - apply N1. right. now rewrite <- Hb.
              - apply N2. now rewrite <- Hb. }
            assert (Lf : forall a, (a = fst (inp j) \/ a = snd (inp j)) -> x0 a = 0%R).
            { intros a Ha. unfold x0. destruct (var_eq_dec a (fst (inp 0))) as [E|_]; [exfalso; exact (Sep a (fst (inp 0)) Ha (or_introl eq_refl) E)|].
              destruct (var_eq_dec a (snd (inp 0))) as [E|_]; [exfalso; exact (Sep a (snd (inp 0)) Ha (or_intror eq_refl) E)|].
              rewrite LOC; [reflexivity|]. apply in_or_app. left. apply in_vars. exists j. auto. }
            unfold in_places. now rewrite !Lf by auto. }
        rewrite (Yext _ _ k D0). destruct (Y0 k z Hk) as [-> W1].
        assert (Q : part c (z * w0 k)%C = 1%R).
        { unfold z. destruct Hc as [-> | ->]; cbn [Z.eqb part].
          - replace (Cplx.conj (w0 k) * w0 k)%C with C1 by (rewrite <- W1; ring). reflexivity.
          - replace (Cplx.conj (w0 k) * Ci * w0 k)%C with (Ci * (w0 k * Cplx.conj (w0 k)))%C by ring. rewrite W1. cbn. ring. }
        rewrite Q. intros E. apply (f_equal fst) in E. cbn in E. lra.
    - intros p Hp. rewrite P in Hp. destruct (Oaddr p Hp) as (k & c & Hk & Hc & Ep & Ap). exists (c * do_ + k * os). split; [|exact Ap]. specialize (OL k c Hk Hc). now rewrite ol_nil in OL.
  Qed.
End Mem.
