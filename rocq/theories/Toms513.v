(** * Correctness of TOMS algorithm 513 as used by rdft/vrank3-transpose.c:
    the cycles of the permutation are followed, each together with its companion
    (proofs). *)
From Coq Require Import Reals ZArith List Lia Bool Permutation.
From Verif Require Import NumTheory Cplx Spec Base PrimesModel TensorModel Offs TensorProofs XForm XKern XSeq
  CopyModel CopyProofs CopyBounds TransProofs Rank0Model Rank0Proofs Rank0Trans.
Import ListNotations.
Open Scope Z_scope.

Section Pi.
  Context (nx ny : Z) (Hx : 2 <= nx) (Hy : 2 <= ny).
  Let k := ny * nx - 1.
  Notation pi := (toms_next nx ny).
  Definition rg (x : Z) : Prop := 0 <= x <= k.

  Lemma k_pos : 3 <= k. Proof. unfold k. nia. Qed.
  Lemma pi_spec q r : 0 <= q -> 0 <= r < nx -> pi (q * nx + r) = r * ny + q.
  Proof.
    intros Hq Hr. unfold toms_next. 
    assert (E : Z.quot (q * nx + r) nx = q).
    { symmetry. apply Z.quot_unique with r; nia. }
    rewrite E. ring.
  Qed.
  Lemma rg_decomp x : rg x -> exists q r, 0 <= q < ny /\ 0 <= r < nx /\ x = q * nx + r.
  Proof.
    intros H. unfold rg, k in H. exists (x / nx), (x mod nx).
    pose proof (Z.div_mod x nx ltac:(lia)). pose proof (Z.mod_pos_bound x nx ltac:(lia)).
    split; [split; [apply Z.div_pos; lia|apply Z.div_lt_upper_bound; lia]|]. split; [lia|]. lia.
  Qed.
  Lemma qr_rg q r : 0 <= q < ny -> 0 <= r < nx -> rg (q * nx + r).
  Proof. intros. unfold rg, k. assert ((q + 1) * nx <= ny * nx) by nia. nia. Qed.
  Lemma pi_rg x : rg x -> rg (pi x).
  Proof.
    intros H. destruct (rg_decomp x H) as (q & r & Hq & Hr & ->). rewrite pi_spec by lia.
    unfold rg, k. assert ((r + 1) * ny <= nx * ny) by nia. nia.
  Qed.
  Lemma pi_inj x y : rg x -> rg y -> pi x = pi y -> x = y.
  Proof.
    intros H H'. destruct (rg_decomp x H) as (q & r & Hq & Hr & ->), (rg_decomp y H') as (q' & r' & Hq' & Hr' & ->).
    rewrite !pi_spec by lia. intros E. assert (r = r') by nia. nia.
  Qed.
  Lemma comp_rg x : rg x -> rg (k - x). Proof. unfold rg. lia. Qed.
  Lemma pi_comp x : rg x -> pi (k - x) = k - pi x.
  Proof.
    intros H. destruct (rg_decomp x H) as (q & r & Hq & Hr & ->). rewrite (pi_spec q r) by lia.
    replace (k - (q * nx + r)) with ((ny - 1 - q) * nx + (nx - 1 - r)) by (unfold k; ring).
    rewrite pi_spec by lia. unfold k. ring.
  Qed.
  Lemma pi_succ x : rg x -> x < k -> pi (x + 1) = if k <? pi x + ny then pi x + ny - k else pi x + ny.
  Proof.
    intros H Hk. destruct (rg_decomp x H) as (q & r & Hq & Hr & ->). rewrite (pi_spec q r) by lia.
    destruct (Z.eq_dec (r + 1) nx) as [E|E].
    - replace (q * nx + r + 1) with ((q + 1) * nx + 0) by lia. rewrite pi_spec by lia.
      destruct (Z.ltb_spec k (r * ny + q + ny)) as [L|L]; unfold k in *; nia.
    - replace (q * nx + r + 1) with (q * nx + (r + 1)) by ring. rewrite pi_spec by lia.
      assert ((r + 2) * ny <= nx * ny) by nia.
      destruct (Z.ltb_spec k (r * ny + q + ny)) as [L|L]; unfold k in *; lia.
  Qed.
  Lemma pi_1 : pi 1 = ny.
  Proof. replace 1 with (0 * nx + 1) at 1 by ring. rewrite pi_spec by lia. ring. Qed.
  Lemma self_comp_fixed x : rg x -> x = k - x -> pi x = x.
  Proof. intros H E. pose proof (pi_comp x H). rewrite <- E in H0. lia. Qed.

  (** the fixed points *)
  Let g := Z.gcd (ny - 1) (nx - 1).
  Definition fixl : list Z := map (fun t => t * (k / g)) (zr (g + 1)).
  Lemma g_pos : 0 < g.
  Proof. unfold g. pose proof (Z.gcd_nonneg (ny - 1) (nx - 1)). assert (Z.gcd (ny - 1) (nx - 1) <> 0); [|lia].
    intros E. apply Z.gcd_eq_0_l in E. lia. Qed.
  Lemma g_gcd : g = Z.gcd (ny - 1) k.
  Proof.
    unfold g, k. replace (ny * nx - 1) with (nx - 1 + nx * (ny - 1)) by ring.
    now rewrite Z.gcd_add_mult_diag_r.
  Qed.
  Lemma g_div : (g | k). Proof. rewrite g_gcd. apply Z.gcd_divide_r. Qed.
  Lemma kg : k = k / g * g.
  Proof. pose proof g_pos as Hg. destruct g_div as [c E]. assert (Q : k / g = c) by (rewrite E; apply Z.div_mul; lia). rewrite Q. exact E. Qed.
  Lemma pi_fixed_div x : rg x -> (pi x = x <-> (k | (ny - 1) * x)).
  Proof.
    intros H. pose proof k_pos as Hk3. split.
    - intros E. unfold toms_next in E. fold k in E. exists (Z.quot x nx). lia.
    - intros [c E]. pose proof (pi_rg x H) as Hp. unfold toms_next in Hp |- *. fold k in Hp |- *.
      assert (E2 : ny * x = x + c * k) by lia.
      assert (Hd : ny * x - k * Z.quot x nx - x = k * (c - Z.quot x nx)) by lia.
      unfold rg in *. assert (c - Z.quot x nx = 0 \/ c - Z.quot x nx = 1 \/ c - Z.quot x nx = -1) as [D|[D|D]] by nia.
      + nia.
      + exfalso. assert (x = 0) by lia. subst x. rewrite Z.quot_0_l in * by lia. nia.
      + exfalso. assert (x = k) by lia. 
        assert (Q : Z.quot k nx = ny - 1). { symmetry. apply Z.quot_unique with (nx - 1); try (unfold k; ring); lia. }
        rewrite H0, Q in *. nia.
  Qed.
  Lemma in_fixl x : In x fixl <-> rg x /\ pi x = x.
  Proof.
    pose proof g_pos as Hg. pose proof kg as Ek. pose proof k_pos as Hk. unfold fixl. rewrite in_map_iff.
    assert (Hkg : 0 < k / g) by nia. split.
    - intros (t & <- & Ht). apply in_zr in Ht.
      assert (R : rg (t * (k / g))) by (unfold rg; nia). split; auto. apply pi_fixed_div; auto.
      pose proof (Z.gcd_divide_l (ny - 1) (nx - 1)) as [c E]. fold g in E. exists (c * t). rewrite E.
      rewrite Ek at 2. ring.
    - intros [R E]. apply pi_fixed_div in E; auto.
      assert (D : (k / g | x)).
      { pose proof (Z.gcd_divide_l (ny - 1) (nx - 1)) as [c Ec]. fold g in Ec.
        apply (Z.gauss (k / g) c x).
        - destruct E as [e E]. exists e. assert (g * (c * x) = g * (e * (k / g))); [|nia].
          rewrite Ec in E. rewrite Ek in E. nia.
        - assert (G : Z.gcd ((ny - 1) / g) (k / g) = 1) by (apply Z.gcd_div_gcd; [lia|exact g_gcd]).
          assert (Q : (ny - 1) / g = c) by (rewrite Ec; apply Z.div_mul; lia). rewrite <- Q, Z.gcd_comm. exact G. }
      destruct D as [t ->]. exists t. split; auto. apply in_zr. unfold rg in R. nia.
  Qed.
  Lemma fixl_NoDup : NoDup fixl.
  Proof.
    pose proof g_pos as Hg. pose proof kg as Ek. pose proof k_pos as Hk. assert (Hkg : 0 < k / g) by nia.
    apply FinFun.Injective_map_NoDup; [|apply NoDup_zr]. intros a b E. nia.
  Qed.
  Lemma zr_length n : 0 <= n -> length (zr n) = Z.to_nat n.
  Proof. intros H. unfold zr, zrange. now rewrite map_length, seq_length. Qed.
  Lemma fixl_length : Z.of_nat (length fixl) = g + 1.
  Proof. unfold fixl. pose proof g_pos. rewrite map_length, zr_length by lia. lia. Qed.

  Lemma length_bound (L : list Z) : NoDup L -> (forall x, In x L -> rg x) -> Z.of_nat (length L) <= k + 1.
  Proof.
    intros Nd H. pose proof k_pos. assert (I : incl L (zr (k + 1))) by (intros x Hxx; apply in_zr; specialize (H x Hxx); unfold rg in H; lia).
    pose proof (NoDup_incl_length Nd I) as B. rewrite zr_length in B by lia. lia.
  Qed.

  (** ** The moved sets *)
  Definition cmp (P : list Z) : list Z := map (fun x => k - x) P.
  Lemma in_cmp P x : In x (cmp P) <-> In (k - x) P.
  Proof.
    unfold cmp. rewrite in_map_iff. split.
    - intros (y & <- & Hyy). now replace (k - (k - y)) with y by ring.
    - intros H. exists (k - x). split; auto. ring.
  Qed.

  (** a pair of partial cycles starting at [i] and [k-i]; [hd P] is the current index *)
  Record chain (i i1 : Z) (P : list Z) : Prop := {
    ch_nd : NoDup ((i1 :: P) ++ cmp (i1 :: P));
    ch_rg : forall x, In x (i1 :: P) -> rg x;
    ch_i : In i (i1 :: P);
    ch_next : forall x, In x P -> In (pi x) (i1 :: P);
    ch_pred : forall y, In y (i1 :: P) -> y <> i -> exists x, In x P /\ pi x = y;
    ch_fwd : forall (C : Z -> Prop), (forall x, rg x -> C x -> C (pi x)) ->
       (forall x, In x (i1 :: P) -> C x -> C i1) /\ (forall x, In x (cmp (i1 :: P)) -> C x -> C (k - i1))
  }.

  Lemma chain_init i : rg i -> pi i <> i -> chain i i [].
  Proof.
    intros Hi Hf. split; cbn [cmp map app].
    - constructor; [|repeat constructor; auto]. intros [E|[]]. apply Hf. apply self_comp_fixed; auto.
    - intros x [<-|[]]. auto.
    - now left.
    - intros x [].
    - intros y [<-|[]] H. congruence.
    - intros C HC. split; intros x [<-|[]]; auto.
  Qed.

  Lemma NoDup_app_disj {A} (a b : list A) x : NoDup (a ++ b) -> In x a -> In x b -> False.
  Proof. intros H. apply NoDup_app_inv in H as (_ & _ & H). apply H. Qed.

  Lemma chain_fresh i i1 P : chain i i1 P -> pi i1 <> i -> pi i1 <> k - i ->
    ~ In (pi i1) ((i1 :: P) ++ cmp (i1 :: P)).
  Proof.
    intros [ND RG CI CN CP CF] H1 H2 H. assert (R1 : rg i1) by (apply RG; now left).
    apply in_app_iff in H as [H|H].
    - destruct (CP _ H H1) as (x & Hxx & E). apply pi_inj in E; auto; [|apply RG; now right]. subst x.
      cbn in ND. inversion ND; subst. apply H4. apply in_app_iff. now left.
    - rewrite in_cmp in H. destruct (CP _ H) as (x & Hxx & E); [lia|].
      assert (Rx : rg x) by (apply RG; now right).
      assert (E2 : pi i1 = pi (k - x)) by (rewrite pi_comp by auto; lia).
      apply pi_inj in E2; auto; [|now apply comp_rg].
      apply (NoDup_app_disj _ _ i1 ND); [now left|]. apply in_cmp. rewrite E2. replace (k - (k - x)) with x by ring. now right.
  Qed.

  Lemma chain_step i i1 P : chain i i1 P -> pi i1 <> i -> pi i1 <> k - i -> chain i (pi i1) (i1 :: P).
  Proof.
    intros CH H1 H2. pose proof (chain_fresh _ _ _ CH H1 H2) as FR. destruct CH as [ND RG CI CN CP CF].
    assert (R1 : rg i1) by (apply RG; now left). assert (R2 : rg (pi i1)) by now apply pi_rg.
    assert (NE : pi i1 <> k - pi i1).
    { intros E. rewrite <- pi_comp in E by auto. apply pi_inj in E; auto; [|now apply comp_rg].
      apply (NoDup_app_disj _ _ i1 ND); [now left|]. apply in_cmp. rewrite <- E. now left. }
    assert (FR2 : ~ In (k - pi i1) ((i1 :: P) ++ cmp (i1 :: P))).
    { intros H. apply FR. apply in_app_iff in H. apply in_app_iff. destruct H as [H|H].
      - right. now apply in_cmp.
      - left. rewrite in_cmp in H. replace (k - (k - pi i1)) with (pi i1) in H by ring. exact H. }
    split.
    - apply NoDup_app_inv in ND as (N1 & N2 & N3).
      apply NoDup_app_intro.
      + constructor; auto. intros H. apply FR. apply in_app_iff. now left.
      + change (cmp (pi i1 :: i1 :: P)) with (k - pi i1 :: cmp (i1 :: P)). constructor; auto.
        intros H. apply FR2. apply in_app_iff. now right.
      + intros x [<-|Hxx] Hc; rewrite in_cmp in Hc.
        * destruct Hc as [E|Hc]; [lia|]. apply FR. apply in_app_iff. right. now apply in_cmp.
        * destruct Hc as [E|Hc]; [|apply (N3 x); auto; now apply in_cmp].
          apply FR2. apply in_app_iff. left. replace (k - pi i1) with x by lia. exact Hxx.
    - intros x [<-|Hxx]; auto.
    - right. exact CI.
    - intros x [<-|Hxx]; [now left|]. right. now apply CN.
    - intros y [<-|Hyy] Hne; [exists i1; split; [now left|auto]|].
      destruct (CP y Hyy Hne) as (x & Hxx & E). exists x. split; auto. now right.
    - intros C HC. destruct (CF C HC) as [F1 F2]. split.
      + intros x [<-|Hxx] Cx; auto. apply HC; auto. eapply F1; eauto.
      + intros x Hxx Cx. rewrite in_cmp in Hxx. destruct Hxx as [E|Hxx].
        * replace (k - pi i1) with x by lia. exact Cx.
        * rewrite <- pi_comp by auto. apply HC; [now apply comp_rg|]. apply (F2 x); auto. now apply in_cmp.
  Qed.

  (** a completed pair of cycles is closed under [pi] in both directions *)
  Lemma chain_closed i i1 P : chain i i1 P -> pi i1 = i \/ pi i1 = k - i ->
    forall x, rg x -> (In (pi x) ((i1 :: P) ++ cmp (i1 :: P)) <-> In x ((i1 :: P) ++ cmp (i1 :: P))).
  Proof.
    intros [ND RG CI CN CP CF] HE x Rx. assert (R1 : rg i1) by (apply RG; now left).
    rewrite !in_app_iff, !in_cmp. rewrite <- pi_comp by auto.
    assert (B : forall y, In y (i1 :: P) -> In (pi y) (i1 :: P) \/ In (pi (k - y)) (i1 :: P)).
    { intros y [<-|Hyy].
      - destruct HE as [E|E]; [left; now rewrite E|right]. rewrite pi_comp by auto. rewrite E. now replace (k - (k - i)) with i by ring.
      - left. now apply CN. }
    assert (Bk : forall y, rg y -> In (pi y) (i1 :: P) -> In y (i1 :: P) \/ In (k - y) (i1 :: P)).
    { intros y Ry H. destruct (Z.eq_dec (pi y) i) as [E|E].
      - destruct HE as [E1|E1].
        + left. rewrite <- E1 in E. apply pi_inj in E; auto. subst. now left.
        + right. assert (E2 : pi (k - y) = pi i1) by (rewrite pi_comp by auto; lia).
          apply pi_inj in E2; auto; [|now apply comp_rg]. rewrite E2. now left.
      - destruct (CP _ H E) as (z & Hz & E2). apply pi_inj in E2; auto; [|apply RG; now right]. subst. left. now right. }
    split.
    - intros [H|H].
      + now apply Bk.
      + apply Bk in H; [|now apply comp_rg]. replace (k - (k - x)) with x in H by ring. tauto.
    - intros [H|H]; apply B in H; [tauto|]. replace (k - (k - x)) with x in H by ring. tauto.
  Qed.
  Lemma chain_rgc i i1 P x : chain i i1 P -> In x ((i1 :: P) ++ cmp (i1 :: P)) -> rg x.
  Proof.
    intros [ND RG CI CN CP CF] H. apply in_app_iff in H as [H|H]; [auto|]. rewrite in_cmp in H. apply RG in H. unfold rg in *. lia.
  Qed.

  (** ** Data movement *)
  Context (a buf : loc) (N : Z) (Hab : fst a <> fst buf) (HN : 0 < N) (move_size : Z).
  Definition vl_ (m : mem) (x v : Z) : R := m (sh (sh a (N * x)) v).

  Lemma mv_el src x m y v : 0 <= v < N ->
    vl_ (mv N src (sh a (N * x)) m) y v = if y =? x then m (sh src v) else vl_ m y v.
  Proof.
    intros Hv. unfold vl_. destruct (Z.eqb_spec y x) as [->|Hne]; [now apply mv_in|].
    apply mv_other. intros w Hw E. rewrite !sh_sh in E. apply sh_inj in E. nia.
  Qed.
  Lemma mv_el_out src x m l : rg x -> (forall y v, rg y -> 0 <= v < N -> l <> sh (sh a (N * y)) v) ->
    mv N src (sh a (N * x)) m l = m l.
  Proof. intros Rx H. apply mv_other. intros w Hw. now apply H. Qed.

  Definition inb (x : Z) (L : list Z) : bool := existsb (Z.eqb x) L.
  Lemma inb_spec x L : inb x L = true <-> In x L.
  Proof. unfold inb. rewrite existsb_exists. split; [intros (y & H & E); apply Z.eqb_eq in E; now subst|]. intros H. exists x. split; auto. apply Z.eqb_refl. Qed.

  Definition i1_eq (x y : Z) : Prop := ((x = y <-> y = x) /\ (x = k - y <-> y = k - x)).
  Record rot_inv (i : Z) (D : list Z) (move0 : Z -> bool) (cnt0 : Z) (M : mem) (P : list Z) (s : rot) : Prop := {
    ri_chain : chain i (r_i1 s) P;
    ri_c : r_i1c s = k - r_i1 s;
    ri_D : forall x, In x ((r_i1 s :: P) ++ cmp (r_i1 s :: P)) -> ~ In x D;
    ri_cnt : r_cnt s = cnt0 + 2 * Z.of_nat (length P);
    ri_move : forall x, 0 <= x < move_size -> (r_move s x = true <-> move0 x = true \/ In x (P ++ cmp P));
    ri_v : forall x v, rg x -> 0 <= v < N -> vl_ (r_m s) x v = vl_ M (if inb x (P ++ cmp P) then pi x else x) v;
    ri_f : forall l, (forall y v, rg y -> 0 <= v < N -> l <> sh (sh a (N * y)) v) -> r_m s l = M l
  }.

  Definition rot_post (i : Z) (D : list Z) (move0 : Z -> bool) (cnt0 : Z) (M : mem) (res : rot * bool) : Prop :=
    let '(r, swp) := res in exists P,
    chain i (r_i1 r) P /\ r_i1c r = k - r_i1 r /\
    (forall x, In x ((r_i1 r :: P) ++ cmp (r_i1 r :: P)) -> ~ In x D) /\
    r_cnt r = cnt0 + 2 * Z.of_nat (length (r_i1 r :: P)) /\
    (forall x, 0 <= x < move_size -> (r_move r x = true <-> move0 x = true \/ In x ((r_i1 r :: P) ++ cmp (r_i1 r :: P)))) /\
    (forall x v, rg x -> 0 <= v < N -> vl_ (r_m r) x v = vl_ M (if inb x (P ++ cmp P) then pi x else x) v) /\
    (forall l, (forall y v, rg y -> 0 <= v < N -> l <> sh (sh a (N * y)) v) -> r_m r l = M l) /\
    pi (r_i1 r) = (if swp then k - i else i).

  Lemma set_move_spec mv_ y x : 0 <= x < move_size -> (set_move move_size mv_ y x = true <-> mv_ x = true \/ x = y).
  Proof.
    intros Hxx. unfold set_move. destruct (Z.ltb_spec y move_size).
    - destruct (Z.eqb_spec x y); [tauto|]. intuition congruence.
    - intuition lia.
  Qed.

  Lemma rot_loop_ok i D move0 cnt0 M : rg i -> pi i <> i -> ~ In i D ->
    (forall x, rg x -> In (pi x) D -> In x D) -> (forall x, In (k - x) D -> In x D) ->
    exists res, loop (bits (k + 1)) (rot_body a nx ny N move_size i) (mkrot i (k - i) move0 cnt0 M) = Done res /\
      rot_post i D move0 cnt0 M res.
  Proof.
    intros Ri Hf HiD HDb HDc. assert (HDc' : forall x, In x D -> In (k - x) D).
    { intros x H. apply HDc. now replace (k - (k - x)) with x by ring. }
    apply (loop_rule (rot_body a nx ny N move_size i) (fun s => exists P, rot_inv i D move0 cnt0 M P s)
      (fun s => k + 1 - (r_cnt s - cnt0))).
    - intros s [P INV]. destruct INV as [CH EC ND CNT MV VV FF].
      assert (R1 : rg (r_i1 s)) by (apply (ch_rg _ _ _ CH); now left).
      assert (LEN : 2 * Z.of_nat (length (r_i1 s :: P)) <= k + 1).
      { pose proof (length_bound _ (ch_nd _ _ _ CH) (fun x => chain_rgc _ _ _ x CH)) as B.
        rewrite app_length in B. unfold cmp in B. rewrite map_length in B. lia. }
      assert (MV2 : forall x, 0 <= x < move_size ->
        (set_move move_size (set_move move_size (r_move s) (r_i1 s)) (r_i1c s) x = true <->
         move0 x = true \/ In x ((r_i1 s :: P) ++ cmp (r_i1 s :: P)))).
      { intros x Hxx. rewrite !set_move_spec, MV by auto. rewrite EC. rewrite !in_app_iff, !in_cmp. cbn [In].
        assert (EE : i1_eq x (r_i1 s)) by (unfold i1_eq; lia). unfold i1_eq in EE. intuition. }
      unfold rot_body. fold k. cbn zeta.
      destruct (Z.eqb_spec (pi (r_i1 s)) i) as [E1|E1].
      { exists P. cbn [r_i1 r_i1c r_cnt r_move r_m]. split; [auto|]. split; [auto|]. split; [auto|]. split; [cbn [length]; lia|]. auto 10. }
      destruct (Z.eqb_spec (pi (r_i1 s)) (k - i)) as [E2|E2].
      { exists P. cbn [r_i1 r_i1c r_cnt r_move r_m]. split; [auto|]. split; [auto|]. split; [auto|]. split; [cbn [length]; lia|]. auto 10. }
      pose proof (chain_step _ _ _ CH E1 E2) as CH2.
      pose proof (chain_fresh _ _ _ CH E1 E2) as FR.
      split; [|cbn [r_cnt]; cbn [length] in LEN; lia].
      exists (r_i1 s :: P). split; cbn [r_i1 r_i1c r_cnt r_move r_m].
      + exact CH2.
      + reflexivity.
      + assert (A1 : ~ In (pi (r_i1 s)) D).
        { intros H. apply HDb in H; auto. apply (ND (r_i1 s)); auto. now left. }
        intros x Hxx. apply in_app_iff in Hxx as [[<-|Hxx]|Hxx]; auto.
        * apply ND. apply in_app_iff. now left.
        * rewrite in_cmp in Hxx. destruct Hxx as [Hxx|Hxx].
          -- intros H. apply A1. rewrite Hxx. now apply HDc'.
          -- apply ND. apply in_app_iff. right. now apply in_cmp.
      + cbn [length]. lia.
      + exact MV2.
      + intros x v Rx Hv. rewrite mv_el by auto. rewrite EC.
        assert (Rc : rg (k - r_i1 s)) by now apply comp_rg.
        assert (R2 : rg (pi (r_i1 s))) by now apply pi_rg.
        assert (P1 : inb (pi (r_i1 s)) (P ++ cmp P) = false).
        { apply not_true_is_false. rewrite inb_spec. intros H. apply FR. apply in_app_iff in H. apply in_app_iff.
          destruct H as [H|H]; [left; now right|right]. rewrite in_cmp in *. now right. }
        assert (P2 : inb (k - pi (r_i1 s)) (P ++ cmp P) = false).
        { apply not_true_is_false. rewrite inb_spec. intros H. apply FR. apply in_app_iff in H. apply in_app_iff.
          destruct H as [H|H]; [right; apply in_cmp; now right|left; right]. rewrite in_cmp in H.
          replace (k - (k - pi (r_i1 s))) with (pi (r_i1 s)) in H by ring. exact H. }
        assert (NE : r_i1 s <> k - r_i1 s).
        { intros E. apply (NoDup_app_disj _ _ (r_i1 s) (ch_nd _ _ _ CH)); [now left|]. apply in_cmp. rewrite <- E. now left. }
        assert (NE2 : k - pi (r_i1 s) <> r_i1 s).
        { intros E. apply FR. apply in_app_iff. right. apply in_cmp. rewrite E. now left. }
        destruct (Z.eqb_spec x (k - r_i1 s)) as [->|Hn1].
        * change (vl_ (mv N (sh a (N * pi (r_i1 s))) (sh a (N * r_i1 s)) (r_m s)) (k - pi (r_i1 s)) v
                  = vl_ M (if inb (k - r_i1 s) ((r_i1 s :: P) ++ cmp (r_i1 s :: P)) then pi (k - r_i1 s) else k - r_i1 s) v).
          rewrite mv_el by auto. destruct (Z.eqb_spec (k - pi (r_i1 s)) (r_i1 s)); [lia|].
          rewrite VV by (auto; now apply comp_rg). rewrite P2.
          replace (inb (k - r_i1 s) ((r_i1 s :: P) ++ cmp (r_i1 s :: P))) with true; [now rewrite pi_comp|].
          symmetry. apply inb_spec. apply in_app_iff. right. apply in_cmp. replace (k - (k - r_i1 s)) with (r_i1 s) by ring. now left.
        * rewrite mv_el by auto. destruct (Z.eqb_spec x (r_i1 s)) as [->|Hn2].
          -- change (vl_ (r_m s) (pi (r_i1 s)) v = vl_ M (if inb (r_i1 s) ((r_i1 s :: P) ++ cmp (r_i1 s :: P)) then pi (r_i1 s) else r_i1 s) v).
             rewrite VV by auto. rewrite P1.
             replace (inb (r_i1 s) ((r_i1 s :: P) ++ cmp (r_i1 s :: P))) with true; [reflexivity|].
             symmetry. apply inb_spec. now left.
          -- rewrite VV by auto. replace (inb x ((r_i1 s :: P) ++ cmp (r_i1 s :: P))) with (inb x (P ++ cmp P)); [reflexivity|].
             apply eq_true_iff_eq. rewrite !inb_spec, !in_app_iff, !in_cmp. cbn [In]. intuition lia.
      + intros l Hl. rewrite !mv_el_out; auto. rewrite EC. now apply comp_rg.
    - exists []. split; cbn [r_i1 r_i1c r_cnt r_move r_m length]; auto; try lia.
      + now apply chain_init.
      + intros x [<-|[<-|[]]]; auto.
      + intros x Hxx. cbn. tauto.
    - cbn [r_cnt]. pose proof k_pos. split; [lia|]. apply bits_ok. lia.
  Qed.
  (** ** Searching for the next cycle *)
  Lemma chase_ok i max : rg i -> pi i <> i -> max <= k + 1 ->
    exists i2 C, loop (bits (k + 1)) (chase_body nx ny i max) (pi i) = Done i2 /\
      In i C /\ (forall y, In y C -> rg y /\ (y <> i -> i < y < max)) /\
      (forall y, In y C -> In (pi y) C \/ pi y = i2) /\ ~ (i < i2 < max) /\
      (exists z, In z C /\ pi z = i2) /\
      (forall Q : Z -> Prop, Q i -> (forall x, rg x -> Q x -> Q (pi x)) -> Q i2).
  Proof.
    intros Ri Hf Hmax.
    set (INV := fun (PH : list Z * Z) (s : Z) => let '(P, h) := PH in
       NoDup (h :: P) /\ s = pi h /\ In i (h :: P) /\ (forall y, In y (h :: P) -> rg y /\ (y <> i -> i < y < max)) /\
       (forall y, In y P -> In (pi y) (h :: P)) /\ (forall y, In y (h :: P) -> y <> i -> exists x, In x P /\ pi x = y) /\
       (forall Q : Z -> Prop, Q i -> (forall x, rg x -> Q x -> Q (pi x)) -> Q s)).
    (* the measure must be a function of the state: count the steps instead *)
    assert (G : forall n h P s, (Z.of_nat (length (h :: P)) + n = k + 1) -> 0 <= n -> INV (P, h) s ->
      forall kk, n < 2 ^ Z.of_nat kk -> exists i2 C, loop kk (chase_body nx ny i max) s = Done i2 /\
      In i C /\ (forall y, In y C -> rg y /\ (y <> i -> i < y < max)) /\
      (forall y, In y C -> In (pi y) C \/ pi y = i2) /\ ~ (i < i2 < max) /\
      (exists z, In z C /\ pi z = i2) /\
      (forall Q : Z -> Prop, Q i -> (forall x, rg x -> Q x -> Q (pi x)) -> Q i2)).
    { intros n h P s Hn Hn0 HI kk Hkk.
      (* generalised progress lemma with a ghost list *)
      assert (PR : forall kk h P s, INV (P, h) s ->
        match loop kk (chase_body nx ny i max) s with
        | Cont s' => exists h' P', INV (P', h') s' /\ Z.of_nat (length P') = Z.of_nat (length P) + 2 ^ Z.of_nat kk
        | Done i2 => exists C, In i C /\ (forall y, In y C -> rg y /\ (y <> i -> i < y < max)) /\
             (forall y, In y C -> In (pi y) C \/ pi y = i2) /\ ~ (i < i2 < max) /\ (exists z, In z C /\ pi z = i2) /\
             (forall Q : Z -> Prop, Q i -> (forall x, rg x -> Q x -> Q (pi x)) -> Q i2)
        end).
      { clear Hn Hn0 HI Hkk. clear n h P s kk. intros kk. induction kk as [|kk IH]; intros h P s HI.
        - cbn [loop]. unfold chase_body. destruct HI as (ND & -> & Hi & Rg & Nx & Pd & Fw).
          destruct ((i <? pi h) && (pi h <? max)) eqn:E.
          + apply andb_true_iff in E as [E1 E2]. apply Z.ltb_lt in E1, E2.
            assert (Rh : rg h) by (apply Rg; now left).
            exists (pi h), (h :: P). split.
            * split; [|split; [reflexivity|]].
              { constructor; auto. intros H. destruct (Pd _ H ltac:(lia)) as (x & Hxx & E).
                apply pi_inj in E; auto; [|apply Rg; now right]. subst x. inversion ND; auto. }
              split; [now right|]. split.
              { intros y [<-|Hyy]; [split; [now apply pi_rg|auto]|auto]. }
              split.
              { intros y [<-|Hyy]; [now left|right; auto]. }
              split.
              { intros y [<-|Hyy] Hne; [exists h; split; [now left|auto]|].
                destruct (Pd y Hyy Hne) as (x & Hxx & E). exists x. split; [now right|auto]. }
              { intros Q Qi QS. apply QS; [now apply pi_rg|]. now apply Fw. }
            * cbn [length]. change (2 ^ Z.of_nat 0) with 1. lia.
          + exists (h :: P). split; auto. split; auto. split.
            { intros y [<-|Hyy]; auto. }
            split; [|split; [exists h; split; [now left|auto]|exact Fw]].
            apply andb_false_iff in E as [E|E]; apply Z.ltb_ge in E; lia.
        - cbn [loop]. pose proof (IH h P s HI) as H1. destruct (loop kk _ s) as [s'|r]; auto.
          destruct H1 as (h' & P' & HI' & L'). pose proof (IH h' P' s' HI') as H2. destruct (loop kk _ s') as [s''|r]; auto.
          destruct H2 as (h2 & P2 & HI2 & L2). exists h2, P2. split; auto. rewrite L2, L'.
          rewrite Nat2Z.inj_succ, Z.pow_succ_r by lia. lia. }
      specialize (PR kk h P s HI). destruct (loop kk _ s) as [s'|r].
      - exfalso. destruct PR as (h' & P' & (ND & _ & _ & Rg & _) & L).
        pose proof (length_bound (h' :: P') ND (fun y Hyy => proj1 (Rg y Hyy))) as B. cbn [length] in *. lia.
      - destruct PR as (C & HC). exists r, C. split; auto. }
    apply (G k i []).
    - cbn [length]. lia.
    - pose proof k_pos. lia.
    - split; [repeat constructor; auto|]. split; [reflexivity|]. split; [now left|]. split.
      { intros y [<-|[]]. split; [auto|congruence]. }
      split; [intros y []|]. split; [intros y [<-|[]]; congruence|]. intros Q Qi QS. now apply QS.
    - apply bits_ok. lia.
  Qed.

  (** the processed set at search position [i] *)
  Record done_set (i : Z) (D : list Z) : Prop := {
    ds_nd : NoDup D;
    ds_rg : forall x, In x D -> rg x /\ pi x <> x;
    ds_fwd : forall x, In x D -> In (pi x) D;
    ds_bwd : forall x, rg x -> In (pi x) D -> In x D;
    ds_cmp : forall x, In x D -> In (k - x) D;
    ds_low : forall C : Z -> Prop, (forall x, rg x -> C x -> C (pi x)) -> forall x, In x D -> C x -> exists y, C y /\ (y <= i \/ k - i <= y)
  }.
  Lemma ds_cmp' i D x : done_set i D -> In (k - x) D -> In x D.
  Proof. intros H Hc. apply (ds_cmp _ _ H) in Hc. replace (k - (k - x)) with x in Hc by ring. exact Hc. Qed.

  Lemma not_all_done i D : done_set i D -> Z.of_nat (length D) + (g + 1) < k + 1 ->
    ~ (forall x, rg x -> pi x = x \/ In x D).
  Proof.
    intros DS HL H. pose proof k_pos as Hk.
    assert (I : incl (zr (k + 1)) (D ++ fixl)).
    { intros x Hxx. apply in_zr in Hxx. assert (R : rg x) by (unfold rg; lia). apply in_app_iff.
      destruct (H x R); [right; apply in_fixl; auto|now left]. }
    pose proof (NoDup_incl_length (NoDup_zr (k + 1)) I) as B. rewrite zr_length, app_length in B by lia.
    pose proof fixl_length. lia.
  Qed.

  Lemma all_done i D : done_set i D -> k + 1 <= Z.of_nat (length D) + (g + 1) ->
    forall x, rg x -> pi x = x \/ In x D.
  Proof.
    intros DS HL x R. pose proof k_pos as Hk.
    assert (ND : NoDup (D ++ fixl)).
    { apply NoDup_app_intro; [apply DS|apply fixl_NoDup|]. intros y H1 H2. apply in_fixl in H2. apply (ds_rg _ _ DS) in H1. tauto. }
    assert (I : incl (D ++ fixl) (zr (k + 1))).
    { intros y Hyy. apply in_zr. apply in_app_iff in Hyy as [Hyy|Hyy]; [apply (ds_rg _ _ DS) in Hyy|apply in_fixl in Hyy]; unfold rg in Hyy; lia. }
    pose proof fixl_length as FL.
    assert (L : (length (zr (k + 1)) <= length (D ++ fixl))%nat).
    { rewrite zr_length, app_length by lia. lia. }
    pose proof (NoDup_length_incl ND L I x) as J. specialize (J ltac:(apply in_zr; unfold rg in R; lia)).
    apply in_app_iff in J as [J|J]; [now right|]. apply in_fixl in J. now left.
  Qed.

  Lemma search_ok i im D move : done_set i D -> 0 < i <= k -> im = pi i ->
    (forall x, 0 <= x <= i -> pi x = x \/ In x D) ->
    (forall x, 0 <= x < move_size -> (move x = true <-> In x D)) ->
    Z.of_nat (length D) + (g + 1) < k + 1 ->
    exists i' , loop (bits (k + 1)) (search_body nx ny move_size move) (i, im) = Done (Some (i', pi i')) /\
      i < i' <= k /\ ~ In i' D /\ pi i' <> i' /\ (forall x, 0 <= x < i' -> pi x = x \/ In x D).
  Proof.
    intros DS Hi Him Hlow Hmv HL.
    edestruct (fun HH => loop_rule (search_body nx ny move_size move)
      (fun s => i <= fst s <= k /\ snd s = pi (fst s) /\ (forall x, 0 <= x <= fst s -> pi x = x \/ In x D))
      (fun s => k - fst s)
      (fun r => exists i', r = Some (i', pi i') /\ i < i' <= k /\ ~ In i' D /\ pi i' <> i' /\ (forall x, 0 <= x < i' -> pi x = x \/ In x D))
      HH (bits (k + 1)) (i, im)) as (r & Hr & HQ).
    - intros [i0 im0] (B & Eim & Low). cbn [fst snd] in *. subst im0.
      assert (Hlt : i0 < k).
      { destruct (Z.eq_dec i0 k) as [->|]; [|lia]. exfalso. apply (not_all_done i D DS HL). intros x R. apply Low. exact R. }
      unfold search_body. fold k. cbn zeta.
      assert (R0 : rg i0) by (unfold rg; lia). assert (R1 : rg (i0 + 1)) by (unfold rg; lia).
      rewrite <- (pi_succ i0 R0 Hlt). set (j := i0 + 1) in *.
      assert (LOWJ : pi j = j \/ In j D -> forall x, 0 <= x <= j -> pi x = x \/ In x D).
      { intros H x Hxx. destruct (Z.eq_dec x j) as [->|]; auto. apply Low. lia. }
      destruct (Z.eqb_spec j (pi j)) as [E|E].
      { cbn [fst snd]. split; [|lia]. split; [lia|]. split; [auto|]. apply LOWJ. left. auto. }
      destruct (Z.leb_spec move_size j) as [Hms|Hms].
      + destruct (chase_ok j (k - i0) R1 ltac:(auto) ltac:(lia)) as (i2 & C & -> & CI & CR & CN & CE & (z & Cz & Ez) & CF).
        destruct (Z.eqb_spec i2 j) as [->|Hne].
        * exists j. split; auto. split; [lia|].
          assert (NJ : ~ In j D).
          { intros HJ. destruct (ds_low _ _ DS (fun y => In y C)) with (x := j) as (y & Cy & Hb); auto.
            - intros x _ Hxx. destruct (CN x Hxx) as [H|H]; auto. now rewrite H.
            - destruct (CR y Cy) as [_ Hy2]. destruct (Z.eq_dec y j) as [->|Hyj]; [|specialize (Hy2 Hyj); lia].
              destruct Hb as [Hb|Hb]; [lia|]. 
              (* j >= k - i : then k-j <= i is processed, so j is processed through its companion *)
              destruct (CR (pi j)) as [_ H3].
              { destruct (CN j CI) as [H|H]; auto. congruence. }
              specialize (H3 ltac:(auto)). lia. }
          split; auto. split; auto. intros x Hxx. apply Low. lia.
        * cbn [fst snd]. split; [|lia]. split; [lia|]. split; [auto|]. apply LOWJ. right.
          destruct (in_dec Z.eq_dec j D) as [|NJ]; auto. exfalso.
          (* an unprocessed cycle stays inside (j, k-j] *)
          assert (Q : (rg i2 /\ ~ In i2 D) /\ pi i2 <> i2).
          { apply (CF (fun x => (rg x /\ ~ In x D) /\ pi x <> x)).
            - auto.
            - intros x Rx ((_ & NX) & NF). split; [split; [now apply pi_rg|]|].
              + intros H. apply NX. now apply (ds_bwd _ _ DS).
              + intros H. apply NF. apply pi_inj; auto. now apply pi_rg. }
          destruct Q as ((R2 & N2) & F2).
          assert (L1 : j <= i2). { destruct (Z_lt_le_dec i2 j) as [L|L]; auto. destruct (Low i2) as [H|H]; [unfold rg in R2; lia|tauto|tauto]. }
          assert (L2 : i2 < k - i0).
          { destruct (Z_lt_le_dec i2 (k - i0)) as [L|L]; auto. exfalso.
            destruct (Low (k - i2)) as [H|H]; [unfold rg in R2; lia| |].
            - rewrite pi_comp in H by auto. lia.
            - apply (ds_cmp' _ _ _ DS) in H. tauto. }
          lia.
      + destruct (move j) eqn:Emv; cbn [negb].
        * cbn [fst snd]. split; [|lia]. split; [lia|]. split; [auto|]. apply LOWJ. right. apply Hmv; auto. lia.
        * exists j. split; auto. split; [lia|]. split.
          { intros H. apply Hmv in H; [congruence|lia]. }
          split; auto. intros x Hxx. apply Low. lia.
    - cbn [fst snd]. auto with zarith.
    - cbn [fst]. split; [lia|]. apply bits_ok. lia.
    - destruct HQ as (i' & -> & H). exists i'. auto.
  Qed.

  (** ** The whole algorithm *)
  Record toms_inv (m0 : mem) (D : list Z) (s : toms) : Prop := {
    tv_ds : done_set (t_i s - 1) D;
    tv_i : 0 < t_i s <= k /\ ~ In (t_i s) D /\ pi (t_i s) <> t_i s;
    tv_im : t_im s = pi (t_i s);
    tv_low : forall x, 0 <= x < t_i s -> pi x = x \/ In x D;
    tv_mv : forall x, 0 <= x < move_size -> (t_move s x = true <-> In x D);
    tv_cnt : t_cnt s = Z.of_nat (length D) + (g + 1);
    tv_bc : (t_b s = buf /\ t_c s = sh buf N) \/ (t_c s = buf /\ t_b s = sh buf N);
    tv_v : forall x v, rg x -> 0 <= v < N -> vl_ (t_m s) x v = vl_ m0 (if inb x D then pi x else x) v;
    tv_f : forall l, fst l <> fst buf -> (forall y v, rg y -> 0 <= v < N -> l <> sh (sh a (N * y)) v) -> t_m s l = m0 l
  }.

  Lemma done_set_mono i i' D : i <= i' -> done_set i D -> done_set i' D.
  Proof.
    intros Hii [A B C' D' E F]. split; auto. intros C HC x Hxx Cx. destruct (F C HC x Hxx Cx) as (y & Cy & H). exists y. split; auto. lia.
  Qed.

  Lemma toms_loop_ok m0 D0 s0 : toms_inv m0 D0 s0 ->
    exists mm, loop (bits (k + 1)) (toms_body a nx ny N move_size) s0 = Done (Some mm) /\
      (forall x v, rg x -> 0 <= v < N -> vl_ mm x v = vl_ m0 (pi x) v) /\
      (forall l, fst l <> fst buf -> (forall y v, rg y -> 0 <= v < N -> l <> sh (sh a (N * y)) v) -> mm l = m0 l).
  Proof.
    intros INV0. pose proof k_pos as Hk.
    edestruct (fun HH => loop_rule (toms_body a nx ny N move_size) (fun s => exists D, toms_inv m0 D s)
      (fun s => k + 1 - t_cnt s)
      (fun r => exists mm, r = Some mm /\ (forall x v, rg x -> 0 <= v < N -> vl_ mm x v = vl_ m0 (pi x) v) /\
      (forall l, fst l <> fst buf -> (forall y v, rg y -> 0 <= v < N -> l <> sh (sh a (N * y)) v) -> mm l = m0 l))
      HH (bits (k + 1)) s0) as (r & Hr & mm & -> & HQ); [| | |exists mm; auto].
    - intros s [D INV]. destruct INV as [DS (Bi & NiD & Fi) Him LOW MVS CNT BC VV FF].
      unfold toms_body. fold k. cbn zeta. set (i := t_i s) in *.
      set (M := mv N (sh a (N * (k - i))) (t_c s) (mv N (sh a (N * i)) (t_b s) (t_m s))).
      assert (Ri : rg i) by (unfold rg; lia). assert (Rci : rg (k - i)) by now apply comp_rg.
      assert (Bb : fst (t_b s) = fst buf) by (destruct BC as [[X1 X2]|[X1 X2]]; rewrite ?X1, ?X2; reflexivity).
      assert (Bc : fst (t_c s) = fst buf) by (destruct BC as [[X1 X2]|[X1 X2]]; rewrite ?X1, ?X2; reflexivity).
      assert (MA : forall l, fst l <> fst buf -> M l = t_m s l).
      { intros l Hl. unfold M. rewrite !mv_other; auto; intros v _ ->; rewrite sh_blk in Hl; congruence. }
      assert (MV0 : forall x v, vl_ M x v = vl_ (t_m s) x v) by (intros; apply MA; rewrite !sh_blk; exact Hab).
      assert (Mb : forall v, 0 <= v < N -> M (sh (t_b s) v) = vl_ (t_m s) i v).
      { intros v Hv. unfold M. rewrite mv_other; [now apply mv_in|]. intros w Hw E.
        destruct BC as [[X1 X2]|[X1 X2]]; rewrite X1, X2, sh_sh in E; apply sh_inj in E; lia. }
      assert (Mc : forall v, 0 <= v < N -> M (sh (t_c s) v) = vl_ (t_m s) (k - i) v).
      { intros v Hv. unfold M. rewrite mv_in by auto. rewrite mv_other; [reflexivity|]. intros w Hw E.
        apply (f_equal fst) in E. rewrite !sh_blk in E. congruence. }
      clearbody M.
      destruct (rot_loop_ok i D (t_move s) (t_cnt s) M Ri Fi NiD (ds_bwd _ _ DS) (fun x => ds_cmp' _ _ x DS)) as ([r swp] & -> & P & CH & EC & ND & RC & RM & RV & RF & RE).
      set (i1 := r_i1 r) in *. set (b := if swp then t_c s else t_b s). set (c := if swp then t_b s else t_c s).
      set (m2 := mv N c (sh a (N * r_i1c r)) (mv N b (sh a (N * i1)) (r_m r))).
      set (PP := (i1 :: P) ++ cmp (i1 :: P)). set (D1 := PP ++ D).
      assert (R1 : rg i1) by (apply (ch_rg _ _ _ CH); now left).
      assert (RPP : forall x, In x PP -> rg x) by (intros x; apply (chain_rgc i i1 P x CH)).
      assert (CLO : forall x, rg x -> (In (pi x) PP <-> In x PP)).
      { apply (chain_closed i i1 P CH). rewrite RE. destruct swp; auto. }
      assert (PPc : forall x, In x PP -> In (k - x) PP).
      { intros x Hxx. unfold PP in *. rewrite in_app_iff, in_cmp in *. replace (k - (k - x)) with x by ring. tauto. }
      assert (PF : forall x, In x PP -> pi x <> x).
      { (* a fixed point cannot be in the orbit of the non-fixed point i *)
        intros x Hxx Hfx. pose proof (RPP x Hxx) as Rx.
        destruct (ch_fwd _ _ _ CH (fun y => y = x)) as [F1 F2]; [intros y _ ->; auto|].
        unfold PP in Hxx. apply in_app_iff in Hxx as [Hxx|Hxx].
        - specialize (F1 x Hxx eq_refl). rewrite F1 in RE. rewrite Hfx in RE. destruct swp; [|congruence].
          apply Fi. assert (E : i = k - x) by lia. rewrite E, pi_comp, Hfx by auto. reflexivity.
        - specialize (F2 x Hxx eq_refl). assert (E : i1 = k - x) by lia.
          assert (E3 : pi i1 = i1) by (rewrite E, pi_comp, Hfx by auto; reflexivity). rewrite E3 in RE.
          destruct swp; [|congruence]. apply Fi. assert (E2 : i = x) by lia. rewrite E2. exact Hfx. }
      assert (iPP : In i PP) by (unfold PP; apply in_app_iff; left; apply CH).
      assert (DS1 : done_set i D1).
      { split.
        - unfold D1. apply NoDup_app_intro; [apply CH|apply DS|]. intros x H1 H2. exact (ND x H1 H2).
        - intros x Hxx. unfold D1 in Hxx. apply in_app_iff in Hxx as [Hxx|Hxx]; [auto|now apply (ds_rg _ _ DS)].
        - intros x Hxx. unfold D1 in *. apply in_app_iff in Hxx. apply in_app_iff. destruct Hxx as [Hxx|Hxx].
          + left. apply CLO; auto.
          + right. now apply (ds_fwd _ _ DS).
        - intros x Rx Hxx. unfold D1 in *. apply in_app_iff in Hxx. apply in_app_iff. destruct Hxx as [Hxx|Hxx].
          + left. now apply CLO.
          + right. now apply (ds_bwd _ _ DS).
        - intros x Hxx. unfold D1 in *. apply in_app_iff in Hxx. apply in_app_iff. destruct Hxx as [Hxx|Hxx]; [auto|].
          right. now apply (ds_cmp _ _ DS).
        - intros C HC x Hxx Cx. unfold D1 in Hxx. apply in_app_iff in Hxx as [Hxx|Hxx].
          + destruct (ch_fwd _ _ _ CH C HC) as [F1 F2]. unfold PP in Hxx. apply in_app_iff in Hxx as [Hxx|Hxx].
            * specialize (F1 x Hxx Cx). apply HC in F1; auto. rewrite RE in F1. destruct swp; eexists; (split; [exact F1|]); lia.
            * specialize (F2 x Hxx Cx). apply HC in F2; [|now apply comp_rg]. rewrite pi_comp, RE in F2 by auto.
              destruct swp; eexists; (split; [exact F2|]); lia.
          + destruct (ds_low _ _ DS C HC x Hxx Cx) as (y & Cy & H). exists y. split; auto. lia. }
      assert (CNT1 : r_cnt r = Z.of_nat (length D1) + (g + 1)).
      { rewrite RC, CNT. unfold D1, PP, cmp. rewrite !app_length, map_length. lia. }
      assert (NE : i1 <> k - i1).
      { intros E. apply (PF i1); [now left|]. now apply self_comp_fixed. }
      assert (VM2 : forall x v, rg x -> 0 <= v < N -> vl_ m2 x v = vl_ m0 (if inb x D1 then pi x else x) v).
      { intros x v Rx Hv. unfold m2. rewrite EC. 
        assert (Bb' : fst b = fst buf) by (unfold b; destruct swp; auto).
        assert (Bc' : fst c = fst buf) by (unfold c; destruct swp; auto).
        assert (IN1 : forall y, In y PP -> inb y D1 = true) by (intros y Hyy; apply inb_spec; unfold D1; apply in_app_iff; now left).
        assert (ND1 : forall y, In y PP -> inb y D = false) by (intros y Hyy; apply not_true_is_false; rewrite inb_spec; now apply ND).
        assert (Rb : forall y, r_m r (sh b y) = M (sh b y)).
        { intros y. apply RF. intros y0 v0 _ _ E. apply (f_equal fst) in E. rewrite !sh_blk in E. congruence. }
        assert (Rc : forall y, r_m r (sh c y) = M (sh c y)).
        { intros y. apply RF. intros y0 v0 _ _ E. apply (f_equal fst) in E. rewrite !sh_blk in E. congruence. }
        rewrite mv_el by auto. destruct (Z.eqb_spec x (k - i1)) as [->|Hn1].
        - assert (H1 : In (k - i1) PP) by (apply PPc; now left). rewrite IN1 by auto. rewrite pi_comp by auto. 
          rewrite mv_other.
          2:{ intros w _ E. apply (f_equal fst) in E. rewrite !sh_blk in E. congruence. }
          rewrite Rc. unfold c. rewrite RE. destruct swp.
          + rewrite Mb, VV by auto. rewrite ND1 by auto. f_equal. ring.
          + rewrite Mc, VV by auto. rewrite ND1; auto.
        - rewrite mv_el by auto. destruct (Z.eqb_spec x i1) as [->|Hn2].
          + rewrite IN1 by now left. rewrite Rb. unfold b. rewrite RE. destruct swp.
            * rewrite Mc, VV by auto. rewrite ND1 by auto. reflexivity.
            * rewrite Mb, VV by auto. rewrite ND1; auto.
          + rewrite RV by auto. rewrite MV0. destruct (inb x (P ++ cmp P)) eqn:E.
            * apply inb_spec in E. assert (Hxx : In x PP).
              { unfold PP. apply in_app_iff in E. apply in_app_iff. rewrite in_cmp in *. cbn [In]. tauto. }
              rewrite IN1 by auto. rewrite VV by (auto; now apply pi_rg). rewrite ND1; auto. apply CLO; auto.
            * rewrite VV by auto. replace (inb x D1) with (inb x D); [reflexivity|].
              apply eq_true_iff_eq. rewrite !inb_spec. unfold D1, PP. rewrite !in_app_iff. split; [tauto|]. intros [[H|H]|H]; auto; exfalso.
              -- destruct H as [H|H]; [lia|]. assert (inb x (P ++ cmp P) = true) by (apply inb_spec, in_app_iff; now left). congruence.
              -- rewrite in_cmp in H. destruct H as [H|H]; [lia|]. 
                 assert (inb x (P ++ cmp P) = true) by (apply inb_spec, in_app_iff; right; now apply in_cmp). congruence. }
      assert (FM2 : forall l, fst l <> fst buf -> (forall y v, rg y -> 0 <= v < N -> l <> sh (sh a (N * y)) v) -> m2 l = m0 l).
      { intros l Hl Hl'. unfold m2. rewrite EC. rewrite !mv_el_out; auto; [|now apply comp_rg].
        rewrite RF by auto. rewrite MA by auto. now apply FF. }
      clearbody m2.
      replace (ny * nx) with (k + 1) by (unfold k; ring).
      destruct (Z.leb_spec (k + 1) (r_cnt r)) as [Hfin|Hgo].
      { exists m2. split; auto. split; auto. intros x v Rx Hv. rewrite VM2 by auto. f_equal.
        destruct (all_done i D1 DS1 ltac:(lia) x Rx) as [H|H].
        - destruct (inb x D1); congruence.
        - apply inb_spec in H. now rewrite H. }
      destruct (search_ok i (t_im s) D1 (r_move r) DS1 ltac:(lia) Him) as (i' & -> & Bi' & Ni' & Fi' & Low').
      { intros x Hxx. destruct (Z.eq_dec x i) as [->|Hne].
        - right. unfold D1. apply in_app_iff. now left.
        - destruct (LOW x ltac:(lia)) as [H|H]; auto. right. unfold D1. apply in_app_iff. now right. }
      { intros x Hxx. rewrite RM by auto. rewrite MVS by auto. fold i1. fold PP. unfold D1. rewrite (in_app_iff PP D). tauto. }
      { lia. }
      split.
      + exists D1. split; cbn [t_i t_im t_move t_cnt t_b t_c t_m]; auto.
        * eapply done_set_mono; [|exact DS1]. lia.
        * split; [lia|auto].
        * intros x Hxx. rewrite RM by auto. rewrite MVS by auto. fold i1. fold PP. unfold D1. rewrite (in_app_iff PP D). tauto.
        * unfold b, c. destruct swp; tauto.
      + cbn [t_cnt]. cbn [length] in RC. lia.
    - exists D0. exact INV0.
    - destruct INV0 as [DS (Bi & NiD & Fi) Him LOW MVS CNT BC VV FF]. pose proof g_pos.
      assert (B : Z.of_nat (length D0) + (g + 1) <= k + 1).
      { assert (ND : NoDup (D0 ++ fixl)).
        { apply NoDup_app_intro; [apply DS|apply fixl_NoDup|]. intros y H1 H2. apply in_fixl in H2. apply (ds_rg _ _ DS) in H1. tauto. }
        pose proof (length_bound _ ND) as B. rewrite app_length in B. pose proof fixl_length. 
        assert (Z.of_nat (length D0 + length fixl) <= k + 1); [|lia]. apply B. intros x Hxx. apply in_app_iff in Hxx as [Hxx|Hxx].
        - now apply (ds_rg _ _ DS). - apply in_fixl in Hxx. tauto. }
      rewrite CNT. split; [lia|]. apply bits_ok. lia.
  Qed.

  Theorem toms513_ok m0 : exists mm, transpose_toms513 a buf nx ny N move_size m0 = Some mm /\
      (forall x v, rg x -> 0 <= v < N -> vl_ mm x v = vl_ m0 (pi x) v) /\
      (forall l, fst l <> fst buf -> (forall y v, rg y -> 0 <= v < N -> l <> sh (sh a (N * y)) v) -> mm l = m0 l).
  Proof.
    pose proof k_pos as Hk. unfold transpose_toms513. fold k.
    assert (E : 2 + (if (3 <=? ny) && (3 <=? nx) then cgcd (ny - 1) (nx - 1) - 1 else 0) = g + 1).
    { rewrite cgcd_gcd by lia. fold g. destruct ((3 <=? ny) && (3 <=? nx)) eqn:E; [lia|].
      apply andb_false_iff in E. unfold g. destruct E as [E|E]; apply Z.leb_gt in E.
      - replace (ny - 1) with 1 by lia. rewrite Z.gcd_1_l. lia.
      - replace (nx - 1) with 1 by lia. rewrite Z.gcd_1_r. lia. }
    rewrite E.
    destruct (toms_loop_ok m0 [] (mktoms 1 ny (fun _ => false) (g + 1) buf (sh buf N) m0)) as (mm & -> & H).
    - split; cbn [t_i t_im t_move t_cnt t_b t_c t_m].
      + split; try (intros x []); try easy. constructor.
      + rewrite pi_1. split; [lia|]. split; [easy|]. lia.
      + now rewrite pi_1.
      + intros x Hxx. left. assert (x = 0) by lia. subst. unfold toms_next. rewrite Z.quot_0_l by lia. ring.
      + intros x _. cbn. split; [discriminate|tauto].
      + reflexivity.
      + left. auto.
      + reflexivity.
      + reflexivity.
    - exists mm. auto.
  Qed.
End Pi.

Theorem apply_toms513_correct nd n m vl : 2 <= n -> 2 <= m -> 0 < vl ->
  Correct nd true xcopy (Tr n m vl) (apply_toms513 n m vl).
Proof.
  intros Hn Hm Hv. apply Tr_intro; try lia. intros nx I mm HI. unfold apply_toms513.
  destruct (toms513_ok n m Hn Hm I (nx, 0) vl ltac:(cbn; lia) Hv (Z.quot (n + m) 2) mm) as (m' & -> & V & F). split.
  - intros i j v Hi Hj Hv'.
    specialize (V (j * n + i) v (qr_rg n m Hn Hm j i Hj Hi) Hv'). rewrite pi_spec in V by lia. unfold vl_ in V. rewrite !sh_sh in V.
    replace (j * (n * vl) + i * vl + v) with (vl * (j * n + i) + v) by ring. rewrite V. f_equal. f_equal. ring.
  - intros l Hl H. apply F; [cbn; lia|]. intros y v Hy Hv'. rewrite sh_sh. apply H. unfold rg in Hy.
    assert (0 <= vl * y) by nia. assert (vl * (y + 1) <= vl * (m * n)) by nia. lia.
Qed.
