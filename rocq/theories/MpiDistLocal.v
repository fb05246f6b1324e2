(** * MpiDistLocal: what the local plans of the distributed transpose do *)
From Coq Require Import Reals ZArith List Lia Bool.
From Verif Require Import NumTheory Cplx Spec Base PrimesModel TensorModel Offs TensorProofs XForm XKern CopyModel CopyProofs TransProofs
  Rank0Model Rank0Plans PropCopy PropTranspose MpiModel MpiProofs MpiTransModel MpiDistModel.
Import ListNotations.
Open Scope Z_scope.

Lemma radix_uniq s a r a' r' : 0 <= r < s -> 0 <= r' < s -> a * s + r = a' * s + r' -> a = a' /\ r = r'.
Proof. intros H H' E. assert (a = a') by nia. subst. lia. Qed.

Lemma fst_sh (l : loc) x : fst (sh l x) = fst l.
Proof. reflexivity. Qed.

Section Local.
Variable qs : qsort_t.
Hypothesis Hq : qsort_perm qs.

Lemma local_copy ip t f I O m : rchild0 qs ip t f -> (if ip then I = O else fst I <> fst O) -> (fst I < 2)%nat -> (fst O < 2)%nat ->
  Forall (fun d => 0 <= dn d) t ->
  (forall ks js, in_box t ks -> in_box t js -> ioff t ks = ioff t js -> ks = js) ->
  (forall ks js, in_box t ks -> in_box t js -> ooff t ks = ooff t js -> ks = js) ->
  copies 2 t I O m (f 2%nat I O m).
Proof.
  intros HF HIO HI HO Hn Hi Ho. destruct (C24_any_copy_plan qs 2 t I O m f Hq) as [C1 C2]. destruct ip.
  - subst O. apply C2; auto. now constructor.
  - apply C1; auto. constructor; auto. intros ks js _ _ E. apply HIO. apply (f_equal fst) in E. now rewrite !fst_sh in E.
Qed.

Lemma box3 d1 d2 d3 ks : in_box [d1; d2; d3] ks -> exists a b c, ks = [a; b; c] /\ 0 <= a < dn d1 /\ 0 <= b < dn d2 /\ 0 <= c < dn d3.
Proof.
  destruct ks as [|a [|b [|c [|]]]]; cbn; try tauto. intros (H1 & H2 & H3 & _). exists a, b, c. auto.
Qed.
Lemma box2 d1 d2 ks : in_box [d1; d2] ks -> exists a b, ks = [a; b] /\ 0 <= a < dn d1 /\ 0 <= b < dn d2.
Proof.
  destruct ks as [|a [|b [|]]]; cbn; try tauto. intros (H1 & H2 & _). exists a, b. auto.
Qed.
Lemma box4 d1 d2 d3 d4 ks : in_box [d1; d2; d3; d4] ks ->
  exists a b c e, ks = [a; b; c; e] /\ 0 <= a < dn d1 /\ 0 <= b < dn d2 /\ 0 <= c < dn d3 /\ 0 <= e < dn d4.
Proof.
  destruct ks as [|a [|b [|c [|e [|]]]]]; cbn; try tauto. intros (H1 & H2 & H3 & H4 & _). exists a, b, c, e. auto 10.
Qed.

(** A local transposition of an r x c matrix of vn-tuples *)
Lemma transpose_copy ip r c vn f I O m : 0 <= r -> 0 <= c -> 1 <= vn ->
  rchild0 qs ip [mkdim r (c * vn) vn; mkdim c vn (r * vn); mkdim vn 1 1] f ->
  (if ip then I = O else fst I <> fst O) -> (fst I < 2)%nat -> (fst O < 2)%nat ->
  (forall i j v, 0 <= i < r -> 0 <= j < c -> 0 <= v < vn -> f 2%nat I O m (sh O ((j * r + i) * vn + v)) = m (sh I ((i * c + j) * vn + v))) /\
  (forall l, (fst l < 2)%nat -> (forall x, 0 <= x < r * c * vn -> l <> sh O x) -> f 2%nat I O m l = m l).
Proof.
  intros Hr Hc Hv HF HIO HI HO. set (t := [mkdim r (c * vn) vn; mkdim c vn (r * vn); mkdim vn 1 1]) in *.
  destruct (local_copy ip t f I O m HF HIO HI HO) as [V F].
  - repeat constructor; cbn; lia.
  - intros ks js Hk Hj E. apply box3 in Hk as (a & b & e & -> & A & B & C). apply box3 in Hj as (a' & b' & e' & -> & A' & B' & C').
    cbn [dn] in *. cbn [ioff t dis] in E. rewrite !Z.add_0_r, !Z.mul_1_r in E.
    destruct (radix_uniq vn (a * c + b) e (a' * c + b') e') as [E1 ->]; [lia|lia|lia|].
    destruct (radix_uniq c a b a' b') as [-> ->]; auto.
  - intros ks js Hk Hj E. apply box3 in Hk as (a & b & e & -> & A & B & C). apply box3 in Hj as (a' & b' & e' & -> & A' & B' & C').
    cbn [dn] in *. cbn [ooff t dos] in E. rewrite !Z.add_0_r, !Z.mul_1_r in E.
    destruct (radix_uniq vn (b * r + a) e (b' * r + a') e') as [E1 ->]; [lia|lia|lia|].
    destruct (radix_uniq r b a b' a') as [-> ->]; auto.
  - split.
    + intros i j v Hi Hj Hvv. specialize (V [i; j; v]). cbn [in_box t dn ooff ioff dos dis] in V.
      rewrite !Z.add_0_r, !Z.mul_1_r in V. replace ((j * r + i) * vn + v) with (i * vn + (j * (r * vn) + v)) by ring.
      replace ((i * c + j) * vn + v) with (i * (c * vn) + (j * vn + v)) by ring. apply V. auto 10.
    + intros l Hl N. apply F; auto. intros ks Hk. apply box3 in Hk as (a & b & e & -> & A & B & C). cbn [dn] in *.
      cbn [ooff t dos]. apply N. assert (0 <= b * (r * vn)) by nia. assert (b * (r * vn) <= (c - 1) * (r * vn)) by nia.
      assert (0 <= a * vn <= (r - 1) * vn) by nia. lia.
Qed.

(** After the exchange. *)
Section After.
Variables (p : problem_t) (w : Z) (X : Z -> Z -> Z -> R).
Let nx := p_nx p. Let vn := p_vn p. Let B := p_block p. Let bt := block (p_ny p) (p_tblock p) w.
Let nxb := Z.quot nx B. Let nxr := nx - nxb * B.
Hypothesis Hnx : 1 <= nx.
Hypothesis Hvn : 1 <= vn.
Hypothesis HB : 1 <= B.
Hypothesis Hbt : 0 <= bt.
(** the received chunks *)
Definition received (m : mem) (I : loc) : Prop :=
  (forall q i j v, 0 <= q < nxb -> 0 <= i < B -> 0 <= j < bt -> 0 <= v < vn ->
     m (sh I ((q * (bt * B) + j * B + i) * vn + v)) = X (q * B + i) j v) /\
  (forall i j v, 0 <= i < nxr -> 0 <= j < bt -> 0 <= v < vn ->
     m (sh I ((nxb * (bt * B) + j * nxr + i) * vn + v)) = X (nxb * B + i) j v).

Lemma nxb_facts : 0 <= nxb /\ 0 <= nxr < B /\ nx = nxb * B + nxr.
Proof.
  unfold nxr, nxb. rewrite Z.quot_div_nonneg by lia. pose proof (Z.div_mod nx B ltac:(lia)). pose proof (Z.mod_pos_bound nx B ltac:(lia)).
  assert (0 <= nx / B) by (apply Z.div_pos; lia). lia.
Qed.


Lemma direct_copy ip f I O m :
  rchild0 qs ip [mkdim nxb (bt * (B * vn)) (B * vn); mkdim bt (B * vn) (nx * vn); mkdim (B * vn) 1 1] f ->
  (if ip then I = O else fst I <> fst O) -> (fst I < 2)%nat -> (fst O < 2)%nat ->
  (forall q j e, 0 <= q < nxb -> 0 <= j < bt -> 0 <= e < B * vn ->
     f 2%nat I O m (sh O (j * (nx * vn) + (q * (B * vn) + e))) = m (sh I (q * (bt * (B * vn)) + j * (B * vn) + e))) /\
  (forall l, (fst l < 2)%nat -> (forall j x, 0 <= j < bt -> 0 <= x < nxb * (B * vn) -> l <> sh O (j * (nx * vn) + x)) -> f 2%nat I O m l = m l).
Proof.
  intros HF HIO HI HO. destruct nxb_facts as (N1 & N2 & N3). set (D := B * vn) in *. assert (HD : 1 <= D) by (unfold D; nia).
  assert (HN : nxb * D <= nx * vn) by (unfold D; nia).
  set (t := [mkdim nxb (bt * D) D; mkdim bt D (nx * vn); mkdim D 1 1]) in *.
  destruct (local_copy ip t f I O m HF HIO HI HO) as [V F].
  - repeat constructor; cbn; lia.
  - intros ks js Hk Hj E. apply box3 in Hk as (a & b & e & -> & A1 & A2 & A3). apply box3 in Hj as (a' & b' & e' & -> & A1' & A2' & A3').
    cbn [dn] in *. cbn [ioff t dis] in E. rewrite !Z.add_0_r, !Z.mul_1_r in E.
    destruct (radix_uniq D (a * bt + b) e (a' * bt + b') e') as [E1 ->]; [lia|lia|lia|].
    destruct (radix_uniq bt a b a' b') as [-> ->]; auto.
  - intros ks js Hk Hj E. apply box3 in Hk as (a & b & e & -> & A1 & A2 & A3). apply box3 in Hj as (a' & b' & e' & -> & A1' & A2' & A3').
    cbn [dn] in *. cbn [ooff t dos] in E. rewrite !Z.add_0_r, !Z.mul_1_r in E.
    assert (0 <= a * D <= (nxb - 1) * D) by nia. assert (0 <= a' * D <= (nxb - 1) * D) by nia.
    destruct (radix_uniq (nx * vn) b (a * D + e) b' (a' * D + e')) as [-> E1]; [lia|lia|lia|].
    destruct (radix_uniq D a e a' e') as [-> ->]; auto.
  - split.
    + intros q j e H1 H2 H3. specialize (V [q; j; e]). cbn [in_box t dn ooff ioff dos dis] in V. rewrite !Z.add_0_r, !Z.mul_1_r in V.
      replace (j * (nx * vn) + (q * D + e)) with (q * D + (j * (nx * vn) + e)) by ring.
      replace (q * (bt * D) + j * D + e) with (q * (bt * D) + (j * D + e)) by ring. apply V. auto 10.
    + intros l Hl N. apply F; auto. intros ks Hk. apply box3 in Hk as (a & b & e & -> & A1 & A2 & A3). cbn [dn] in *. cbn [ooff t dos].
      replace (a * D + (b * (nx * vn) + (e * 1 + 0))) with (b * (nx * vn) + (a * D + e)) by ring. apply N; auto. nia.
Qed.
Lemma rest_copy ip f I O m :
  rchild0 qs ip [mkdim bt (nxr * vn) (nx * vn); mkdim (nxr * vn) 1 1] f ->
  (if ip then I = O else fst I <> fst O) -> (fst I < 2)%nat -> (fst O < 2)%nat ->
  (forall j e, 0 <= j < bt -> 0 <= e < nxr * vn -> f 2%nat I O m (sh O (j * (nx * vn) + e)) = m (sh I (j * (nxr * vn) + e))) /\
  (forall l, (fst l < 2)%nat -> (forall j x, 0 <= j < bt -> 0 <= x < nxr * vn -> l <> sh O (j * (nx * vn) + x)) -> f 2%nat I O m l = m l).
Proof.
  intros HF HIO HI HO. destruct nxb_facts as (N1 & N2 & N3). set (D := nxr * vn) in *. assert (HD : 0 <= D) by (unfold D; nia).
  assert (HN : D <= nx * vn) by (unfold D; nia).
  set (t := [mkdim bt D (nx * vn); mkdim D 1 1]) in *.
  destruct (local_copy ip t f I O m HF HIO HI HO) as [V F].
  - repeat constructor; cbn; lia.
  - intros ks js Hk Hj E. apply box2 in Hk as (a & b & -> & A1 & A2). apply box2 in Hj as (a' & b' & -> & A1' & A2').
    cbn [dn] in *. cbn [ioff t dis] in E. rewrite !Z.add_0_r, !Z.mul_1_r in E.
    destruct (radix_uniq D a b a' b') as [-> ->]; auto.
  - intros ks js Hk Hj E. apply box2 in Hk as (a & b & -> & A1 & A2). apply box2 in Hj as (a' & b' & -> & A1' & A2').
    cbn [dn] in *. cbn [ooff t dos] in E. rewrite !Z.add_0_r, !Z.mul_1_r in E.
    destruct (radix_uniq (nx * vn) a b a' b') as [-> ->]; auto; lia.
  - split.
    + intros j e H1 H2. specialize (V [j; e]). cbn [in_box t dn ooff ioff dos dis] in V. rewrite !Z.add_0_r, !Z.mul_1_r in V. apply V. auto.
    + intros l Hl N. apply F; auto. intros ks Hk. apply box2 in Hk as (a & b & -> & A1 & A2). cbn [dn] in *. cbn [ooff t dos].
      rewrite Z.add_0_r, Z.mul_1_r. apply N; auto.
Qed.
Lemma blocks_copy ip f I O m :
  rchild0 qs ip [mkdim nxb (bt * B * vn) (bt * B * vn); mkdim bt (B * vn) vn; mkdim B vn (bt * vn); mkdim vn 1 1] f ->
  (if ip then I = O else fst I <> fst O) -> (fst I < 2)%nat -> (fst O < 2)%nat ->
  (forall q i j v, 0 <= q < nxb -> 0 <= i < B -> 0 <= j < bt -> 0 <= v < vn ->
     f 2%nat I O m (sh O (((q * B + i) * bt + j) * vn + v)) = m (sh I ((q * (bt * B) + j * B + i) * vn + v))) /\
  (forall l, (fst l < 2)%nat -> (forall x, 0 <= x < nxb * bt * B * vn -> l <> sh O x) -> f 2%nat I O m l = m l).
Proof.
  intros HF HIO HI HO. destruct nxb_facts as (N1 & N2 & N3).
  set (t := [mkdim nxb (bt * B * vn) (bt * B * vn); mkdim bt (B * vn) vn; mkdim B vn (bt * vn); mkdim vn 1 1]) in *.
  destruct (local_copy ip t f I O m HF HIO HI HO) as [V F].
  - repeat constructor; cbn; lia.
  - intros ks js Hk Hj E. apply box4 in Hk as (a & b & c & e & -> & A1 & A2 & A3 & A4). apply box4 in Hj as (a' & b' & c' & e' & -> & A1' & A2' & A3' & A4').
    cbn [dn] in *. cbn [ioff t dis] in E. rewrite !Z.add_0_r, !Z.mul_1_r in E.
    destruct (radix_uniq vn ((a * bt + b) * B + c) e ((a' * bt + b') * B + c') e') as [E1 ->]; [lia|lia|lia|].
    destruct (radix_uniq B (a * bt + b) c (a' * bt + b') c') as [E2 ->]; auto.
    destruct (radix_uniq bt a b a' b') as [-> ->]; auto.
  - intros ks js Hk Hj E. apply box4 in Hk as (a & b & c & e & -> & A1 & A2 & A3 & A4). apply box4 in Hj as (a' & b' & c' & e' & -> & A1' & A2' & A3' & A4').
    cbn [dn] in *. cbn [ooff t dos] in E. rewrite !Z.add_0_r, !Z.mul_1_r in E.
    destruct (radix_uniq vn ((a * B + c) * bt + b) e ((a' * B + c') * bt + b') e') as [E1 ->]; [lia|lia|lia|].
    destruct (radix_uniq bt (a * B + c) b (a' * B + c') b') as [E2 ->]; auto.
    destruct (radix_uniq B a c a' c') as [-> ->]; auto.
  - split.
    + intros q i j v H1 H2 H3 H4. specialize (V [q; j; i; v]). cbn [in_box t dn ooff ioff dos dis] in V. rewrite !Z.add_0_r, !Z.mul_1_r in V.
      replace (((q * B + i) * bt + j) * vn + v) with (q * (bt * B * vn) + (j * vn + (i * (bt * vn) + v))) by ring.
      replace ((q * (bt * B) + j * B + i) * vn + v) with (q * (bt * B * vn) + (j * (B * vn) + (i * vn + v))) by ring. apply V. auto 10.
    + intros l Hl N. apply F; auto. intros ks Hk. apply box4 in Hk as (a & b & c & e & -> & A1 & A2 & A3 & A4). cbn [dn] in *. cbn [ooff t dos].
      replace (a * (bt * B * vn) + (b * vn + (c * (bt * vn) + (e * 1 + 0)))) with (((a * B + c) * bt + b) * vn + e) by ring. apply N.
      assert (0 <= a * B + c < nxb * B) by nia. assert (0 <= (a * B + c) * bt + b < nxb * B * bt) by nia. nia.
Qed.

(** where the result of the local plans has to be *)
Definition out_off (tout : bool) (i j v : Z) : Z := if tout then (i * bt + j) * vn + v else (j * nx + i) * vn + v.

Definition run_after (c2 : rapply) (c2r c3 : option rapply) (rI rO : Z) (I O : loc) (m : mem) : mem :=
  let m := c2 2%nat I O m in
  match c2r with
  | None => m
  | Some r =>
    let m := r 2%nat (sh I rI) (sh O rO) m in
    match c3 with Some c => c 2%nat O O m | None => m end
  end.

Lemma split_row i : 0 <= i < nx -> (0 <= i / B < nxb /\ 0 <= i mod B < B /\ i = i / B * B + i mod B) \/ (nxb * B <= i /\ 0 <= i - nxb * B < nxr).
Proof.
  intros Hi. destruct nxb_facts as (N1 & N2 & N3). pose proof (Z.div_mod i B ltac:(lia)). pose proof (Z.mod_pos_bound i B ltac:(lia)).
  destruct (Z_lt_le_dec i (nxb * B)); [left|right; lia]. assert (0 <= i / B) by (apply Z.div_pos; lia).
  assert (i / B < nxb) by (apply Z.div_lt_upper_bound; lia). lia.
Qed.

Lemma after_ok tout ip c2 c2r c3 rI rO I O m : posttranspose qs p tout ip w c2 c2r c3 rI rO ->
  (if ip then I = O else fst I <> fst O) -> (fst I < 2)%nat -> (fst O < 2)%nat -> received m I ->
  (forall i j v, 0 <= i < nx -> 0 <= j < bt -> 0 <= v < vn -> run_after c2 c2r c3 rI rO I O m (sh O (out_off tout i j v)) = X i j v) /\
  (forall l, (fst l < 2)%nat -> (forall x, 0 <= x < nx * bt * vn -> l <> sh O x) -> run_after c2 c2r c3 rI rO I O m l = m l).
Proof.
  intros HPT HIO HI HO [R1 R2]. destruct nxb_facts as (N1 & N2 & N3).
  destruct HPT as [c2 c2r rI rO vn0 b0 bt0 nxb0 nxr0 Ht Hc H2 H3|c2 c2r c3 vn0 b0 bt0 nxb0 nxr0 Hc H2 H3 H4];
    change vn0 with vn in Hc, H2, H3 |- *; change b0 with B in Hc, H2, H3 |- *; change bt0 with bt in Hc, H2, H3 |- *; change nxb0 with nxb in Hc, H2, H3 |- *; change nxr0 with nxr in Hc, H2, H3 |- *;
    change (p_nx p) with nx in H2, H3 |- *; [|change vn0 with vn in H4; change bt0 with bt in H4; change (p_nx p) with nx in H4]; clear vn0 b0 bt0 nxb0 nxr0; unfold run_after.
  - (* directly *)
    destruct (direct_copy ip c2 I O m H2 HIO HI HO) as [V2 F2]. set (m2 := c2 2%nat I O m) in *. subst tout. unfold out_off.
    assert (W2 : forall q i j v, 0 <= q < nxb -> 0 <= i < B -> 0 <= j < bt -> 0 <= v < vn -> m2 (sh O ((j * nx + (q * B + i)) * vn + v)) = X (q * B + i) j v).
    { intros q i j v Hq' Hi Hj Hv. rewrite <- R1 by auto.
      replace ((j * nx + (q * B + i)) * vn + v) with (j * (nx * vn) + (q * (B * vn) + (i * vn + v))) by ring.
      replace ((q * (bt * B) + j * B + i) * vn + v) with (q * (bt * (B * vn)) + j * (B * vn) + (i * vn + v)) by ring.
      apply V2; auto. nia. }
    assert (G2 : forall l, (fst l < 2)%nat -> (forall x, 0 <= x < nx * bt * vn -> l <> sh O x) -> m2 l = m l).
    { intros l Hl N. apply F2; auto. intros j x Hj Hx. apply N. assert (nxb * (B * vn) <= nx * vn) by nia. assert (0 <= j * (nx * vn) <= (bt - 1) * (nx * vn)) by nia. lia. }
    destruct (Z.ltb_spec 0 nxr) as [Lr|Lr].
    + destruct H3 as (-> & -> & c & -> & Hr). assert (ip = false) by (destruct Hc as [Hc|Hc]; [lia|auto]). subst ip.
      destruct (rest_copy false c (sh I (nxb * bt * (B * vn))) (sh O (nxb * (B * vn))) m2 Hr) as [Vr Fr]; [now rewrite !fst_sh|now rewrite fst_sh..|].
      split.
      * intros i j v Hi Hj Hv. destruct (split_row i Hi) as [(Q1 & Q2 & Q3)|[Q1 Q2]].
        -- rewrite Fr; [|now rewrite fst_sh|].
           ++ rewrite Q3. now apply W2.
           ++ intros j' x Hj' Hx E. rewrite sh_sh in E. apply sh_inj in E.
              assert (E' : j * (nx * vn) + (i * vn + v) = j' * (nx * vn) + (nxb * (B * vn) + x)) by lia.
              assert (L1 : i <= nxb * B - 1) by nia. assert (L2 : i * vn <= (nxb * B - 1) * vn) by nia. assert (L0 : 0 <= i * vn) by nia.
              assert (L3 : nx * vn = nxb * (B * vn) + nxr * vn) by (rewrite N3 at 1; ring). assert (0 <= nxb * (B * vn)) by nia.
              destruct (radix_uniq (nx * vn) j (i * vn + v) j' (nxb * (B * vn) + x)) as [_ E2]; auto; lia.
        -- set (i' := i - nxb * B) in *. replace i with (nxb * B + i') by (unfold i'; ring). rewrite <- R2 by auto.
           replace ((j * nx + (nxb * B + i')) * vn + v) with (nxb * (B * vn) + (j * (nx * vn) + (i' * vn + v))) by ring.
           rewrite <- sh_sh. rewrite Vr; auto; [|nia]. rewrite sh_sh.
           replace (nxb * bt * (B * vn) + (j * (nxr * vn) + (i' * vn + v))) with ((nxb * (bt * B) + j * nxr + i') * vn + v) by ring.
           apply F2; [now rewrite fst_sh|]. intros j' x Hj' Hx E. apply (f_equal fst) in E. rewrite !fst_sh in E. contradiction.
      * intros l Hl N. rewrite Fr; auto. intros j x Hj Hx. rewrite sh_sh. apply N.
        assert (nxb * (B * vn) + nxr * vn <= nx * vn) by nia. assert (0 <= j * (nx * vn) <= (bt - 1) * (nx * vn)) by nia. nia.
    + destruct H3 as (-> & -> & ->). split; auto. intros i j v Hi Hj Hv.
      destruct (split_row i Hi) as [(Q1 & Q2 & Q3)|[Q1 Q2]]; [|lia]. rewrite Q3. now apply W2.
  - (* in two steps *)
    destruct (blocks_copy ip c2 I O m H2 HIO HI HO) as [V2 F2]. set (m2 := c2 2%nat I O m) in *.
    set (K := nxb * bt * B * vn) in *. assert (K0 : 0 <= K) by (unfold K; assert (0 <= nxb * bt) by nia; assert (0 <= nxb * bt * B) by nia; nia).
    destruct (transpose_copy ip bt nxr vn c2r (sh I K) (sh O K) m2) as [Vr Fr]; auto; [lia| |now rewrite fst_sh..|].
    { destruct ip; [now rewrite HIO|now rewrite !fst_sh]. }
    set (m3 := c2r 2%nat (sh I K) (sh O K) m2) in *.
    assert (W : forall i j v, 0 <= i < nx -> 0 <= j < bt -> 0 <= v < vn -> m3 (sh O ((i * bt + j) * vn + v)) = X i j v).
    { intros i j v Hi Hj Hv. destruct (split_row i Hi) as [(Q1 & Q2 & Q3)|[Q1 Q2]].
      - rewrite Fr; [|now rewrite fst_sh|].
        + rewrite Q3 at 1. rewrite V2 by auto. rewrite R1 by auto. now rewrite <- Q3.
        + intros x Hx E. rewrite sh_sh in E. apply sh_inj in E.
          assert (i < nxb * B) by nia. assert (i * bt + j < nxb * B * bt) by nia. assert ((i * bt + j) * vn + v < K) by (unfold K; nia). lia.
      - set (i' := i - nxb * B) in *. replace i with (nxb * B + i') by (unfold i'; ring).
        replace (((nxb * B + i') * bt + j) * vn + v) with (K + ((i' * bt + j) * vn + v)) by (unfold K; ring).
        rewrite <- sh_sh. rewrite Vr by auto. rewrite sh_sh, <- R2 by auto.
        replace (K + ((j * nxr + i') * vn + v)) with ((nxb * (bt * B) + j * nxr + i') * vn + v) by (unfold K; ring).
        apply F2; [now rewrite fst_sh|]. intros x Hx E. destruct ip.
        + subst O. apply sh_inj in E. fold K in Hx.
          replace ((nxb * (bt * B) + j * nxr + i') * vn + v) with (K + ((j * nxr + i') * vn + v)) in E by (unfold K; ring). nia.
        + apply (f_equal fst) in E. rewrite !fst_sh in E. contradiction. }
    assert (KN : K + bt * nxr * vn = nx * bt * vn) by (unfold K; rewrite N3 at 1; ring).
    assert (G : forall l, (fst l < 2)%nat -> (forall x, 0 <= x < nx * bt * vn -> l <> sh O x) -> m3 l = m l).
    { assert (0 <= bt * nxr) by nia. assert (0 <= bt * nxr * vn) by nia.
      intros l Hl N. unfold m3. rewrite Fr; auto.
      - apply F2; auto. intros x Hx. apply N. fold K in Hx. lia.
      - intros x Hx. rewrite sh_sh. apply N. lia. }
    unfold out_off. destruct tout.
    + subst c3. split; auto.
    + destruct H4 as (c & -> & H4). destruct (transpose_copy true nx bt vn c O O m3) as [V4 F4]; auto; [lia|]. split.
      * intros i j v Hi Hj Hv. rewrite V4 by auto. auto.
      * intros l Hl N. rewrite F4 by auto. auto.
Qed.
End After.
End Local.
