(** * Convolution identities behind Rader's and Bluestein's algorithms *)
From Coq Require Import Reals ZArith Znumtheory List Lia Lra Bool.
From Verif Require Import NumTheory Cplx.
Open Scope Z_scope.

Lemma cscal_RtoC r a : cscal r a = (RtoC r * a)%C.
Proof. apply C_eq; cbn; ring. Qed.
Lemma Csum_conj n f : Cplx.conj (Csum n f) = Csum n (fun i => Cplx.conj (f i)).
Proof.
  assert (n <= 0 \/ 0 <= n) as [H|H] by lia.
  - rewrite !Csum_neg by lia. apply C_eq; cbn; ring.
  - pattern n. apply Csum_ind; auto; [apply C_eq; cbn; ring|].
    intros k Hk IH. rewrite !Csum_succ by auto. now rewrite conj_add, IH.
Qed.

Lemma circ_conv N a b k : 0 < N ->
  Csum N (fun l => dft N a l * dft N b l * W N (- (k * l))%Z)%C = cscal (IZR N) (Csum N (fun j => a j * b ((k - j) mod N)%Z)%C).
Proof.
  intros HN. unfold dft.
  rewrite (Csum_ext N _ (fun l => Csum N (fun j => Csum N (fun i => a j * (b i * W N (l * (j + i - k))%Z))%C))).
  2:{ intros l Hl. rewrite <- Csum_mul_r, <- Csum_mul_r. apply Csum_ext. intros j Hj. cbn beta.
      rewrite <- (Csum_mul_l N (a j * W N (j * l)%Z)%C), <- Csum_mul_r. apply Csum_ext. intros i Hi.
      replace (l * (j + i - k)) with (j * l + (i * l + - (k * l))) by ring. rewrite !W_add. ring. }
  rewrite Csum_swap. rewrite cscal_RtoC, <- Csum_mul_l. apply Csum_ext. intros j Hj.
  rewrite Csum_swap. rewrite (Csum_delta N ((k - j) mod N)).
  - rewrite Csum_mul_l, Csum_mul_l. rewrite W_orth_n; auto; [ring|].
    exists (- ((k - j) / N)). pose proof (Z.div_mod (k - j) N ltac:(lia)). lia.
  - apply Z.mod_pos_bound. lia.
  - intros i Hi Hne. rewrite Csum_mul_l, Csum_mul_l. rewrite W_orth_zero; auto; [ring|].
    intros [q E]. apply Hne. apply (Z.mod_unique_pos _ _ (-q)); lia.
Qed.

Section RaderMath.
  Variables (n g ginv : Z).
  Hypothesis Hp : prime n.
  Hypothesis Hg : primitive_root n g.
  Hypothesis Hi : ginv = g ^ (n - 2) mod n.
  Let n2 : 2 <= n := prime_ge_2 _ Hp.

  Definition gp (k : Z) := g ^ k mod n.
  Definition hp (k : Z) := ginv ^ k mod n.

  Lemma g_nd : ~ (n | g).
  Proof. destruct Hg as [H _]. apply prime_not_div_small; auto. lia. Qed.
  Lemma g_fermat : g ^ (n - 1) mod n = 1. Proof. apply fermat; auto. apply g_nd. Qed.
  Lemma gg : (g * ginv) mod n = 1.
  Proof. rewrite Hi, Z.mul_mod_idemp_r by lia. rewrite <- g_fermat. replace (n - 1) with (1 + (n - 2)) by ring. rewrite Z.pow_add_r, Z.pow_1_r by lia. reflexivity. Qed.
  Lemma ginv_range : 1 <= ginv < n.
  Proof.
    pose proof (Z.mod_pos_bound (g ^ (n - 2)) n ltac:(lia)) as B. rewrite <- Hi in B. assert (ginv <> 0); [|lia]. intros E. pose proof gg as G. rewrite E, Z.mul_0_r, Z.mod_0_l in G by lia. lia.
  Qed.
  Lemma ginv_fermat : ginv ^ (n - 1) mod n = 1.
  Proof. apply fermat; auto. apply prime_not_div_small; auto. pose proof ginv_range. lia. Qed.
  Lemma hp_period k q : 0 <= k -> 0 <= q -> hp (k + (n - 1) * q) = hp k.
  Proof.
    intros Hk Hq. unfold hp. rewrite Z.pow_add_r by nia. rewrite Z.mul_mod by lia. rewrite pow_one; auto; try lia; [|apply ginv_fermat].
    rewrite Z.mul_1_r. apply Z.mod_mod. lia.
  Qed.
  Lemma hp_mod k : 0 <= k -> hp (k mod (n - 1)) = hp k.
  Proof.
    intros Hk. pose proof (Z.div_mod k (n - 1) ltac:(lia)) as E. rewrite E at 2. rewrite Z.add_comm. symmetry. apply hp_period.
    - apply Z.mod_pos_bound. lia.
    - apply Z.div_pos; lia.
  Qed.
  Lemma gp_hp i : 0 <= i -> (gp i * hp i) mod n = 1.
  Proof.
    intros H. unfold gp, hp. rewrite Z.mul_mod_idemp_l, Z.mul_mod_idemp_r by lia. rewrite <- Z.pow_mul_l.
    pose proof (pow_one n (g * ginv) 1 i ltac:(lia) ltac:(lia) H) as P. rewrite Z.mul_1_l, Z.pow_1_r in P. apply P, gg.
  Qed.
  Lemma hp_conv j k : 0 <= j -> 0 <= k -> hp ((k - j) mod (n - 1)) = (gp j * hp k) mod n.
  Proof.
    intros Hj Hk. set (i := (k - j) mod (n - 1)). assert (Hi0 : 0 <= i < n - 1) by (apply Z.mod_pos_bound; lia).
    assert (E : hp (i + j) = hp k).
    { rewrite <- (hp_mod (i + j)), <- (hp_mod k) by lia. f_equal. unfold i. rewrite Z.add_mod_idemp_l by lia. f_equal. ring. }
    rewrite <- E. unfold hp at 2. rewrite Z.mul_mod_idemp_r by lia. rewrite Z.pow_add_r by lia.
    rewrite Z.mul_comm, <- Z.mul_assoc, Z.mul_mod by lia.
    replace ((ginv ^ j * gp j) mod n) with 1.
    - rewrite Z.mul_1_r, Z.mod_mod by lia. reflexivity.
    - rewrite <- (gp_hp j) by auto. unfold hp. rewrite Z.mul_mod_idemp_r by lia. f_equal. ring.
  Qed.
  Lemma gp_range k : 0 <= k -> 1 <= gp k < n.
  Proof.
    intros H. pose proof (Z.mod_pos_bound (g ^ k) n ltac:(lia)) as B. unfold gp. assert (g ^ k mod n <> 0); [|lia]. intros E. pose proof (gp_hp k H) as G. unfold gp in G. rewrite E, Z.mul_0_l, Z.mod_0_l in G by lia. lia.
  Qed.
  Lemma hp_range k : 0 <= k -> 1 <= hp k < n.
  Proof.
    intros H. pose proof (Z.mod_pos_bound (ginv ^ k) n ltac:(lia)) as B. unfold hp. assert (ginv ^ k mod n <> 0); [|lia]. intros E. pose proof (gp_hp k H) as G. unfold hp in G. rewrite E, Z.mul_0_r, Z.mod_0_l in G by lia. lia.
  Qed.
  Lemma gp_inj i j : 0 <= i < n - 1 -> 0 <= j < n - 1 -> gp i = gp j -> i = j.
  Proof.
    intros Hi' Hj E. destruct Hg as [_ U]. destruct (U (gp j) (gp_range j ltac:(lia))) as (k & _ & K). rewrite <- (K i), <- (K j); auto.
  Qed.
  Lemma inv_unique a b c : 0 <= b < n -> 0 <= c < n -> (a * b) mod n = 1 -> (a * c) mod n = 1 -> b = c.
  Proof.
    intros Hb Hc E1 E2. assert (E3 : (c * (a * b)) mod n = c). { rewrite Z.mul_mod, E1, Z.mul_1_r, Z.mod_mod by lia. now apply Z.mod_small. }
    assert (E4 : (b * (a * c)) mod n = b). { rewrite Z.mul_mod, E2, Z.mul_1_r, Z.mod_mod by lia. now apply Z.mod_small. }
    etransitivity; [symmetry; exact E4|]. etransitivity; [|exact E3]. f_equal. ring.
  Qed.
  Lemma hp_inj i j : 0 <= i < n - 1 -> 0 <= j < n - 1 -> hp i = hp j -> i = j.
  Proof.
    intros Hi' Hj E. apply gp_inj; auto. apply (inv_unique (hp i)).
    - pose proof (gp_range i). lia.
    - pose proof (gp_range j). lia.
    - rewrite Z.mul_comm. apply gp_hp. lia.
    - rewrite E, Z.mul_comm. apply gp_hp. lia.
  Qed.
  (** every nonzero residue is a power of ginv *)
  Lemma hp_surj t : 1 <= t < n -> exists k, 0 <= k < n - 1 /\ hp k = t.
  Proof.
    intros Ht. 
    assert (G : exists u, 1 <= u < n /\ (t * u) mod n = 1).
    { exists (t ^ (n - 2) mod n). assert (E : (t * (t ^ (n - 2) mod n)) mod n = 1).
      { rewrite Z.mul_mod_idemp_r by lia. rewrite <- (fermat n t Hp) by (apply prime_not_div_small; auto; lia).
        replace (n - 1) with (1 + (n - 2)) by ring. rewrite Z.pow_add_r, Z.pow_1_r by lia. reflexivity. }
      split; auto. pose proof (Z.mod_pos_bound (t ^ (n - 2)) n ltac:(lia)) as B. assert (t ^ (n - 2) mod n <> 0); [|lia]. intros F. rewrite F, Z.mul_0_r, Z.mod_0_l in E by lia. lia. }
    destruct G as (u & Hu & E). destruct Hg as [_ U]. destruct (U u Hu) as (k & [Hk Ek] & _). exists k. split; auto.
    apply (inv_unique u).
    - pose proof (hp_range k ltac:(lia)). lia.
    - lia.
    - rewrite <- Ek. apply gp_hp. lia.
    - now rewrite Z.mul_comm.
  Qed.
  Lemma dft_rader_sum x k : dft n x k = (x 0 + Csum (n - 1) (fun j => x (gp j) * W n (gp j * k)%Z))%C.
  Proof.
    unfold dft. replace n with (1 + (n - 1)) at 1 by ring. rewrite Csum_app, Csum_1 by lia.
    rewrite Z.mul_0_l, W_0. f_equal; [apply C_eq; cbn; ring|].
    rewrite <- (Csum_reindex (n - 1) (fun j => gp j - 1)).
    - apply Csum_ext. intros j Hj. now replace (1 + (gp j - 1)) with (gp j) by ring.
    - intros j Hj. pose proof (gp_range j). lia.
    - intros i j Hi' Hj E. apply gp_inj; auto. lia.
  Qed.
  (** Rader's algorithm *)
  Lemma rader_math x k : 0 <= k ->
    let N := n - 1 in
    let A := dft N (fun j => x (gp j)) in
    let Om := dft N (fun i => cscal (/ IZR N) (W n (hp i))) in
    let B := fun l => (Cplx.conj (A l * Om l) + (if l =? 0 then Cplx.conj (x 0) else C0))%C in
    dft n x (hp k) = Cplx.conj (dft N B k).
  Proof.
    intros Hk N A Om B. assert (HN : 0 < N) by (unfold N; lia).
    assert (E : Cplx.conj (dft N B k) = (Csum N (fun l => A l * Om l * W N (- (k * l))%Z) + x 0)%C).
    { unfold dft at 1. rewrite Csum_conj. unfold B.
      rewrite (Csum_ext N _ (fun l => (A l * Om l * W N (- (k * l))%Z) + (if l =? 0 then x 0 else C0))%C).
      - rewrite Csum_add. f_equal. rewrite (Csum_delta N 0); [reflexivity|lia|]. intros i Hi' Hne. now replace (i =? 0) with false by lia.
      - intros l Hl. rewrite conj_mul, conj_add, conj_conj. rewrite <- W_neg. replace (- (l * k)) with (- (k * l)) by ring.
        destruct (l =? 0) eqn:El.
        + apply Z.eqb_eq in El. subst l. rewrite conj_conj. rewrite Z.mul_0_r. change (- 0) with 0. rewrite W_0. ring.
        + replace (Cplx.conj C0) with C0 by (apply C_eq; cbn; ring). ring. }
    rewrite E. unfold A, Om. rewrite circ_conv by auto. rewrite dft_rader_sum.
    replace (Csum N (fun j => x (gp j) * cscal (/ IZR N) (W n (hp ((k - j) mod N)%Z)))%C) with (cscal (/ IZR N) (Csum N (fun j => x (gp j) * W n (gp j * hp k)%Z))%C).
    - change (n - 1) with N. rewrite !cscal_RtoC. set (S := Csum N (fun j => x (gp j) * W n (gp j * hp k)%Z)%C). replace (RtoC (IZR N) * (RtoC (/ IZR N) * S))%C with S; [ring|].
      assert (IZR N <> 0)%R by (apply not_0_IZR; lia). apply C_eq; cbn; field; auto.
    - rewrite cscal_RtoC, <- Csum_mul_l. apply Csum_ext. intros j Hj. rewrite cscal_RtoC. unfold N. rewrite hp_conv by lia.
      rewrite W_mod by lia. ring.
  Qed.
End RaderMath.

Lemma Csum_swapc n f : swapc (Csum n f) = Csum n (fun i => swapc (f i)).
Proof.
  assert (n <= 0 \/ 0 <= n) as [H|H] by lia.
  - rewrite !Csum_neg by lia. apply C_eq; cbn; ring.
  - pattern n. apply Csum_ind; auto.
    intros k Hk IH. rewrite !Csum_succ by auto. rewrite <- IH. apply C_eq; cbn; ring.
Qed.
(** Bluestein's algorithm *)
Lemma blue_math n nb x y h k : 0 < n -> 2 * n - 1 <= nb ->
  (forall j, 0 <= j < n -> y j = (x j * W (2 * n) (j * j)%Z)%C) -> (forall j, n <= j < nb -> y j = C0) ->
  (forall d, - n < d < n -> h (d mod nb) = cscal (/ IZR nb) (Cplx.conj (W (2 * n) (d * d)))) ->
  0 <= k < n ->
  dft n x k = (swapc (dft nb (fun l => swapc (dft nb y l * dft nb h l)%C) k) * W (2 * n) (k * k)%Z)%C.
Proof.
  intros Hn Hnb Hy Hy0 Hh Hk. unfold dft at 2. rewrite Csum_swapc.
  rewrite (Csum_ext nb _ (fun l => dft nb y l * dft nb h l * W nb (- (k * l))%Z)%C).
  2:{ intros l Hl. rewrite swapc_mul_W. replace (- (l * k)) with (- (k * l)) by ring. f_equal. }
  rewrite circ_conv by lia.
  replace nb with (n + (nb - n)) at 2 by ring. rewrite Csum_app by lia.
  rewrite (Csum_zero (nb - n)). 2:{ intros i Hi. rewrite Hy0 by lia. ring. }
  rewrite cscal_RtoC. unfold dft. 
  transitivity (RtoC (IZR nb) * (Csum n (fun i => y i * h ((k - i) mod nb)%Z) * W (2 * n) (k * k)%Z))%C; [|ring].
  rewrite <- Csum_mul_r, <- Csum_mul_l. apply Csum_ext. intros j Hj. rewrite Hy, Hh by lia. rewrite cscal_RtoC.
  assert (IZR nb <> 0)%R by (apply not_0_IZR; lia).
  transitivity (RtoC (IZR nb) * RtoC (/ IZR nb) * (x j * (W (2 * n) (j * j)%Z * Cplx.conj (W (2 * n) ((k - j) * (k - j))%Z) * W (2 * n) (k * k)%Z)))%C; [|ring].
  replace (RtoC (IZR nb) * RtoC (/ IZR nb))%C with C1 by (apply C_eq; cbn; field; auto).
  rewrite <- W_neg, <- !W_add. replace (j * j + - ((k - j) * (k - j)) + k * k) with (2 * (j * k)) by ring.
  rewrite W_scale_l by lia. ring.
Qed.
