(** * genfft/complex.ml: complex expressions, and what they denote *)
From Coq Require Import Reals ZArith List Lia Lra Bool.
From Verif Require Import NumTheory Cplx GenExpr.
Import ListNotations.
Open Scope Z_scope.

(** ** genfft/magic.ml:28-31, 42, 58, the parameters that steer the construction of the expressions *)
Record magic := mkMagic {
  rader_min : Z;
  rader_list : list Z;
  alternate_convolution : Z;
  threemult : bool;
  dif_split_radix : bool;
  use_newsplit : bool }.

(** complex.ml:27 *)
Record ce := CE { re : expr; im : expr }.

Section Cplx.
  Variable pheq : expr -> expr -> bool.
  Variable M : magic.

  (** complex.ml:29-33 *)
  Definition zone : ce := CE (Num 1) (Num 0).
  Definition zi : ce := CE (Num 0) (Num 1).
  Definition zzero : ce := CE (Num 0) (Num 0).
  (** uminus, complex.ml:35 *)
  Definition zuminus (x : ce) : ce := CE (makeUminus (re x)) (makeUminus (im x)).
  (** inverse_int, complex.ml:37-38 *)
  Definition inverse_int (n : Z) : ce := CE (Num (1 / IZR n)) (Num 0).
  (** inverse_int_sqrt, int_sqrt, complex.ml:40-45 *)
  Definition inverse_int_sqrt (n : Z) : ce := CE (Num (1 / sqrt (IZR n))) (Num 0).
  Definition int_sqrt (n : Z) : ce := CE (Num (sqrt (IZR n))) (Num 0).
  (** nan I, complex.ml:47 *)
  Definition znanI : ce := CE NaNI (Num 0).
  (** times3x3, complex.ml:51-55 *)
  Definition times3x3 (x y : ce) : ce :=
    let (a, b) := x in let (c, d) := y in
    CE (makePlus pheq [makeTimes c (makePlus pheq [a; makeUminus b]);
                       makeTimes b (makePlus pheq [c; makeUminus d])])
       (makePlus pheq [makeTimes a (makePlus pheq [c; d]);
                       makeUminus (makeTimes c (makePlus pheq [a; makeUminus b]))]).
  (** times, complex.ml:57-64 *)
  Definition ztimes (x y : ce) : ce :=
    let (a, b) := x in let (c, d) := y in
    if negb (threemult M) then
      CE (makePlus pheq [makeTimes a c; makeUminus (makeTimes b d)])
         (makePlus pheq [makeTimes a d; makeTimes b c])
    else if is_constant c && is_constant d then times3x3 (CE a b) (CE c d)
    else times3x3 (CE c d) (CE a b).
  (** ctimes, ctimesj, complex.ml:66-70 *)
  Definition zctimes (x y : ce) : ce := CE (CTimes (re x) (re y)) (Num 0).
  Definition zctimesj (x y : ce) : ce := CE (CTimesJ (re x) (re y)) (Num 0).
  (** plus, complex.ml:92-100 *)
  Definition zplus (l : list ce) : ce := CE (makePlus pheq (map re l)) (makePlus pheq (map im l)).
  (** real, imag, iimag, conj, complex.ml:103-106 *)
  Definition zreal (x : ce) : ce := CE (re x) (Num 0).
  Definition zimag (x : ce) : ce := CE (im x) (Num 0).
  Definition ziimag (x : ce) : ce := CE (Num 0) (im x).
  Definition zconj (x : ce) : ce := CE (re x) (makeUminus (im x)).

  (** The same operations on computations that may raise *)
  Definition o1 (f : ce -> ce) (x : option ce) : option ce := option_map f x.
  Definition o2 (f : ce -> ce -> ce) (x y : option ce) : option ce :=
    match x, y with Some a, Some b => Some (f a b) | _, _ => None end.
  Fixpoint omapM {A B} (f : A -> option B) (l : list A) : option (list B) :=
    match l with
    | [] => Some []
    | a :: r => match f a, omapM f r with Some b, Some s => Some (b :: s) | _, _ => None end
    end.
  (** exp, complex.ml:73-75 *)
  Definition oexp (n i : Z) : option ce :=
    match ncexp n i with Some (c, s) => Some (CE (Num c) (Num s)) | None => None end.
  (** sec, complex.ml:78-80 ([Number.div] by zero raises) *)
  Definition osec (n m : Z) : option ce :=
    match ncexp n m with
    | Some (c, s) => if is_zero c then None else Some (CE (Num (1 / c)) (Num 0))
    | None => None
    end.
  Definition otimes := o2 ztimes.
  Definition oplus2 := o2 (fun a b => zplus [a; b]).
  Definition ominus2 := o2 (fun a b => zplus [a; zuminus b]).
  (** sigma, complex.ml:110 *)
  Definition osigma (a b : Z) (f : Z -> option ce) : option ce := option_map zplus (omapM f (interval a b)).

  (** hermitian, antihermitian, complex.ml:135-147; the argument signal may raise *)
  Definition hermitian (n : Z) (a : Z -> option ce) : Z -> option ce :=
    array n (fun i =>
      if i =? 0 then o1 zreal (a 0)
      else if i <? n - i then a i
      else if i >? n - i then o1 zconj (a (n - i))
      else o1 zreal (a i)).
  Definition antihermitian (n : Z) (a : Z -> option ce) : Z -> option ce :=
    array n (fun i =>
      if i =? 0 then o1 ziimag (a 0)
      else if i <? n - i then a i
      else if i >? n - i then o1 zuminus (o1 zconj (a (n - i)))
      else o1 ziimag (a i)).

  (** ** Denotation.  [evc s (CE a b)] is a + ib ([s = true]) or a - ib ([s = false]), where a and
      b may themselves be complex (SIMD codelets).  For an ordinary codelet a and b are real and
      [evc true] is the complex number represented. *)
  Variable env : variable -> C.
  Definition sg (s : bool) : Z := if s then 1 else -1.
  Definition csg (s : bool) : C := if s then Ci else (- Ci)%C.
  Definition evc (s : bool) (x : ce) : C := (eval env (re x) + csg s * eval env (im x))%C.
  Definition den (s : bool) (x : option ce) (v : C) : Prop := exists c, x = Some c /\ evc s c = v.

  Hypothesis pheq_eq : forall a b, pheq a b = true -> a = b.
  Notation ev := (eval env).
  Ltac ee := rewrite ?(eval_makePlus pheq env pheq_eq), ?lsumE_two, ?eval_makeTimes, ?eval_makeUminus.

  Lemma csg2 s : (csg s * csg s)%C = (- C1)%C.
  Proof. destruct s; apply C_eq; cbn; ring. Qed.
  Lemma csg_neg s : csg (negb s) = (- csg s)%C.
  Proof. destruct s; apply C_eq; cbn; ring. Qed.
  Lemma ev_num a : ev (Num a) = RtoC a. Proof. reflexivity. Qed.

  Lemma cmul_rule s a b c d :
    ((a + csg s * b) * (c + csg s * d))%C = ((a * c + - (b * d)) + csg s * (a * d + b * c))%C.
  Proof.
    replace ((a + csg s * b) * (c + csg s * d))%C with (a * c + (csg s * csg s) * (b * d) + csg s * (a * d + b * c))%C by ring.
    rewrite csg2. ring.
  Qed.
  Lemma evc_times3x3 s x y : evc s (times3x3 x y) = (evc s x * evc s y)%C.
  Proof.
    destruct x as [a b], y as [c d]. unfold evc, times3x3; cbn [re im]. rewrite cmul_rule.
    repeat ee. ring.
  Qed.
  Lemma evc_times s x y : evc s (ztimes x y) = (evc s x * evc s y)%C.
  Proof.
    destruct x as [a b], y as [c d]. unfold ztimes. destruct (threemult M); cbn [negb].
    - destruct (is_constant c && is_constant d); rewrite evc_times3x3; [reflexivity|ring].
    - unfold evc; cbn [re im]. rewrite cmul_rule. repeat ee. reflexivity.
  Qed.
  Lemma evc_uminus s x : evc s (zuminus x) = (- evc s x)%C.
  Proof. unfold evc; cbn [re im zuminus]. repeat ee. ring. Qed.
  Lemma evc_conj s x : evc s (zconj x) = evc (negb s) x.
  Proof. unfold evc; cbn [re im zconj]. rewrite csg_neg. repeat ee. ring. Qed.
  Lemma evc_plus s l : evc s (zplus l) = fold_right (fun x a => (evc s x + a)%C) C0 l.
  Proof.
    unfold evc, zplus; cbn [re im]. repeat ee. induction l as [|x l IH]; [cbn; ring|].
    cbn [map lsumE fold_right]. rewrite <- IH. unfold lsumE. ring.
  Qed.
  Lemma evc_plus2 s x y : evc s (zplus [x; y]) = (evc s x + evc s y)%C.
  Proof. rewrite evc_plus. cbn. ring. Qed.
  Definition Chalf : C := RtoC (1 / 2).
  Lemma Chalf2 a : (Chalf * (a + a))%C = a.
  Proof. apply C_eq; cbn; field. Qed.
  Lemma evc_real s x : evc s (zreal x) = (Chalf * (evc s x + evc (negb s) x))%C.
  Proof.
    unfold evc; cbn [re im zreal]. rewrite ev_num, RtoC_0, csg_neg.
    replace (ev (re x) + csg s * ev (im x) + (ev (re x) + - csg s * ev (im x)))%C with (ev (re x) + ev (re x))%C by ring.
    rewrite Chalf2. ring.
  Qed.
  Lemma evc_iimag s x : evc s (ziimag x) = (Chalf * (evc s x - evc (negb s) x))%C.
  Proof.
    unfold evc; cbn [re im ziimag]. rewrite ev_num, RtoC_0, csg_neg.
    replace (ev (re x) + csg s * ev (im x) - (ev (re x) + - csg s * ev (im x)))%C with (csg s * ev (im x) + csg s * ev (im x))%C by ring.
    rewrite Chalf2. ring.
  Qed.
  Lemma evc_i s : evc s zi = csg s.
  Proof. unfold evc; cbn [re im zi]. rewrite !ev_num, RtoC_0, RtoC_1. ring. Qed.
  (** i * imag x *)
  Lemma evc_i_imag s x : evc s (ztimes zi (zimag x)) = (Chalf * (evc s x - evc (negb s) x))%C.
  Proof.
    rewrite evc_times, evc_i, <- evc_iimag. unfold evc; cbn [re im zimag ziimag]. rewrite !ev_num, RtoC_0. ring.
  Qed.
  Lemma evc_real_const s r : evc s (CE (Num r) (Num 0)) = RtoC r.
  Proof. unfold evc; cbn [re im]. rewrite !ev_num, RtoC_0. ring. Qed.

  (** ** ... and on computations *)
  Lemma den_some s c : den s (Some c) (evc s c).
  Proof. now exists c. Qed.
  Lemma den_eq s x v w : den s x v -> v = w -> den s x w.
  Proof. now intros H <-. Qed.
  Lemma den_fun s x v w : den s x v -> den s x w -> v = w.
  Proof. intros (c & E & <-) (d & F & <-). congruence. Qed.
  Lemma den_both s x v : den s x v -> exists w, den (negb s) x w.
  Proof. intros (c & E & _). eexists. exists c. eauto. Qed.
  Lemma den_times s x y a b : den s x a -> den s y b -> den s (otimes x y) (a * b)%C.
  Proof. intros (c & -> & <-) (d & -> & <-). eexists. split; [reflexivity|]. apply evc_times. Qed.
  Lemma den_plus s x y a b : den s x a -> den s y b -> den s (oplus2 x y) (a + b)%C.
  Proof. intros (c & -> & <-) (d & -> & <-). eexists. split; [reflexivity|]. apply evc_plus2. Qed.
  Lemma den_minus s x y a b : den s x a -> den s y b -> den s (ominus2 x y) (a - b)%C.
  Proof. intros (c & -> & <-) (d & -> & <-). eexists. split; [reflexivity|]. rewrite evc_plus2, evc_uminus. ring. Qed.
  Lemma den_uminus s x a : den s x a -> den s (o1 zuminus x) (- a)%C.
  Proof. intros (c & -> & <-). eexists. split; [reflexivity|]. apply evc_uminus. Qed.
  Lemma den_conj s x a : den (negb s) x a -> den s (o1 zconj x) a.
  Proof. intros (c & -> & <-). eexists. split; [reflexivity|]. apply evc_conj. Qed.
  Lemma den_real s x a b : den s x a -> den (negb s) x b -> den s (o1 zreal x) (Chalf * (a + b))%C.
  Proof. intros (c & -> & <-) (d & E & <-). injection E as <-. eexists. split; [reflexivity|]. apply evc_real. Qed.
  Lemma den_iimag s x a b : den s x a -> den (negb s) x b -> den s (o1 ziimag x) (Chalf * (a - b))%C.
  Proof. intros (c & -> & <-) (d & E & <-). injection E as <-. eexists. split; [reflexivity|]. apply evc_iimag. Qed.
  Lemma den_i_imag s x a b : den s x a -> den (negb s) x b ->
    den s (o1 (fun y => ztimes zi (zimag y)) x) (Chalf * (a - b))%C.
  Proof. intros (c & -> & <-) (d & E & <-). injection E as <-. eexists. split; [reflexivity|]. apply evc_i_imag. Qed.
  Lemma den_zero s : den s (Some zzero) C0.
  Proof. eexists. split; [reflexivity|]. unfold zzero. now rewrite evc_real_const. Qed.
  Lemma den_one s : den s (Some zone) C1.
  Proof. eexists. split; [reflexivity|]. unfold zone. now rewrite evc_real_const. Qed.
  Lemma den_inverse_int s n : den s (Some (inverse_int n)) (RtoC (1 / IZR n)).
  Proof. eexists. split; [reflexivity|]. apply evc_real_const. Qed.

  Lemma omapM_den s (f : Z -> option ce) (v : Z -> C) l :
    (forall x, In x l -> den s (f x) (v x)) ->
    exists r, omapM f l = Some r /\ fold_right (fun x a => (evc s x + a)%C) C0 r = lsum l v.
  Proof.
    induction l as [|x l IH]; intros H.
    - exists []. split; reflexivity.
    - destruct (H x (or_introl eq_refl)) as (c & E & V). destruct IH as (r & Er & Vr); [intros; apply H; now right|].
      exists (c :: r). split; [cbn; now rewrite E, Er|]. cbn. now rewrite V, Vr.
  Qed.
  Lemma lsum_zrange a n v : lsum (zrange a n) v = Csum (Z.of_nat n) (fun i => v (a + i)).
  Proof.
    rewrite Csum_lsum, Nat2Z.id. rewrite <- (lsum_map (fun i => a + i)). f_equal.
    unfold zrange. rewrite map_map. apply map_ext. intros. lia.
  Qed.
  Lemma den_sigma s a b f v : (forall i, a <= i < b -> den s (f i) (v i)) ->
    den s (osigma a b f) (Csum (b - a) (fun i => v (a + i))).
  Proof.
    intros H. destruct (omapM_den s f v (interval a b)) as (r & E & V).
    { intros x Hx. apply in_zrange in Hx. apply H. lia. }
    exists (zplus r). split; [unfold osigma; now rewrite E|]. rewrite evc_plus, V. unfold interval. rewrite lsum_zrange.
    assert (a <= b \/ b < a) as [L|L] by lia; [now rewrite Z2Nat.id by lia|].
    rewrite Csum_neg by lia. now rewrite Csum_neg by lia.
  Qed.
  Lemma den_array s n (f : Z -> option ce) k v : 0 <= k < n -> den s (f k) v -> den s (array n f k) v.
  Proof. intros H D. unfold array. replace (0 <=? k) with true by lia. now replace (k <? n) with true by lia. Qed.
End Cplx.
Lemma array_in {A} n (f : Z -> option A) k : 0 <= k < n -> array n f k = f k.
Proof. intros H. unfold array. replace (0 <=? k) with true by lia. now replace (k <? n) with true by lia. Qed.
