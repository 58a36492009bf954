(** The arithmetic of the model in IEEE 754 binary64, using the executable
    specification of floating point in the standard library (Coq.Floats.SpecFloat: round
    to nearest, ties to even; no axioms).
    Simplifications: Python ints used in arithmetic are converted to the nearest double
    (CPython does the same in int op float, but raises OverflowError for huge ints, and
    compares ints with floats exactly; genes are compared exactly, see [int_eqb]). *)
From Coq Require Import ZArith QArith Bool List Lia Floats.SpecFloat.
From Verif Require Import Num State Laws.
Open Scope Z_scope.

Definition fprec := 53.
Definition femax := 1024.
(** int(x), truncation; None for NaN and infinities, for which int() raises. *)
Definition f_trunc (x : spec_float) : option Z :=
  match x with
  | S754_zero _ => Some 0
  | S754_finite s m e =>
      let a := if 0 <=? e then Zpos m * 2 ^ e else Zpos m / 2 ^ (- e) in
      Some (if s then - a else a)
  | _ => None
  end.
(** round(x), ties to even. *)
Definition f_round (x : spec_float) : option Z :=
  match x with
  | S754_zero _ => Some 0
  | S754_finite s m e =>
      let a := if 0 <=? e then Zpos m * 2 ^ e else Qround_he (Zpos m # Z.to_pos (2 ^ (- e))) in
      Some (if s then - a else a)
  | _ => None
  end.
Definition Fops : NumOps := {|
  num := spec_float;
  nofZ := fun z => binary_normalize fprec femax z 0 false;
  nadd := SFadd fprec femax;
  nsub := SFsub fprec femax;
  nmul := SFmul fprec femax;
  ndiv_raw := SFdiv fprec femax;
  nopp := SFopp;
  nabs := SFabs;
  nltb := SFltb;
  nleb := SFleb;
  neqb := SFeqb;
  ntrunc := f_trunc;
  nround := f_round;
  nrand := fun k => binary_normalize fprec femax k (-53) false
|}.
(** The exact rational value of a finite double. *)
Definition f_val (x : spec_float) : Q :=
  match x with
  | S754_finite s m e =>
      let q := if 0 <=? e then inject_Z (Zpos m * 2 ^ e) else Zpos m # Z.to_pos (2 ^ (- e)) in
      if s then Qopp q else q
  | _ => 0%Q
  end.

(** *** Doubles other than NaN are totally preordered *)
Definition not_nan (x : spec_float) : Prop := x <> S754_nan.
(** SFcompare is the lexicographic order of the key (class, exponent, mantissa). *)
Definition f_key (x : spec_float) : Z * Z * Z :=
  match x with
  | S754_infinity true => (-2, 0, 0)
  | S754_finite true m e => (-1, - e, - Zpos m)
  | S754_zero _ => (0, 0, 0)
  | S754_finite false m e => (1, e, Zpos m)
  | S754_infinity false => (2, 0, 0)
  | S754_nan => (0, 0, 0)
  end.
Definition key_lt (a b : Z * Z * Z) : Prop :=
  let '(a1, a2, a3) := a in let '(b1, b2, b3) := b in
  a1 < b1 \/ a1 = b1 /\ (a2 < b2 \/ a2 = b2 /\ a3 < b3).
Lemma compare_key : forall x y, not_nan x -> not_nan y ->
  exists c, SFcompare x y = Some c /\
    match c with Lt => key_lt (f_key x) (f_key y) | Eq => f_key x = f_key y | Gt => key_lt (f_key y) (f_key x) end.
Proof.
  intros x y Hx Hy. unfold not_nan in *.
  destruct x as [sx|sx| |sx mx ex]; destruct y as [sy|sy| |sy my ey]; try congruence;
    try destruct sx; try destruct sy; cbn [SFcompare f_key key_lt]; try (eexists; split; [reflexivity|]; cbn [key_lt]; try reflexivity; lia).
  - destruct (Z.compare_spec ex ey).
    + subst. eexists; split; [reflexivity|]. change (Pcompare mx my Eq) with (Pos.compare mx my).
      destruct (Pos.compare_spec mx my); cbn [CompOpp key_lt]; [subst; reflexivity|lia|lia].
    + eexists; split; [reflexivity|]. cbn [key_lt]. lia.
    + eexists; split; [reflexivity|]. cbn [key_lt]. lia.
  - destruct (Z.compare_spec ex ey).
    + subst. eexists; split; [reflexivity|]. change (Pcompare mx my Eq) with (Pos.compare mx my).
      destruct (Pos.compare_spec mx my); cbn [key_lt]; [subst; reflexivity|lia|lia].
    + eexists; split; [reflexivity|]. cbn [key_lt]. lia.
    + eexists; split; [reflexivity|]. cbn [key_lt]. lia.
Qed.
Lemma f_lt : forall x y, not_nan x -> not_nan y -> SFltb x y = true <-> key_lt (f_key x) (f_key y).
Proof.
  intros x y Hx Hy. destruct (compare_key x y Hx Hy) as (c & E & K). unfold SFltb. rewrite E. destruct c; split; auto; try discriminate.
  - rewrite K. destruct (f_key y) as [[a b] d]. cbn [key_lt]. lia.
  - destruct (f_key x) as [[a b] d], (f_key y) as [[a' b'] d']. cbn [key_lt] in *. lia.
Qed.
Lemma f_eq : forall x y, not_nan x -> not_nan y -> SFeqb x y = true <-> f_key x = f_key y.
Proof.
  intros x y Hx Hy. destruct (compare_key x y Hx Hy) as (c & E & K). unfold SFeqb. rewrite E. destruct c; split; auto; try discriminate.
  - intros C. rewrite C in K. destruct (f_key y) as [[a b] d]. cbn [key_lt] in K. lia.
  - intros C. rewrite C in K. destruct (f_key y) as [[a b] d]. cbn [key_lt] in K. lia.
Qed.
Lemma f_le : forall x y, not_nan x -> not_nan y -> SFleb x y = negb (SFltb y x).
Proof.
  intros x y Hx Hy. destruct (compare_key x y Hx Hy) as (c & E & K). unfold SFleb. rewrite E.
  destruct (SFltb y x) eqn:L; [apply f_lt in L; auto|]; destruct c; auto; cbn [negb].
  - rewrite K in L. destruct (f_key y) as [[a b] d]. cbn [key_lt] in L. lia.
  - destruct (f_key x) as [[a b] d], (f_key y) as [[a' b'] d']. cbn [key_lt] in *. lia.
  - apply f_lt in K; auto. congruence.
Qed.
Lemma Forder : NumOrder Fops not_nan.
Proof.
  assert (D : forall x y, not_nan x -> not_nan y -> SFltb x y = false <-> ~ key_lt (f_key x) (f_key y)).
  { intros x y Hx Hy. rewrite <- (f_lt x y Hx Hy). destruct (SFltb x y); split; congruence. }
  constructor; cbn [num nltb neqb nleb Fops].
  - intros x Hx. apply D; auto. destruct (f_key x) as [[a b] d]. cbn [key_lt]. lia.
  - intros x y z Hx Hy Hz. rewrite !f_lt by auto. destruct (f_key x) as [[a b] d], (f_key y) as [[a' b'] d'], (f_key z) as [[a'' b''] d'']. cbn [key_lt]. lia.
  - intros x y z Hx Hy Hz. rewrite !D by auto. destruct (f_key x) as [[a b] d], (f_key y) as [[a' b'] d'], (f_key z) as [[a'' b''] d'']. cbn [key_lt]. lia.
  - intros x y Hx Hy. rewrite f_eq, !D by auto. destruct (f_key x) as [[a b] d], (f_key y) as [[a' b'] d']. cbn [key_lt]. split; [intros E; inversion E; lia|].
    intros [H1 H2]. f_equal; [f_equal|]; lia.
  - intros x y Hx Hy. apply f_le; auto.
  - intros x y Hx Hy H. apply f_eq in H; auto. cbn [ntrunc Fops].
    destruct x as [sx|sx| |sx mx ex], y as [sy|sy| |sy my ey]; try (now elim Hx); try (now elim Hy); try destruct sx; try destruct sy; cbn [f_key] in H; inversion H; try reflexivity;
      replace ey with ex by lia; replace my with mx by lia; reflexivity.
  - intros x z Hx H. unfold int_eqb in H. cbn [ntrunc neqb nofZ Fops] in H. destruct (f_trunc x) as [t|]; [|discriminate H].
    apply andb_true_iff in H. destruct H as [E H]. apply Z.eqb_eq in E. subst t. intros C. cbn [nofZ Fops] in C. rewrite C in H. destruct x; discriminate H.
Qed.
