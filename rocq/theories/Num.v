(** Python numbers as used by the library.

    The library mixes Python ints and floats.  The model is parametric in the
    arithmetic: [NumOps] lists the operations the code performs.  [Qops] is exact
    rational arithmetic; Float.v instantiates IEEE binary64.
    Simplification: within one run all numbers live in one type [num]; Python
    ints appearing in arithmetic are converted with [nofZ]. *)
From Coq Require Import ZArith QArith Bool List Lia.
Import ListNotations.
Open Scope Z_scope.

Class NumOps := {
  num : Type;
  nofZ : Z -> num;                    (* an int used as a number *)
  nadd : num -> num -> num;           (* x + y *)
  nsub : num -> num -> num;           (* x - y *)
  nmul : num -> num -> num;           (* x * y *)
  ndiv_raw : num -> num -> num;       (* x / y for y not zero *)
  nopp : num -> num;                  (* - x *)
  nabs : num -> num;                  (* abs(x) *)
  nltb : num -> num -> bool;          (* x < y *)
  nleb : num -> num -> bool;          (* x <= y *)
  neqb : num -> num -> bool;          (* x == y *)
  ntrunc : num -> option Z;           (* int(x); None when int() raises (nan, inf) *)
  nround : num -> option Z;           (* round(x), half to even; None when it raises *)
  nrand : Z -> num                    (* the float k / 2**53, a possible random() *)
}.

(** Truncation and round-half-even of rationals. *)
Definition Qtrunc (q : Q) : Z := Z.quot (Qnum q) (Zpos (Qden q)).
Definition Qround_he (q : Q) : Z :=
  let f := Qnum q / Zpos (Qden q) in
  let r := Qnum q mod Zpos (Qden q) in      (* 0 <= r < den, q = f + r/den *)
  match Z.compare (2 * r) (Zpos (Qden q)) with
  | Lt => f
  | Gt => f + 1
  | Eq => if Z.even f then f else f + 1
  end.

Definition Qltb (x y : Q) : bool := negb (Qle_bool y x).

(** Exact arithmetic: no rounding, no infinities, no NaN. *)
Definition Qops : NumOps := {|
  num := Q;
  nofZ := inject_Z;
  nadd := Qplus;
  nsub := Qminus;
  nmul := Qmult;
  ndiv_raw := Qdiv;
  nopp := Qopp;
  nabs := fun x => if Qltb x 0 then Qopp x else x;
  nltb := Qltb;
  nleb := Qle_bool;
  neqb := Qeq_bool;
  ntrunc := fun q => Some (Qtrunc q);
  nround := fun q => Some (Qround_he q);
  nrand := fun k => Qmake k (2 ^ 53)%positive
|}.

Section Derived.
  Context {NO : NumOps}.
  Definition nzero : num := nofZ 0.
  Definition none_ : num := nofZ 1.
  (** max(0, x): Python's max keeps the first argument unless a later one is larger. *)
  Definition nmax0 (x : num) : num := if nltb nzero x then x else nzero.
  (** x ** k for a natural exponent.  Simplification: exponents are naturals (the
      defaults are 2) and powers are repeated products. *)
  Fixpoint npow (x : num) (k : nat) : num :=
    match k with O => none_ | S k' => nmul x (npow x k') end.
  (** sum(l) *)
  Definition nsum (l : list num) : num := fold_left nadd l nzero.
  (** Python list comparison x < y on lists of numbers: the first position where
      the elements differ decides, otherwise the shorter list is smaller. *)
  Fixpoint lex_ltb (a b : list num) : bool :=
    match a, b with
    | _, [] => false
    | [], _ :: _ => true
    | x :: a', y :: b' => if neqb x y then lex_ltb a' b' else nltb x y
    end.
  Fixpoint lst_eqb (a b : list num) : bool :=
    match a, b with
    | [], [] => true
    | x :: a', y :: b' => neqb x y && lst_eqb a' b'
    | _, _ => false
    end.
End Derived.
