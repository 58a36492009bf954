(** The universe of values, the mutable state and the execution monad. *)
From Coq Require Import ZArith List Bool String Lia.
From Verif Require Import Num.
Import ListNotations.
Open Scope Z_scope.

(** Python exceptions that the modelled code can raise.  [PyException t] is
    raise Exception(...) with [t] naming the message; [Unmodelled] marks a point
    where the model declines to follow Python (never reached, see the theorems). *)
Inductive exn :=
| ValueError | IndexError | ZeroDivisionError | KeyError | TypeError
| AttributeError | UnboundLocalError | OverflowError
| PyException (tag : string) | UserException | Unmodelled.

Section State.
  Context {NO : NumOps}.

  (** What int(x) and round(x) raise when x is not finite: OverflowError for an infinity,
      ValueError for NaN (the only number not equal to itself). *)
  Definition int_error (x : num) : exn := if neqb x x then OverflowError else ValueError.

  (** Gene values.  A bit is the one-character string 0 or 1 of a binary genotype
      (binary_population.py:83-86); phenotypes hold numbers; categorical genes hold
      ints, floats or strings. *)
  Inductive gv := GBit (b : bool) | GNum (x : num) | GInt (z : Z) | GStr (s : string).

  (** x == z for a float and an int: Python compares the exact values (1.0 == 1). *)
  Definition int_eqb (x : num) (z : Z) : bool :=
    match ntrunc x with Some t => (t =? z) && neqb x (nofZ t) | None => false end.

  (** a == b on genes.  Bits and other strings do not meet: only binary populations
      hold bits. *)
  Definition gv_eqb (a b : gv) : bool :=
    match a, b with
    | GBit x, GBit y => Bool.eqb x y
    | GNum x, GNum y => neqb x y
    | GNum x, GInt z => int_eqb x z
    | GInt z, GNum x => int_eqb x z
    | GInt x, GInt y => Z.eqb x y
    | GStr x, GStr y => String.eqb x y
    | _, _ => false
    end.

  Fixpoint gvs_eqb (a b : list gv) : bool :=
    match a, b with
    | [], [] => true
    | x :: a', y :: b' => gv_eqb x y && gvs_eqb a' b'
    | _, _ => false
    end.

  (** Values of the dict entries score, obj_score and rank: None, a number, or a
      list of numbers (multi-objective). *)
  Inductive sval := SVNone | SV1 (x : num) | SVL (l : list num).

  Definition is_none (v : sval) : bool := match v with SVNone => true | _ => false end.

  (** v < w in Python; None = TypeError. *)
  Definition sv_ltb (v w : sval) : option bool :=
    match v, w with
    | SV1 x, SV1 y => Some (nltb x y)
    | SVL a, SVL b => Some (lex_ltb a b)
    | _, _ => None
    end.

  (** v == w in Python (different types are unequal). *)
  Definition sv_eqb (v w : sval) : bool :=
    match v, w with
    | SVNone, SVNone => true
    | SV1 x, SV1 y => neqb x y
    | SVL a, SVL b => lst_eqb a b
    | _, _ => false
    end.

  (** An individual: the dict built by BasePopulation.add_dict
      (base_population.py:58-67) and get_empty_individ (base_population.py:88-99).
      [phenotype]: None = the key is absent, Some None = the value is None.
      [rank]: None = the key is absent.  [idx_individ]: None = absent or None.
      Simplification: a genotype that is None (a child between get_empty_individ and
      the crossover that fills it) is the empty list. *)
  Record individ := mkInd {
    genotype : list gv;
    phenotype : option (option (list gv));
    score : sval;
    obj_score : sval;
    feasible : bool;
    idx_individ : option Z;
    rank : option sval
  }.

  Definition set_genotype g i := mkInd g (phenotype i) (score i) (obj_score i) (feasible i) (idx_individ i) (rank i).
  Definition set_phenotype p i := mkInd (genotype i) p (score i) (obj_score i) (feasible i) (idx_individ i) (rank i).
  Definition set_score v i := mkInd (genotype i) (phenotype i) v (obj_score i) (feasible i) (idx_individ i) (rank i).
  Definition set_obj_score_f v i := mkInd (genotype i) (phenotype i) (score i) v (feasible i) (idx_individ i) (rank i).
  Definition set_feasible b i := mkInd (genotype i) (phenotype i) (score i) (obj_score i) b (idx_individ i) (rank i).
  Definition set_idx n i := mkInd (genotype i) (phenotype i) (score i) (obj_score i) (feasible i) n (rank i).
  Definition set_rank r i := mkInd (genotype i) (phenotype i) (score i) (obj_score i) (feasible i) (idx_individ i) r.

  Definition blank_individ : individ := mkInd [] None SVNone SVNone true None None.

  (** What the objective function returns: a number or a tuple of numbers. *)
  Inductive oval := OScalar (x : num) | OTuple (l : list num).

  (** The mutable world.  [heap] maps references of individuals to dicts, [next] is
      the first unused reference.  [tape] is the state of the global generator of
      module random: the raw values it will produce.  [ent] supplies a fresh
      generator state for each seed(None); [rnd_seed] is generator.rnd_seed
      (global_generator.py:2-15), [prng z] the state random.seed(z) installs.
      [log] records the calls of the objective function, latest first (ghost). *)
  Record st := mkSt {
    heap : nat -> individ;
    next : nat;
    tape : nat -> Z;
    ent : nat -> nat -> Z;
    rnd_seed : option Z;
    prng : Z -> nat -> Z;
    log : list (list gv * oval)
  }.

  Definition set_heap h s := mkSt h (next s) (tape s) (ent s) (rnd_seed s) (prng s) (log s).
  Definition set_tape t s := mkSt (heap s) (next s) t (ent s) (rnd_seed s) (prng s) (log s).
  Definition set_ent e s := mkSt (heap s) (next s) (tape s) e (rnd_seed s) (prng s) (log s).
  Definition set_log l s := mkSt (heap s) (next s) (tape s) (ent s) (rnd_seed s) (prng s) l.
  Definition upd (h : nat -> individ) (r : nat) (i : individ) : nat -> individ :=
    fun r' => if Nat.eqb r' r then i else h r'.

  (** Results of executing code: a value and a new state, an exception, or not
      enough fuel for an unbounded while loop. *)
  Inductive outcome (A : Type) :=
  | Ok (a : A) (s : st)
  | Err (e : exn)
  | NoFuel.
  Arguments Ok {A} _ _.
  Arguments Err {A} _.
  Arguments NoFuel {A}.

  Definition M (A : Type) := st -> outcome A.

  Definition ret {A} (a : A) : M A := fun s => Ok a s.
  Definition bind {A B} (m : M A) (k : A -> M B) : M B :=
    fun s => match m s with
             | Ok a s' => k a s'
             | Err e => Err e
             | NoFuel => NoFuel
             end.
  Definition raise {A} (e : exn) : M A := fun _ => Err e.
  Definition nofuel {A} : M A := fun _ => NoFuel.

  (** Pure computations that may raise. *)
  Definition lift {A} (r : exn + A) : M A :=
    fun s => match r with inr a => Ok a s | inl e => Err e end.
  Definition lift_opt {A} (e : exn) (r : option A) : M A :=
    fun s => match r with Some a => Ok a s | None => Err e end.

  Definition get (r : nat) : M individ := fun s => Ok (heap s r) s.
  Definition modify (r : nat) (f : individ -> individ) : M unit :=
    fun s => Ok tt (set_heap (upd (heap s) r (f (heap s r))) s).
  Definition alloc (i : individ) : M nat :=
    fun s => Ok (next s)
      (mkSt (upd (heap s) (next s) i) (S (next s)) (tape s) (ent s) (rnd_seed s) (prng s) (log s)).

  (** Loops over finite lists. *)
  Fixpoint mfold {A B} (f : A -> B -> M A) (l : list B) (a : A) : M A :=
    match l with
    | [] => ret a
    | b :: l' => bind (f a b) (fun a' => mfold f l' a')
    end.
  Fixpoint mmap {A B} (f : A -> M B) (l : list A) : M (list B) :=
    match l with
    | [] => ret []
    | a :: l' => bind (f a) (fun b => bind (mmap f l') (fun bs => ret (b :: bs)))
    end.
  Fixpoint miter {A} (f : A -> M unit) (l : list A) : M unit :=
    match l with
    | [] => ret tt
    | a :: l' => bind (f a) (fun _ => miter f l')
    end.
  (** n repetitions collecting the results in order. *)
  Fixpoint mrepeat {A} (n : nat) (m : M A) : M (list A) :=
    match n with
    | O => ret []
    | S n' => bind m (fun a => bind (mrepeat n' m) (fun l => ret (a :: l)))
    end.

  (** *** Module random ***)

  (** seed(generator.rnd_seed), run by every population constructor
      (base_population.py:18-21). *)
  Definition do_seed : M unit :=
    fun s => match rnd_seed s with
             | Some z => Ok tt (set_tape (prng s z) s)
             | None => Ok tt (set_ent (fun i => ent s (S i)) (set_tape (ent s O) s))
             end.

  (** One raw value reduced to 0 <= _ < k. *)
  Definition draw (k : Z) : M Z :=
    fun s => Ok (tape s O mod k) (set_tape (fun i => tape s (S i)) s).

  (** random.randint(a, b): any integer of a..b; ValueError on an empty range. *)
  Definition randint (a b : Z) : M Z :=
    if b <? a then raise ValueError
    else bind (draw (b - a + 1)) (fun k => ret (a + k)).

  (** random.choice(l): IndexError on an empty list. *)
  Definition choice {A} (l : list A) : M A :=
    match l with
    | [] => raise IndexError
    | d :: _ => bind (draw (Z.of_nat (List.length l))) (fun k => ret (nth (Z.to_nat k) l d))
    end.

  Definition remove_at {A} (i : nat) (l : list A) : list A := firstn i l ++ skipn (S i) l.

  (** random.sample(l, k): k elements at distinct positions, in any order;
      ValueError if k is negative or larger than the list. *)
  Fixpoint sample_loop {A} (k : nat) (l : list A) : M (list A) :=
    match k with
    | O => ret []
    | S k' =>
        match l with
        | [] => raise ValueError
        | d :: _ =>
            bind (draw (Z.of_nat (List.length l))) (fun i =>
            bind (sample_loop k' (remove_at (Z.to_nat i) l)) (fun rest =>
            ret (nth (Z.to_nat i) l d :: rest)))
        end
    end.
  Definition sample {A} (l : list A) (k : Z) : M (list A) :=
    if (k <? 0) || (Z.of_nat (List.length l) <? k) then raise ValueError
    else sample_loop (Z.to_nat k) l.

  (** random.random(): a float k / 2**53. *)
  Definition random_ : M num := bind (draw (2 ^ 53)) (fun k => ret (nrand k)).

End State.

Arguments Ok {NO A} _ _.
Arguments Err {NO A} _.
Arguments NoFuel {NO A}.

Declare Scope monad_scope.
Delimit Scope monad_scope with monad.
Notation "x <- m ;; k" := (bind m (fun x => k))
  (at level 61, m at next level, right associativity) : monad_scope.
Notation "m ;;; k" := (bind m (fun _ => k))
  (at level 61, right associativity) : monad_scope.
Open Scope monad_scope.

(** *** Python lists ***)

(** range(lo, hi, step) for a non-zero step. *)
Definition range_len (lo hi step : Z) : Z :=
  if 0 <? step then (if lo <? hi then (hi - lo - 1) / step + 1 else 0)
  else (if hi <? lo then (lo - hi - 1) / (- step) + 1 else 0).
Definition py_range (lo hi step : Z) : list Z :=
  map (fun i => lo + Z.of_nat i * step) (seq 0 (Z.to_nat (range_len lo hi step))).
(** range(n) / range(a, b) *)
Definition zrange (a b : Z) : list Z := py_range a b 1.

(** l[i] with Python's negative indices; None = IndexError. *)
Definition py_nth {A} (l : list A) (i : Z) : option A :=
  let n := Z.of_nat (List.length l) in
  let j := if i <? 0 then i + n else i in
  if (j <? 0) || (n <=? j) then None else nth_error l (Z.to_nat j).

(** Position used by a slice bound: negative bounds count from the end, then clamp. *)
Definition slice_pos (n i : Z) : nat :=
  let j := if i <? 0 then i + n else i in Z.to_nat (Z.max 0 (Z.min n j)).
(** l[i:], l[:j], l[i:j] *)
Definition slice_from {A} (l : list A) (i : Z) : list A :=
  skipn (slice_pos (Z.of_nat (List.length l)) i) l.
Definition slice_to {A} (l : list A) (j : Z) : list A :=
  firstn (slice_pos (Z.of_nat (List.length l)) j) l.
Definition slice {A} (l : list A) (i j : Z) : list A :=
  let n := Z.of_nat (List.length l) in
  let a := slice_pos n i in let b := slice_pos n j in
  firstn (b - a) (skipn a l).

(** l[i] = x for an index that is in range (0 <= i < len). *)
Fixpoint list_set {A} (l : list A) (i : nat) (x : A) : list A :=
  match l, i with
  | [], _ => []
  | _ :: l', O => x :: l'
  | y :: l', S i' => y :: list_set l' i' x
  end.
(** l.insert(i, x) for 0 <= i *)
Definition list_insert {A} (l : list A) (i : nat) (x : A) : list A := firstn i l ++ x :: skipn i l.

Section PyRandom.
  Context {NO : NumOps}.
  (** random.randrange(lo, hi, step): ValueError for step 0 or an empty range. *)
  Definition randrange (lo hi step : Z) : M Z :=
    if step =? 0 then raise ValueError
    else if range_len lo hi step <=? 0 then raise ValueError
    else k <- draw (range_len lo hi step) ;; ret (lo + k * step).
End PyRandom.

(** Stable sort used for list.sort: insertion sort on a strict order.  For a strict
    weak order the stable sorted permutation is unique, so this is what Python's
    sort returns.  [lt a b] is a < b. *)
Fixpoint insert_by {A} (lt : A -> A -> bool) (x : A) (l : list A) : list A :=
  match l with
  | [] => [x]
  | y :: l' => if lt y x then y :: insert_by lt x l' else x :: y :: l'
  end.
Fixpoint sort_by {A} (lt : A -> A -> bool) (l : list A) : list A :=
  match l with
  | [] => []
  | x :: l' => insert_by lt x (sort_by lt l')
  end.
