(** Probabilities of computations that draw random numbers.  Each raw draw reduced to
    0 <= d < k is taken to be uniform on these k values and independent of the others
    (what module random promises of an ideal generator).  Every statement is about the
    model's draws; no axiom is involved. *)
From Coq Require Import ZArith QArith List Bool.
From Verif Require Import Num State.
Import ListNotations.
Open Scope Z_scope.

(** The arithmetic mean of a list; the numbers 0 .. k - 1. *)
Fixpoint qsum_of (l : list Q) : Q := match l with [] => 0%Q | x :: l' => (x + qsum_of l')%Q end.
Definition mean (l : list Q) : Q := (qsum_of l / inject_Z (Z.of_nat (length l)))%Q.
Definition below (k : Z) : list Z := map Z.of_nat (seq 0 (Z.to_nat k)).
Definition indicator (b : bool) : Q := if b then 1%Q else 0%Q.

(** Every element of a list with the others; all lists of k elements at distinct
    positions of a list; n (n - 1) ... (n - k + 1), their number. *)
Fixpoint splits {A} (l : list A) : list (A * list A) :=
  match l with [] => [] | x :: l' => (x, l') :: map (fun p => (fst p, x :: snd p)) (splits l') end.
Fixpoint arrangements {A} (k : nat) (l : list A) : list (list A) :=
  match k with O => [[]] | S k' => flat_map (fun p => map (cons (fst p)) (arrangements k' (snd p))) (splits l) end.
Fixpoint falling (n k : nat) : nat := match k with O => 1 | S k' => n * falling (n - 1) k' end.
(** All lists with one element of each of the given lists. *)
Fixpoint products {A} (ls : list (list A)) : list (list A) :=
  match ls with [] => [[]] | l :: ls' => flat_map (fun a => map (cons a) (products ls')) l end.

Section Chance.
  Context {NO : NumOps}.

  (** The outcome with the random generator left in state [t]. *)
  Definition with_tape {A} (t : nat -> Z) (o : outcome A) : outcome A :=
    match o with Ok a s => Ok a (set_tape t s) | Err e => Err e | NoFuel => NoFuel end.

  (** [averages s f m q]: over the draws of [m] run in state [s], the mean of [f] of the
      outcome is [q].  Either [m] draws nothing more, or its next draw is uniform on
      0 .. k - 1 and the mean is the mean over the k continuations. *)
  Inductive averages {A} (s : st) (f : outcome A -> Q) : M A -> Q -> Prop :=
  | av_done : forall m o q, (forall t, m (set_tape t s) = with_tape t o) -> (q == f o)%Q -> averages s f m q
  | av_draw : forall m k (m' : Z -> M A) (r : Z -> Q) q, 0 < k ->
      (forall t, m (set_tape t s) = m' (t O mod k) (set_tape (fun i => t (S i)) s)) ->
      (forall d, 0 <= d < k -> averages s f (m' d) (r d)) ->
      (q == mean (map r (below k)))%Q -> averages s f m q.

  (** The probability of an event. *)
  Definition chance {A} (m : M A) (s : st) (event : outcome A -> bool) (p : Q) : Prop :=
    averages s (fun o => indicator (event o)) m p.
  (** The event that a value with property [P] is returned. *)
  Definition returns {A} (P : A -> bool) (o : outcome A) : bool := match o with Ok a _ => P a | _ => false end.

  (** [even m l]: from every state [m] returns each entry of the list [l] with the same
      probability (an entry occurring twice counts twice), nothing else, and changes only
      the generator. *)
  Definition even {A} (m : M A) (l : list A) : Prop :=
    (forall s, exists a t, In a l /\ m s = Ok a (set_tape t s)) /\
    forall s f, averages s f m (mean (map (fun a => f (Ok a s)) l)).
End Chance.

(** All pairs of elements in the order of the list. *)
Fixpoint pairs {A} (l : list A) : list (A * A) :=
  match l with [] => [] | x :: l' => map (pair x) l' ++ pairs l' end.

Fixpoint qpow (p : Q) (n : nat) : Q := match n with O => 1%Q | S n' => (p * qpow p n')%Q end.
