(** Probabilities of whole runs.  Chance.v treats draws from one generator state; a run
    also seeds the generator afresh whenever a population object is made
    (seed(None), base_population.py:18-21).  Here the draws are uniform and independent
    as before, and each such seeding starts a new sequence of draws independent of the
    previous ones.  No axiom is involved. *)
From Coq Require Import ZArith QArith List.
From Verif Require Import Num State Chance.
Import ListNotations.
Open Scope Z_scope.

Section ChanceRun.
  Context {NO : NumOps}.

  (** The state with the generator state [t] and the entropy source [e]; the outcome
      that leaves these behind. *)
  Definition set_source (t : nat -> Z) (e : nat -> nat -> Z) (s : st) : st := set_ent e (set_tape t s).
  Definition with_source {A} (t : nat -> Z) (e : nat -> nat -> Z) (o : outcome A) : outcome A :=
    match o with Ok a s => Ok a (set_source t e s) | Err x => Err x | NoFuel => NoFuel end.

  (** [expects s f m q]: the mean of [f] of the outcome of [m] run in state [s] is [q].
      Either [m] uses no more randomness; or its next draw is uniform on 0 .. k - 1 and
      the mean is the mean over the k continuations; or it next starts a new sequence of
      draws. *)
  Inductive expects {A} (s : st) (f : outcome A -> Q) : M A -> Q -> Prop :=
  | ex_done : forall m o q, (forall t e, m (set_source t e s) = with_source t e o) -> (q == f o)%Q -> expects s f m q
  | ex_draw : forall m k (m' : Z -> M A) (r : Z -> Q) q, 0 < k ->
      (forall t e, m (set_source t e s) = m' (t O mod k) (set_source (fun i => t (S i)) e s)) ->
      (forall d, 0 <= d < k -> expects s f (m' d) (r d)) ->
      (q == mean (map r (below k)))%Q -> expects s f m q
  | ex_seed : forall m (m' : M A) q,
      (forall t e, m (set_source t e s) = m' (set_source (e O) (fun i => e (S i)) s)) ->
      expects s f m' q -> expects s f m q.

  (** The probability of an event. *)
  Definition probability {A} (m : M A) (s : st) (event : outcome A -> bool) (p : Q) : Prop :=
    expects s (fun o => indicator (event o)) m p.
End ChanceRun.
