(** Property C90: a run consults its penalty only for the generation numbers 0 .. num_generations-1. *)
From Coq Require Import String.
From Coq Require Import ZArith QArith List Bool Lia.
From Verif Require Import Spec Num State Binary Population GaData Crossover Mutation Selection Penalty Fitness NewGeneration Driver
  ListLemmas Rnd Exec Laws PropPenalty PropConditional Demo AgreeProofs.
Import ListNotations.
Open Scope string_scope.
Open Scope list_scope.
Open Scope Z_scope.

Section Agree.
  Context {NO : NumOps}.
  (** A generation number of a run; there is at least the first generation. *)
  Definition run_generation (cf : config) (gen : Z) : Prop := 0 <= gen < Z.max 1 (cf_num_generations cf).
  (** Two penalties that give the same result in those generations, whatever the values and the best individual. *)
  Definition same_penalty (cf : config) (p p' : penalty) : Prop := forall conds values gen best, run_generation cf gen ->
    penalty_execute p' conds values gen best = penalty_execute p conds values gen best.

  (** C90: with either of the two every class does the same: the same result or exception, the
      same calls of the objective, the same random numbers. *)
  Theorem C90_same_run : forall fuel cf p p' s, cf_penalty cf = PPen p -> same_penalty cf p p' ->
    let cf' := with_penalty (PPen p') cf in
    (forall gray gens, binary_ga fuel cf' gray gens s = binary_ga fuel cf gray gens s) /\
    (forall a b k, combinatory_ga fuel cf' a b k s = combinatory_ga fuel cf a b k s) /\
    (forall gens, categorical_ga fuel cf' gens s = categorical_ga fuel cf gens s) /\
    (forall gray gens, vega fuel cf' gray gens s = vega fuel cf gray gens s) /\
    (forall gray gens, ffga fuel cf' gray gens s = ffga fuel cf gray gens s).
  Proof.
    intros fuel cf p p' s Ep A cf'.
    assert (K : forall multi g fk sel ck mk ngm s0, ga_optimize fuel cf' multi g fk sel ck mk ngm s0 = ga_optimize fuel cf multi g fk sel ck mk ngm s0).
    { intros. apply (optimize_agree (Z.max 1 (cf_num_generations cf)) fuel cf p p'); auto; lia. }
    split; [intros; apply K|]. split; [intros; apply K|]. split; [intros; apply K|]. split; [|intros; apply K].
    intros gray gens. unfold vega. apply bind_same; [reflexivity|]. intros m s1 _. apply K.
  Qed.
  (** For the dynamic penalty: only the powers of C * 0, ..., C * (num_generations - 1) matter. *)
  Theorem C90_dynamic : forall fuel cf delta c alpha alpha' betta s, cf_penalty cf = PPen (Dynamic delta c alpha betta) ->
    (forall gen, run_generation cf gen -> alpha' (nmul c (nofZ gen)) = alpha (nmul c (nofZ gen))) ->
    let cf' := with_penalty (PPen (Dynamic delta c alpha' betta)) cf in
    (forall gray gens, binary_ga fuel cf' gray gens s = binary_ga fuel cf gray gens s) /\
    (forall a b k, combinatory_ga fuel cf' a b k s = combinatory_ga fuel cf a b k s) /\
    (forall gens, categorical_ga fuel cf' gens s = categorical_ga fuel cf gens s) /\
    (forall gray gens, vega fuel cf' gray gens s = vega fuel cf gray gens s) /\
    (forall gray gens, ffga fuel cf' gray gens s = ffga fuel cf gray gens s).
  Proof.
    intros fuel cf delta c alpha alpha' betta s Ep A. apply (C90_same_run _ _ _ _ _ Ep). intros conds values gen best Hg. unfold penalty_execute.
    rewrite (A gen Hg). reflexivity.
  Qed.
End Agree.

(** *** Cases *)
Local Existing Instance Qops.
(** The square, except that numbers from [t] on raise. *)
Definition until (t : Q) : expo := fun x => if Qle_bool t (x : Q) then inl OverflowError else natural 2 (x : num).
Definition until_cf (n : Z) (t : Q) : config :=
  mkCfg n 5 cond_obj (T1 (0%Q : num)) None (PPen (Dynamic (1%Q : num) (1#2)%Q (until t) (natural 2))) (Some ["<="; "optimize"; "!="]) (6#10) None [] 2 (LStr "strong") "best" true.
Definition plain_cf (n : Z) : config := with_penalty (PPen dynamic) (until_cf n 0).
(** Four generations: the powers of 0, 1/2, 1 and 3/2 are taken, so an exponent that fails from 2 on does no harm. *)
Example C90_meets : forall n t, n <= 4 -> (2 <= t)%Q -> forall gen, run_generation (plain_cf n) gen -> until t (((1#2) * inject_Z gen)%Q : num) = natural 2 (((1#2) * inject_Z gen)%Q : num).
Proof.
  intros n t Hn Ht gen Hg. unfold run_generation in Hg. cbn in Hg. unfold until. destruct (Qle_bool t _) eqn:E; [|reflexivity]. apply Qle_bool_iff in E. exfalso.
  assert (G : (inject_Z gen <= 3)%Q) by (change 3%Q with (inject_Z 3); rewrite <- Zle_Qle; lia). Lqa.lra.
Qed.
Example C90_example : forall fuel n t a b k s, n <= 4 -> (2 <= t)%Q -> combinatory_ga fuel (until_cf n t) a b k s = combinatory_ga fuel (plain_cf n) a b k s.
Proof.
  intros fuel n t a b k s Hn Ht. change (until_cf n t) with (with_penalty (PPen (Dynamic (1%Q : num) (1#2)%Q (until t) (natural 2))) (plain_cf n)).
  apply (C90_dynamic fuel (plain_cf n) _ _ (natural 2)); [reflexivity|]. exact (C90_meets n t Hn Ht).
Qed.
(** The bound is the exact one: failing from 3/2 on is seen in the last of four generations. *)
Example C90_case : outcome_of (combinatory_ga 50 (until_cf 4 2) 0 6 4 fresh_world) = outcome_of (combinatory_ga 50 (plain_cf 4) 0 6 4 fresh_world) /\
  kind (combinatory_ga 50 (until_cf 4 (3#2)) 0 6 4 fresh_world) = Some OverflowError /\ kind (combinatory_ga 50 (until_cf 3 (3#2)) 0 6 4 fresh_world) = None /\
  kind (combinatory_ga 50 (until_cf 0 (1#2)) 0 6 4 fresh_world) = None.
Proof. split; [rewrite C90_example by (first [lia|Lqa.lra]); reflexivity|split; [run|split; run]]. Qed.
Print Assumptions C90_same_run.
Print Assumptions C90_dynamic.
