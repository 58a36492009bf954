(** Runs as the theorems speak about them: the data a run starts from, the state at
    each generation, and how optimize of the ready-made classes and of CollectorGA
    relates to them. *)
From Coq Require Import String.
From Coq Require Import ZArith QArith List Bool Lia Permutation Sorted.
From Verif Require Import Spec Num State Binary Population GaData Crossover Mutation Selection Penalty Fitness NewGeneration Driver
  ListLemmas Rnd Exec Laws PopulationProofs CrossoverProofs MutationProofs SelectionProofs VegaProofs
  NewGenProofs UpdateProofs FitnessProofs StepProofs RunProofs HistoryProofs.
Import ListNotations.
Open Scope list_scope.
Open Scope Z_scope.

Section Runs.
  Context {NO : NumOps}.

  (** What BinaryGA.optimize etc. and CollectorGA.set_population hand to the main
      loop: parameters set, population filled, new GaData. *)
  Definition started (gd : gadata) (s : st) : Prop :=
    exists n g inp p s0 p' ng cp es, set_params n g inp = inr p /\ fill p s0 = Ok p' s /\ gd = new_gadata false ng cp es p'.
  (** The state after generation number [k] (counted from 0) of a run of the
      components [c] started from [gd0], [s0]. *)
  Definition at_generation (fuel : nat) (c : comps) (gd0 : gadata) (s0 : st) (k : nat) (c' : comps) (gd' : gadata) (s' : st) : Prop :=
    exists gd s, first_generation (c_fitness c) gd0 s0 = Ok gd s /\ steps fuel c gd s k c' gd' s'.

  Lemma started_init : forall gd s, started gd s -> Init gd s.
  Proof.
    intros gd s (n & g & inp & p & s0 & p' & ng & cp & es & Sp & F & ->). eapply fill_init; [|exact F].
    apply set_params_inv in Sp. destruct Sp as [_ ->]. reflexivity.
  Qed.
  Lemma started_size : forall gd s, started gd s -> Z.of_nat (length (members (population gd))) = Z.max 0 (num_individ (population gd)).
  Proof.
    intros gd s (n & g & inp & p & s0 & p' & ng & cp & es & Sp & F & ->). apply set_params_inv in Sp. destruct Sp as [E ->].
    apply fill_ok in F. destruct F as (g' & _ & H). cbv zeta in H. destruct H as (-> & _). cbn [new_gadata population members set_members set_gspec num_individ input_population].
    rewrite seq_length. cbn [input_population num_individ] in *. lia.
  Qed.

  (** Every run of the main loop ends at one of its generations. *)
  Lemma run_ends : forall fuel c gd0 s0 c' gd' s', run_loop fuel c gd0 s0 = Ok (c', gd') s' ->
    exists k, at_generation fuel c gd0 s0 k c' gd' s'.
  Proof. intros fuel c gd0 s0 c' gd' s' H. apply run_steps in H. destruct H as (gd1 & s1 & k & F & _ & S & _). exists k, gd1, s1. auto. Qed.

  (** The components of a ready-made single-objective class. *)
  Definition single_objective (fk : fitness_kind) (sel : selection) (multi ngm : bool) : Prop :=
    fk = Hyperbola /\ objectives_ok sel /\ multi = false /\ ngm = false.

  Lemma optimize_run : forall fuel cf multi g fk sel ck mk ngm s gd' cl s', single_objective fk sel multi ngm ->
    ga_optimize fuel cf multi g fk sel ck mk ngm s = Ok (gd', cl) s' ->
    exists p s1 p' s2 f m ng c',
      set_params (cf_num_individ cf) g (cf_input_population cf) = inr p /\ do_seed s = Ok tt s1 /\ fill p s1 = Ok p' s2 /\
      new_fitness fk (cf_objective cf) (cf_obj_value cf) (cf_input_data cf) (cf_penalty cf) (cf_conditions cf) = inr (f, cl) /\
      mk (cf_mutation_lvl cf) = inr m /\ new_newgen false (cf_transfer cf) = inr ng /\
      log s2 = log s /\ rnd_seed s2 = rnd_seed s /\
      single (mkComps f sel ck m ng) /\ started (new_gadata false (cf_num_generations cf) (cf_children_percent cf) (resolved_stop cf) p') s2 /\
      run_loop fuel (mkComps f sel ck m ng) (new_gadata false (cf_num_generations cf) (cf_children_percent cf) (resolved_stop cf) p') s2 = Ok (c', gd') s'.
  Proof.
    intros fuel cf multi g fk sel ck mk ngm s gd' cl s' (-> & Ho & -> & ->) H. unfold ga_optimize in H.
    bd H u s1 R1. destruct u. bd H p sx R2. apply lift_ok in R2. destruct R2 as [Sp ->].
    bd H fc sy R3. apply lift_ok in R3. destruct R3 as [Nf ->]. bd H m sz R4. apply lift_ok in R4. destruct R4 as [Nm ->].
    bd H ng sw R5. apply lift_ok in R5. destruct R5 as [Nn ->]. bd H p' s2 R6. cbv zeta in H. bd H r s3 R7. destruct r as [c' gd1].
    bd H u1 s4 R8. apply ret_ok in H. destruct H as [E ->]. inversion E; subst gd1 cl. clear E. destruct fc as [f cl].
    cbn [fst snd] in *.
    assert (s4 = s3).
    { destruct (cf_is_print cf); [|apply ret_ok in R8; destruct R8; auto]. unfold print_best_solution in R8.
      destruct (best_solution gd') as [|i k|l [k|]]; try discriminate; [apply ret_ok in R8; destruct R8; auto|].
      clear - R8. induction l as [|x l IH]; cbn [miter] in R8; [apply ret_ok in R8; destruct R8; auto|]. destruct (phenotype x); [|discriminate].
      bd R8 u s1 R. apply ret_ok in R. destruct R as [_ ->]. auto. }
    subst s4. exists p, s1, p', s2, f, m, ng, c'. split; auto. split; auto. split; auto. split; auto. split; auto. split; auto.
    pose proof R1 as R1'. apply extends_do_seed in R1'. destruct R1' as ((_ & L1 & S1 & _) & _).
    pose proof R6 as R6'. apply fill_ok in R6'. destruct R6' as (g' & _ & K). cbv zeta in K. destruct K as (_ & _ & (_ & L2 & S2 & _) & _).
    split; [congruence|]. split; [congruence|]. split.
    - split; [|split; auto].
      + unfold new_fitness in Nf. destruct (cf_penalty cf); [inversion Nf; reflexivity| |discriminate]. destruct (_ <=? 1); [inversion Nf; reflexivity|].
        cbn [is_multi_kind] in Nf. destruct (index_of "optimize" _); inversion Nf; reflexivity.
      + unfold new_newgen in Nn. destruct (String.eqb _ _); [inversion Nn; reflexivity|]. destruct (String.eqb _ _); inversion Nn; reflexivity.
    - split; auto. exists (cf_num_individ cf), g, (cf_input_population cf), p, s1, p', (cf_num_generations cf), (cf_children_percent cf), (resolved_stop cf). auto.
  Qed.
  Lemma collector_run : forall fuel c gd0 s0 c' gd' s', collector_optimize fuel c gd0 s0 = Ok (c', gd') s' ->
    exists s1, run_loop fuel c gd0 s0 = Ok (c', gd') s1.
  Proof.
    intros fuel c gd0 s0 c' gd' s' H. unfold collector_optimize in H. bd H r s1 R. bd H u s2 R2. apply ret_ok in H. destruct H as [E ->]. subst r. eauto.
  Qed.
End Runs.
