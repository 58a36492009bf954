(** Property C83: runs end with probability 1 when no individual can be carried over twice. *)
From Coq Require Import String.
From Coq Require Import ZArith QArith Qround Qabs Qminmax List Bool Lia Lqa Permutation.
From Verif Require Import AssessProofs Spec Num State Binary Population GaData Crossover Mutation Selection Penalty Fitness NewGeneration Driver
  ListLemmas Rnd Exec Laws CodingProofs PropCoding PopulationProofs CrossoverProofs MutationProofs SelectionProofs VegaProofs
  NewGenProofs UpdateProofs FitnessProofs StepProofs RunProofs Runs PropCrossover PropRun PropBest PropFitness DomainProofs SafetyProofs
  PropSelection OptimizeProofs PropDomain PropConditional PropResume ReachProofs PropReach Fuelless Chance ChanceProofs SelChanceProofs PropSelChance PropMutChance
  ChanceRun ChanceRunProofs ConvergeProofs PropConverge CompareProofs FuelProofs Demo.
Import ListNotations.
Open Scope string_scope.
Open Scope list_scope.
Open Scope Z_scope.
Local Existing Instance Qops.

(** The run does not return: it raises, or a search for a second parent takes more than
    [fuel] draws. *)
Definition unfinished {A} (o : outcome A) : bool := match o with Ok _ _ => false | _ => true end.
(** The probability of a longer search is at most (t/n)^fuel for each of the [m] pairs of
    parents in each later generation. *)
Definition patience (cf : config) (fuel : nat) : Q :=
  (inject_Z (Z.max 0 (cf_num_generations cf - 1)) * (inject_Z (Qtrunc (cf_children_percent cf * inject_Z (cf_num_individ cf))) *
   qpow (inject_Z (cf_tournament_size cf) / inject_Z (cf_num_individ cf)) fuel))%Q.

(** *** The loop *)
Lemma step_spent : forall fuel c gd s eta, rnd_seed s = None -> (0 <= eta)%Q -> at_most s (spent 1) (selection_execute fuel (c_selection c) gd) eta ->
  at_most s (spent 1) (ga_step fuel c gd) eta.
Proof.
  intros fuel c gd s eta Hs He Hsel. unfold ga_step. apply (am_bind s _ _ _ (fun _ _ => 0%Q)).
  - eapply am_weaken; [exact Hsel|intros o _; destruct o; apply Qle_refl|apply Qle_refl].
  - intros gd1 s1 A1. pose proof (arises_seedless _ _ _ _ (tr_selection_execute _ _ _) Hs A1) as Hs1. apply spent_fuelless; [| |exact Hs1|apply Qle_refl].
    + repeat (apply tr_bind; [|intros ?]); [apply tr_crossover_execute|apply tr_mutation_execute|apply tr_newgen|apply tr_fitness_execute|apply tr_update|apply tr_ret].
    + repeat (apply fl_bind; [|intros ?]); [apply fl_crossover_execute|apply fl_mutation_execute|apply fl_newgen|apply fl_fitness_execute|apply fl_update|apply fl_ret].
Qed.
Lemma loop_spent : forall Inv fuel eta, (0 <= eta)%Q -> bounded_wait Inv (fun _ => True) fuel 1 eta ->
  forall k c gd s, going (fun _ => True) c gd s -> rnd_seed s = None -> Inv c gd s ->
  at_most s (spent 1) (ga_loop fuel k c gd) (inject_Z (Z.of_nat k) * eta).
Proof.
  intros Inv fuel eta He (W1 & W2 & W3) k. induction k as [|k IH]; intros c gd s G Hs HI; cbn [ga_loop].
  - apply spent_fuelless; auto; [apply tr_ret|apply fl_ret|]. change (inject_Z (Z.of_nat 0)) with 0%Q. lra.
  - assert (Kp : (0 <= inject_Z (Z.of_nat k) * eta)%Q) by (apply Qmult_le_0_compat; auto; unfold Qle; cbn; lia).
    apply (am_bind s _ _ _ (fun _ _ => inject_Z (Z.of_nat k) * eta)%Q).
    + eapply (am_affine s (spent 1) _ _ eta 1 (inject_Z (Z.of_nat k) * eta)); [lra|apply step_spent; auto| |].
      * intros o _. destruct o; cbn [spent]; lra.
      * rewrite Nat2Z.inj_succ. unfold Z.succ. rewrite inject_Z_plus. change (inject_Z 1) with 1%Q. lra.
    + intros [c' gd'] s' A. destruct (A (tape s') (ent s')) as (t & e0 & R). cbn [with_source] in R. rewrite source_same in R.
      pose proof (going_source _ _ _ _ t e0 G) as Gx. pose proof (going_step _ _ _ _ _ _ _ _ Qorder Gx R) as G'.
      assert (Hs' : rnd_seed s' = None) by (eapply arises_seedless; [apply tr_ga_step|exact Hs|exact A]).
      assert (HI' : Inv c' gd' s') by (eapply W2; [exact Gx|apply W3; exact HI|exact R]). cbn [fst snd].
      apply fuelless_bind; auto; [unfold should_stop; destruct (early_stop gd'); [apply tr_ret|apply tr_raise]|unfold should_stop; destruct (early_stop gd'); [apply fl_ret|apply fl_raise]|].
      intros b s2 A2. assert (Es : exists t2 e2, s2 = set_source t2 e2 s').
      { destruct (A2 (tape s2) (ent s2)) as (t2 & e2 & E). cbn [with_source] in E. rewrite source_same in E. unfold should_stop in E.
        destruct (early_stop gd'); [|discriminate E]. apply ret_ok in E. destruct E as [_ ->]. eauto. }
      destruct Es as (t2 & e2 & ->). destruct b; [apply spent_fuelless; auto; [apply tr_ret|apply fl_ret]|].
      apply IH; auto. apply going_source. exact G'.
Qed.

Section Ends.
  Variables (fuel : nat) (cf : config) (g : gspec) (ck : crossover_kind) (mk : lvl -> exn + mutation) (g' : gspec) (m : mutation) (s : st).
  Hypothesis IO : in_order cf g ck mk g' m.
  Hypothesis Hs : rnd_seed s = None.
  Hypothesis NT : no_twins cf.
  Let run := ga_optimize fuel cf false g Hyperbola (SelTournament (cf_tournament_size cf)) ck mk false.
  Lemma run_ends_soon : (forall s' e, run s' <> Err e) -> exists p, probability run s unfinished p /\ (p <= patience cf fuel)%Q.
  Proof.
    intros Safe. destruct IO as (I1 & I2 & I3 & I4 & I5 & I6 & I7 & I8 & I9). pose proof I1 as ((Ht1 & Ht2) & Hc & Htr & Hl).
    set (t := cf_tournament_size cf) in *. set (n := cf_num_individ cf) in *. set (k := Qtrunc (cf_children_percent cf * inject_Z n)) in *.
    assert (Qp : (0 <= qpow (inject_Z t / inject_Z n) fuel)%Q).
    { apply qpow_nonneg. apply Qmult_le_0_compat; [|apply Qinv_le_0_compat]; unfold Qle; cbn; lia. }
    set (eta := (inject_Z k * qpow (inject_Z t / inject_Z n) fuel)%Q). assert (He : (0 <= eta)%Q) by (apply Qmult_le_0_compat; auto; unfold Qle; cbn; lia).
    assert (Kp : (0 <= patience cf fuel)%Q) by (unfold patience; fold t n k eta; apply Qmult_le_0_compat; auto; unfold Qle; cbn; lia).
    assert (B : at_most s (spent 1) run (patience cf fuel)).
    { unfold run, ga_optimize.
      apply fuelless_bind; auto; [apply tr_do_seed|apply fl_do_seed|]. intros u s1 A1. pose proof (arises_seedless _ _ _ _ tr_do_seed Hs A1) as H1.
      apply fuelless_bind; auto; [apply tr_lift|apply fl_lift|]. intros p s2 A2. pose proof (arises_seedless _ _ _ _ (tr_lift _) H1 A2) as H2.
      apply fuelless_bind; auto; [apply tr_lift|apply fl_lift|]. intros fc s3 A3. pose proof (arises_seedless _ _ _ _ (tr_lift _) H2 A3) as H3.
      apply fuelless_bind; auto; [apply tr_lift|apply fl_lift|]. intros m0 s4 A4. pose proof (arises_seedless _ _ _ _ (tr_lift _) H3 A4) as H4.
      apply fuelless_bind; auto; [apply tr_lift|apply fl_lift|]. intros ng s5 A5. pose proof (arises_seedless _ _ _ _ (tr_lift _) H4 A5) as H5.
      apply fuelless_bind; auto; [apply tr_fill|apply fl_fill|]. intros p' s6 A6. pose proof (arises_seedless _ _ _ _ (tr_fill _) H5 A6) as H6.
      cbv zeta. set (gd0 := new_gadata false (cf_num_generations cf) (cf_children_percent cf) (resolved_stop cf) p').
      set (c := mkComps (fst fc) (SelTournament (cf_tournament_size cf)) ck m0 ng).
      assert (La : forall t6 e6, exists t e, launched cf g ck mk (set_source t e s) c gd0 (set_source t6 e6 s6)).
      { intros t6 e6. destruct (A6 t6 e6) as (t5 & e5 & E6). destruct (A5 t5 e5) as (t4 & e4 & E5). destruct (A4 t4 e4) as (t3 & e3 & E4).
        destruct (A3 t3 e3) as (t2 & e2 & E3). destruct (A2 t2 e2) as (t1 & e1 & E2). destruct (A1 t1 e1) as (t0 & e0 & E1). cbn [with_source] in *.
        apply lift_ok in E2. destruct E2 as [Sp X2]. apply lift_ok in E3. destruct E3 as [Nf X3]. apply lift_ok in E4. destruct E4 as [Nm X4]. apply lift_ok in E5. destruct E5 as [Nn X5].
        destruct u. exists t0, e0, p, (set_source t1 e1 s1), p', (fst fc), (snd fc), m0, ng. split; [exact Sp|]. split; [exact E1|].
        split; [rewrite <- E6; f_equal; congruence|]. split; [rewrite Nf; destruct fc; reflexivity|]. split; [exact Nm|]. split; [exact Nn|]. split; reflexivity. }
      apply (am_bind s6 _ _ _ (fun _ _ => 0%Q)).
      - apply (am_weaken s6 (spent 1) _ _ (patience cf fuel)); [|intros o _; destruct o; apply Qle_refl|apply Qle_refl]. unfold run_loop.
        apply fuelless_bind; auto; [apply tr_fitness_execute|apply fl_fitness_execute|]. intros u7 s7 A7. pose proof (arises_seedless _ _ _ _ (tr_fitness_execute _ _) H6 A7) as H7.
        apply fuelless_bind; auto; [apply tr_update|apply fl_update|]. intros gd1 s8 A8. pose proof (arises_seedless _ _ _ _ (tr_update _) H7 A8) as H8.
        destruct (A8 (tape s8) (ent s8)) as (t7 & e7 & E8). destruct (A7 t7 e7) as (t6 & e6 & E7). cbn [with_source] in E7, E8. rewrite source_same in E8.
        destruct (La t6 e6) as (t' & e' & L). clear La A1 A2 A3 A4 A5 A6 A7 A8.
        assert (F : first_generation (c_fitness c) gd0 (set_source t6 e6 s6) = Ok gd1 s8) by (unfold first_generation, bind; destruct u7; change (c_fitness c) with (fst fc); cbn [c_fitness] in E7; rewrite E7; exact E8).
        destruct (launched_going fuel cf g ck mk (set_source t' e' s) c gd0 (set_source t6 e6 s6) g' m L I1 I2 I3 I4 I5 I6 I7 I8 I9) as (Eg0 & Em0 & Go).
        destruct (Go 0%nat c gd1 s8) as (G & _ & Eg & _); [exists gd1, s8; split; [exact F|apply steps_0]|].
        destruct (launched_first _ _ _ _ _ _ _ _ L) as (_ & _ & St & En & Ec & Eng & Ees & Et & Er & El). pose proof G as (_ & Si & Gs & _).
        destruct (first_ok (fun _ => True) _ _ _ _ _ Qorder Gs (proj1 Si) (started_init _ _ St) F) as (cs & l0 & bst & md & wr & Fi & _).
        destruct (fi_params _ _ _ _ _ _ _ _ _ _ Fi) as (P1 & P2 & P3). destruct (fi_members _ _ _ _ _ _ _ _ _ _ Fi) as [_ Pm]. pose proof (fi_pop _ _ _ _ _ _ _ _ _ _ Fi) as Ep.
        rewrite P1, Eng. eapply am_weaken; [apply (loop_spent (apart t n k) fuel eta He (waits_apart (fun _ => True) Qorder fuel t n k ltac:(lia)) _ c gd1 s8 G H8)| |].
        + split; [apply (Permutation_NoDup (Permutation_sym Pm)), (in_nodup _ _ (started_init _ _ St))|]. split; [exact Et|]. split; [destruct NT as [N|N]; auto|].
          split; [rewrite Ep; exact En|]. rewrite P3, Ec. reflexivity.
        + intros o _. apply Qle_refl.
        + unfold patience. fold t n k eta. replace (Z.of_nat (Z.to_nat (cf_num_generations cf - 1))) with (Z.max 0 (cf_num_generations cf - 1)) by lia. apply Qle_refl.
      - intros [c' gd'] s7 A7. cbn [snd]. apply spent_fuelless; [| | |apply Qle_refl].
        + apply tr_bind; [|intros; apply tr_ret]. destruct (cf_is_print cf); [|apply tr_ret]. unfold print_best_solution. destruct (best_solution gd') as [|i0 k0|l0 [k0|]]; try apply tr_raise; try apply tr_ret.
          apply tr_miter. intros a. destruct (phenotype a); [apply tr_ret|apply tr_raise].
        + apply fl_bind; [|intros; apply fl_ret]. destruct (cf_is_print cf); [|apply fl_ret]. unfold print_best_solution. destruct (best_solution gd') as [|i0 k0|l0 [k0|]]; try apply fl_raise; try apply fl_ret.
          apply fl_miter. intros a. destruct (phenotype a); [apply fl_ret|apply fl_raise].
        + eapply arises_seedless; [|exact H6|exact A7]. unfold run_loop. apply tr_bind; [apply tr_fitness_execute|]. intros. apply tr_bind; [apply tr_update|]. intros. apply tr_ga_loop. }
    eapply am_weaken; [exact B| |apply Qle_refl]. intros o Ho. destruct o as [x s'|x|]; cbn [unfinished spent indicator]; try apply Qle_refl.
    exfalso. destruct (Ho (tape s) (ent s)) as (t1 & e1 & E). exact (Safe _ _ E).
  Qed.
End Ends.

Lemma patience_vanishes : forall cf eps, valid_shape cf -> (0 < eps)%Q -> exists enough, forall fuel, (enough <= fuel)%nat -> (patience cf fuel < eps)%Q.
Proof.
  intros cf eps V He. set (N := Z.max 1 (cf_num_generations cf)).
  set (cf1 := mkCfg N (cf_num_individ cf) (cf_objective cf) (cf_obj_value cf) (cf_input_data cf) (cf_penalty cf) (cf_conditions cf) (cf_children_percent cf) (cf_early_stop cf)
    (cf_input_population cf) (cf_tournament_size cf) (cf_mutation_lvl cf) (cf_transfer cf) (cf_is_print cf)).
  destruct (waiting_vanishes cf1 eps) as (f0 & Hf); auto; [unfold cf1, N; cbn; lia|]. exists f0. intros fuel L. specialize (Hf fuel L).
  unfold waiting, cf1, N in Hf. cbn in Hf. unfold patience. replace (Z.max 0 (cf_num_generations cf - 1)) with (Z.max 1 (cf_num_generations cf) - 1) by lia. exact Hf.
Qed.
Lemma combinatory_order : forall cf a b k, valid_shape cf -> 3 <= k <= b - a + 1 -> level_named (cf_mutation_lvl cf) \/ level_number (cf_mutation_lvl cf) ->
  Forall (arrangement a b k) (cf_input_population cf) -> task cf (arrangement a b k) ->
  exists x, in_order cf (GenOrd a b k) Order (new_combi Movement) (GenOrd a b k) (MutCombi Movement x).
Proof.
  intros cf a b k V Hk Hl Hin Sc.
  assert (M : exists x, new_combi Movement (cf_mutation_lvl cf) = inr (MutCombi Movement x)).
  { unfold new_combi. destruct (cf_mutation_lvl cf) as [st|x|]; destruct Hl as [Hl|Hl]; try contradiction.
    - destruct Hl as [-> |[-> | ->]]; cbn; eauto.
    - unfold out_of_01. cbn in Hl. destruct (_ || _) eqn:E; [|eauto]. exfalso. apply orb_true_iff in E. cbn in E. rewrite !Qltb_iff in E.
      unfold inject_Z in E. change (@num Qops) with Q in *. destruct E; lra. }
  destruct M as (x & Em). exists x. split; [exact V|]. split; [|split; [|split; [exact Em|split; [|split; [|split; [|split]]]]]].
  - reflexivity.
  - eapply Forall_impl; [|exact Hin]. intros y Hy. exists y. split; auto.
  - constructor.
  - exact I.
  - intros y (zs & -> & Lz & _). rewrite map_length. cbn [min_len mut_pre combi_min]. split; [lia|]. split; [rewrite map_length; lia|].
    apply Forall_forall. intros z Hz. apply in_map_iff in Hz. destruct Hz as (w & <- & _). exact I.
  - intros; exact I.
  - eapply evaluates_weaker; [|exact (task_evaluates _ _ V Sc)]. intros genes (geno & D & Sp). cbn in Sp. rewrite Sp. exact D.
Qed.

(** *** The theorems: whatever the objective, the early_stop and the number of generations *)
Theorem C83_binary : forall fuel cf gray gens s, valid_shape cf -> Forall legal gens -> two_bits gens ->
  level_named (cf_mutation_lvl cf) \/ level_number (cf_mutation_lvl cf) ->
  Forall (fun x => exists xs, vector x xs /\ Forall2 in_bounds gens xs) (cf_input_population cf) ->
  task cf (in_box gens) -> no_twins cf -> rnd_seed s = None ->
  exists p, probability (binary_ga fuel cf gray (gens : list bgene)) s unfinished p /\ (p <= patience cf fuel)%Q.
Proof.
  intros fuel cf gray gens s V Lg H2 Hl Hin Sc NT Hs. destruct (C05_decode_in_bounds gray gens Lg) as (bp' & ns & Gp' & En & Fn & _ & _).
  pose proof (two_sum gens ns Lg H2 Fn) as Two.
  assert (Ul : exists level, update_level (cf_mutation_lvl cf) (zsum ns) = inr level).
  { assert (Nz : @neqb Qops (nofZ (zsum ns)) nzero = false). { apply not_true_is_false. intros C. apply Qeq_bool_eq in C. unfold Qeq in C. cbn in C. lia. }
    unfold update_level, py_div. destruct (cf_mutation_lvl cf) as [st|x|]; [|eauto|destruct Hl as [[]|[]]].
    repeat match goal with |- context [String.eqb ?a ?b] => destruct (String.eqb a b) end; rewrite Nz; eauto. }
  destruct Ul as (level & Ul). destruct (binary_order cf gray gens ns level V Lg H2 Fn Hl Ul Hin Sc) as (bp & IO & _).
  eapply run_ends_soon; eauto. intros s' e. apply (binary_safe fuel cf gray gens s' V Lg H2 Hl Hin (task_evaluates _ _ V Sc)).
Qed.
Theorem C83_categorical : forall fuel cf gens s, valid_shape cf -> Forall good_pool gens -> level_number (cf_mutation_lvl cf) ->
  Forall (from_pools gens) (cf_input_population cf) -> task cf (from_pools gens) -> no_twins cf -> rnd_seed s = None ->
  exists p, probability (categorical_ga fuel cf gens) s unfinished p /\ (p <= patience cf fuel)%Q.
Proof.
  intros fuel cf gens s V Hg Hl Hin Sc NT Hs. assert (El : exists level, cf_mutation_lvl cf = LFloat level /\ (0 <= level <= 1)%Q).
  { destruct (cf_mutation_lvl cf) as [st|x|]; [destruct Hl|exists x; split; [reflexivity|exact Hl]|destruct Hl]. }
  destruct El as (level & El & Hb). destruct (categorical_order cf gens level V Hg El Hb Hin Sc) as [IO _].
  eapply run_ends_soon; eauto. intros s' e. apply (categorical_safe fuel cf gens s' V Hg Hl Hin (task_evaluates _ _ V Sc)).
Qed.
Theorem C83_combinatory : forall fuel cf a b k s, valid_shape cf -> 3 <= k <= b - a + 1 ->
  level_named (cf_mutation_lvl cf) \/ level_number (cf_mutation_lvl cf) ->
  Forall (arrangement a b k) (cf_input_population cf) -> task cf (arrangement a b k) -> no_twins cf -> rnd_seed s = None ->
  exists p, probability (combinatory_ga fuel cf a b k) s unfinished p /\ (p <= patience cf fuel)%Q.
Proof.
  intros fuel cf a b k s V Hk Hl Hin Sc NT Hs. destruct (combinatory_order cf a b k V Hk Hl Hin Sc) as (x & IO).
  eapply run_ends_soon; eauto. intros s' e. apply (combinatory_safe fuel cf a b k s' V Hk Hl Hin (task_evaluates _ _ V Sc)).
Qed.
(** With probability 1: the probability of a run longer than [fuel] tends to 0. *)
Theorem C83_binary_almost_surely : forall cf gray gens s, valid_shape cf -> Forall legal gens -> two_bits gens ->
  level_named (cf_mutation_lvl cf) \/ level_number (cf_mutation_lvl cf) ->
  Forall (fun x => exists xs, vector x xs /\ Forall2 in_bounds gens xs) (cf_input_population cf) ->
  task cf (in_box gens) -> no_twins cf -> rnd_seed s = None ->
  forall eps, (0 < eps)%Q -> exists enough, forall fuel, (enough <= fuel)%nat ->
  exists p, probability (binary_ga fuel cf gray (gens : list bgene)) s unfinished p /\ (p < eps)%Q.
Proof.
  intros cf gray gens s V Lg H2 Hl Hin Sc NT Hs eps He. destruct (patience_vanishes cf eps V He) as (f0 & Hf). exists f0. intros fuel L.
  destruct (C83_binary fuel cf gray gens s V Lg H2 Hl Hin Sc NT Hs) as (p & P & Lp). exists p. split; auto. specialize (Hf fuel L). lra.
Qed.
Theorem C83_categorical_almost_surely : forall cf gens s, valid_shape cf -> Forall good_pool gens -> level_number (cf_mutation_lvl cf) ->
  Forall (from_pools gens) (cf_input_population cf) -> task cf (from_pools gens) -> no_twins cf -> rnd_seed s = None ->
  forall eps, (0 < eps)%Q -> exists enough, forall fuel, (enough <= fuel)%nat ->
  exists p, probability (categorical_ga fuel cf gens) s unfinished p /\ (p < eps)%Q.
Proof.
  intros cf gens s V Hg Hl Hin Sc NT Hs eps He. destruct (patience_vanishes cf eps V He) as (f0 & Hf). exists f0. intros fuel L.
  destruct (C83_categorical fuel cf gens s V Hg Hl Hin Sc NT Hs) as (p & P & Lp). exists p. split; auto. specialize (Hf fuel L). lra.
Qed.
Theorem C83_combinatory_almost_surely : forall cf a b k s, valid_shape cf -> 3 <= k <= b - a + 1 ->
  level_named (cf_mutation_lvl cf) \/ level_number (cf_mutation_lvl cf) ->
  Forall (arrangement a b k) (cf_input_population cf) -> task cf (arrangement a b k) -> no_twins cf -> rnd_seed s = None ->
  forall eps, (0 < eps)%Q -> exists enough, forall fuel, (enough <= fuel)%nat ->
  exists p, probability (combinatory_ga fuel cf a b k) s unfinished p /\ (p < eps)%Q.
Proof.
  intros cf a b k s V Hk Hl Hin Sc NT Hs eps He. destruct (patience_vanishes cf eps V He) as (f0 & Hf). exists f0. intros fuel L.
  destruct (C83_combinatory fuel cf a b k s V Hk Hl Hin Sc NT Hs) as (p & P & Lp). exists p. split; auto. specialize (Hf fuel L). lra.
Qed.

(** *** Without the condition on twins *)
(** The part of a run before the loop; [K] is the rest. *)
Definition begin {A} (cf : config) (g : gspec) (sel : selection) (ck : crossover_kind) (mk : lvl -> exn + mutation) (K : comps -> gadata -> option (list string) -> M A) : M A :=
  do_seed ;;;
  p <- lift (set_params (cf_num_individ cf) g (cf_input_population cf)) ;;
  fc <- lift (new_fitness Hyperbola (cf_objective cf) (cf_obj_value cf) (cf_input_data cf) (cf_penalty cf) (cf_conditions cf)) ;;
  m <- lift (mk (cf_mutation_lvl cf)) ;;
  ng <- lift (new_newgen false (cf_transfer cf)) ;;
  p' <- fill p ;;
  K (mkComps (fst fc) sel ck m ng) (new_gadata false (cf_num_generations cf) (cf_children_percent cf) (resolved_stop cf) p') (snd fc).
Definition some_generations (fuel k : nat) (c : comps) (gd : gadata) : M (comps * gadata) :=
  fitness_execute (c_fitness c) gd ;;; gd1 <- update gd ;; if num_generations gd1 - 1 =? Z.of_nat (S k) then ga_loop fuel k c gd1 else raise TypeError.
(** The condition of C26_hangs: [b] is strictly better than all others and fills all but
    fewer than [t] of the positions. *)
Definition hogs (s : st) (l : list nat) (t : Z) (b : nat) : bool :=
  match score (heap s b) with
  | SV1 x => forallb (fun r => (r =? b)%nat || match score (heap s r) with SV1 y => nltb y x | _ => false end) l
             && (Z.of_nat (length (filter (fun r => negb (Nat.eqb r b)) l)) <? t)
  | _ => false
  end.
Definition doomed (o : outcome (comps * gadata)) : bool :=
  match o with
  | Ok (c, gd) s =>
      let l := members (population gd) in
      match c_selection c, early_stop gd, ntrunc (nmul (children_percent gd) (nofZ (num_individ (population gd)))) with
      | SelTournament t, Some e, Some n =>
          negb (e <? no_improve gd) && (2 <=? t) && (t <? num_individ (population gd)) && (t <=? Z.of_nat (length l)) && (1 <=? n) && existsb (hogs s l t) l
      | _, _, _ => false
      end
  | _ => false
  end.
Lemma doomed_hangs : forall fuel c gd s, doomed (Ok (c, gd) s) = true -> ga_step fuel c gd s = NoFuel /\ exists e, early_stop gd = Some e /\ (e <? no_improve gd) = false.
Proof.
  intros fuel c gd s D. cbn [doomed] in D. destruct (c_selection c) as [t| | | | |] eqn:Es; try discriminate D.
  destruct (early_stop gd) as [e|]; [|discriminate D]. destruct (ntrunc _) as [n|] eqn:En; [|discriminate D].
  repeat (apply andb_true_iff in D; let H := fresh "D" in destruct D as [D H]). apply negb_true_iff in D. apply Z.leb_le in D4, D2, D1. apply Z.ltb_lt in D3.
  apply existsb_exists in D0. destruct D0 as (b & Ib & Hb). unfold hogs in Hb. destruct (score (heap s b)) as [|x|] eqn:Sb; try discriminate Hb.
  apply andb_true_iff in Hb. destruct Hb as [Fa Lt]. apply Z.ltb_lt in Lt. rewrite forallb_forall in Fa. split; [|eauto].
  unfold ga_step, bind. rewrite Es. rewrite (C26_hangs _ Qorder fuel t gd s b x n); auto.
  - intros r Hr. unfold key_at. specialize (Fa r Hr). destruct (r =? b)%nat eqn:Eb; [apply Nat.eqb_eq in Eb; subst r; rewrite Sb; eauto|]. cbn [orb] in Fa.
    destruct (score (heap s r)); try discriminate Fa. eauto.
  - unfold key_at. rewrite Sb. reflexivity.
  - intros r y Hr Ne Ky. specialize (Fa r Hr). apply Nat.eqb_neq in Ne. rewrite Ne in Fa. cbn [orb] in Fa. unfold key_at in Ky. destruct (score (heap s r)); try discriminate Fa. inversion Ky; subst. exact Fa.
Qed.
Lemma loop_doomed : forall fuel k c gd s c' gd' s', ga_loop fuel k c gd s = Ok (c', gd') s' -> doomed (Ok (c', gd') s') = true -> ga_loop fuel (S k) c gd s = NoFuel.
Proof.
  intros fuel k. induction k as [|k IH]; intros c gd s c' gd' s' H D.
  - cbn [ga_loop] in *. apply ret_ok in H. destruct H as [E ->]. inversion E; subst. unfold bind. rewrite (proj1 (doomed_hangs _ _ _ _ D)). reflexivity.
  - cbn [ga_loop] in H. bd H r s1 R. bd H b s2 Rb. change (ga_loop fuel (S (S k)) c gd s) with
      (bind (ga_step fuel c gd) (fun r => bind (should_stop (snd r)) (fun stop : bool => if stop then ret r else ga_loop fuel (S k) (fst r) (snd r))) s).
    unfold bind. rewrite R, Rb. destruct b; [|eapply IH; eauto]. exfalso. apply ret_ok in H. destruct H as [<- <-]. cbn [snd] in Rb.
    destruct (doomed_hangs 0 _ _ _ D) as (_ & e & Ee & El). unfold should_stop in Rb. rewrite Ee, El in Rb. apply ret_ok in Rb. destruct Rb as [Rb _]. discriminate Rb.
Qed.
Lemma begin_doomed : forall cf g sel ck mk fuel k s, doomed (begin cf g sel ck mk (fun c gd _ => some_generations 1 k c gd) s) = true ->
  ga_optimize fuel cf false g Hyperbola sel ck mk false s = NoFuel.
Proof.
  intros cf g sel ck mk fuel k s D.
  assert (G : forall f, (1 <= f)%nat -> ga_optimize f cf false g Hyperbola sel ck mk false s = NoFuel).
  { intros f Lf. unfold begin in D. unfold ga_optimize. unfold bind at 1. unfold bind at 1 in D. destruct (do_seed s) as [u s1|x|]; try discriminate D.
    do 5 (unfold bind at 1; unfold bind at 1 in D; match type of D with doomed match ?m with _ => _ end = true => destruct m as [? ?|?|]; try discriminate D end).
    cbv zeta. unfold some_generations in D. unfold run_loop. unfold bind at 1 2. unfold bind at 1 in D.
    match type of D with doomed match ?m with _ => _ end = true => destruct m as [? s6|?|]; try discriminate D end.
    unfold bind at 1. unfold bind at 1 in D. match type of D with doomed match ?m with _ => _ end = true => destruct m as [gd1 s7|?|]; try discriminate D end.
    destruct (num_generations gd1 - 1 =? Z.of_nat (S k)) eqn:En; [|discriminate D]. apply Z.eqb_eq in En. rewrite En, Nat2Z.id.
    match type of D with doomed (ga_loop 1 k ?cc gd1 s7) = true => set (c := cc) in *; pose proof (mono_loop 1 f k c gd1 Lf s7) as Mo end. unfold settled_at in Mo.
    destruct (ga_loop 1 k c gd1 s7) as [[c' gd'] s8|x|]; try discriminate D. specialize (Mo ltac:(discriminate)).
    pose proof (loop_doomed f k c gd1 s7 c' gd' s8 Mo D) as E. rewrite E. reflexivity. }
  destruct fuel as [|f]; [|apply G; lia]. pose proof (mono_optimize 0 1 cf false g Hyperbola sel ck mk false ltac:(lia) s) as Mo. unfold settled_at in Mo.
  rewrite (G 1%nat ltac:(lia)) in Mo. destruct (ga_optimize 0 cf false g Hyperbola sel ck mk false s) as [? ?|?|]; [| |reflexivity]; specialize (Mo ltac:(discriminate)); discriminate Mo.
Qed.
Lemma unfinished_unseeing : forall {A}, unseeing (fun o : outcome A => indicator (unfinished o)).
Proof. intros A. apply unseeing_indicator. intros t e o. destruct o; reflexivity. Qed.
Lemma doomed_unseeing : unseeing (fun o => indicator (doomed o)).
Proof. apply unseeing_indicator. intros t e o. destruct o as [[c gd] s| |]; reflexivity. Qed.
Lemma tr_begin : forall fuel k cf g sel ck mk, treelike (begin cf g sel ck mk (fun c gd _ => some_generations fuel k c gd)).
Proof.
  intros. unfold begin, some_generations. apply tr_bind; [apply tr_do_seed|intros ?]. do 4 (apply tr_bind; [apply tr_lift|intros ?]). apply tr_bind; [apply tr_fill|intros ?].
  apply tr_bind; [apply tr_fitness_execute|intros ?]. apply tr_bind; [apply tr_update|intros ?]. destruct (_ =? _); [apply tr_ga_loop|apply tr_raise].
Qed.
(** From a seed-free state any run in which such a population is reached before the last
    generation has a bound above 0 on the probability of never ending, whatever [fuel]. *)
Lemma doomed_bound : forall cf g ck mk k s t e, rnd_seed s = None ->
  doomed (begin cf g (SelTournament (cf_tournament_size cf)) ck mk (fun c gd _ => some_generations 1 k c gd) (set_source t e s)) = true ->
  exists p0, (0 < p0)%Q /\ forall fuel p, probability (ga_optimize fuel cf false g Hyperbola (SelTournament (cf_tournament_size cf)) ck mk false) s unfinished p -> (p0 <= p)%Q.
Proof.
  intros cf g ck mk k s t e Hs D.
  destruct (tree_bound s (fun o => indicator (doomed o)) _ 1%Q (tr_begin 1 k cf g (SelTournament (cf_tournament_size cf)) ck mk) Hs) as (p0 & E & _); [intros; apply indicator_bounds|].
  exists p0. split.
  - eapply (expects_positive s _ _ p0 doomed_unseeing); [intros o; apply indicator_bounds|exact E|]. rewrite D. reflexivity.
  - intros fuel p P. eapply (expects_compare s _ _ _ _ doomed_unseeing unfinished_unseeing E _ _ P). intros t' e'.
    destruct (doomed (begin _ _ _ _ _ _ (set_source t' e' s))) eqn:D'; [|apply indicator_bounds]. rewrite (begin_doomed _ _ _ _ _ fuel _ _ D'). apply Qle_refl.
Qed.
(** Three equal individuals supplied by the user, transfer "best" and one child per
    generation; all other conditions of C83_categorical hold. *)
Definition twin_cfg : config := mkCfg 4 3 sum_objective TNone None PNone None (1#2 : @num Qops)%Q None
  [[GInt 0]; [GInt 0]; [GInt 0]] 2 (LFloat (1%Q : @num Qops)) "best" false.
Definition twin_gens : list cgen := [CList [GInt 0; GInt 5]].
Lemma twin_doomed : doomed (begin twin_cfg (GenCat twin_gens) (SelTournament 2) Uniform new_cat (fun c gd _ => some_generations 1 2 c gd) hang_start) = true.
Proof. run. Qed.
Theorem C83_twins_refuted : exists cf gens s, valid_shape cf /\ Forall good_pool gens /\ level_number (cf_mutation_lvl cf) /\
  Forall (from_pools gens) (cf_input_population cf) /\ task cf (from_pools gens) /\ rnd_seed s = None /\
  exists p0, (0 < p0)%Q /\ forall fuel p, probability (categorical_ga fuel cf gens) s unfinished p -> (p0 <= p)%Q.
Proof.
  exists twin_cfg, twin_gens, hang_start. split; [|split; [|split; [|split; [|split; [|split]]]]].
  - split; [cbn; lia|]; split; [vm_compute; discriminate|]; split; [left; reflexivity|]; vm_compute; discriminate.
  - constructor; [|constructor]. right. exists (GInt 0), (GInt 5). split; [left; reflexivity|]. split; [right; left; reflexivity|reflexivity].
  - split; vm_compute; discriminate.
  - repeat constructor.
  - left. split; [reflexivity|]. split; [exact I|]. intros k genes _. eexists. cbn [cf_objective cf_input_data twin_cfg given]. unfold sum_objective. exact (answer_1 _ k genes).
  - reflexivity.
  - apply (doomed_bound twin_cfg (GenCat twin_gens) Uniform new_cat 2 hang_start (tape hang_start) (ent hang_start) eq_refl). rewrite source_same. exact twin_doomed.
Qed.
(** A larger bound on the searches never makes an unfinished run more likely. *)
Theorem C83_larger_bound : forall f f' cf g sel ck mk s p p', (f <= f')%nat ->
  probability (ga_optimize f cf false g Hyperbola sel ck mk false) s unfinished p ->
  probability (ga_optimize f' cf false g Hyperbola sel ck mk false) s unfinished p' -> (p' <= p)%Q.
Proof.
  intros f f' cf g sel ck mk s p p' L P P'. eapply (expects_compare s _ _ _ _ unfinished_unseeing unfinished_unseeing P' _ _ P). intros t e.
  pose proof (mono_optimize f f' cf false g Hyperbola sel ck mk false L (set_source t e s)) as Mo. unfold settled_at in Mo.
  destruct (ga_optimize f cf false g Hyperbola sel ck mk false (set_source t e s)) as [x s1|x|]; [rewrite Mo by discriminate; apply Qle_refl|rewrite Mo by discriminate; apply Qle_refl|apply indicator_bounds].
Qed.

(** *** Examples *)
(** A run of up to N generations of 5 individuals and 3 children: with 20 draws allowed
    for each second parent it fails to end in fewer than 1 of 10^7 generations. *)
Example C83_binary_case : forall N s, 0 <= N -> rnd_seed s = None ->
  exists p, probability (binary_ga 20 (long_cf N (LStr "normal") [[GInt 1; @GNum Qops (1#2)]]) true (box : list bgene)) s unfinished p /\ (p <= inject_Z (Z.max 0 (N - 1)) * (1 # 10000000))%Q.
Proof.
  intros N s HN Hs. destruct (C83_binary 20 (long_cf N (LStr "normal") [[GInt 1; @GNum Qops (1#2)]]) true box s) as (p & P & L); auto.
  - apply long_shape; [lia|cbn; lia].
  - exact box_legal.
  - left. cbn. lia.
  - left. right. left. reflexivity.
  - exact box_input.
  - left. split; [reflexivity|]. split; [exact I|]. intros k genes _. eexists. cbn [cf_objective cf_input_data long_cf given]. unfold sq_obj. exact (answer_1 _ k genes).
  - left. reflexivity.
  - exists p. split; auto. eapply Qle_trans; [exact L|]. unfold patience. cbn [long_cf cf_num_generations cf_children_percent cf_num_individ cf_tournament_size].
    rewrite (Qmult_comm (inject_Z _)), (Qmult_comm (inject_Z (Z.max 0 (N - 1)))). apply Qmult_le_compat_r; [|unfold Qle; cbn; lia]. vm_compute. discriminate.
Qed.
Example C83_categorical_case : forall N s, 0 <= N -> rnd_seed s = None -> forall eps, (0 < eps)%Q -> exists enough, forall fuel, (enough <= fuel)%nat ->
  exists p, probability (categorical_ga fuel (long_cf N (@LFloat Qops (1#2)) []) mixed_pools) s unfinished p /\ (p < eps)%Q.
Proof.
  intros N s HN Hs. apply C83_categorical_almost_surely; auto.
  - apply long_shape; [lia|cbn; lia].
  - exact mixed_good.
  - split; vm_compute; discriminate.
  - constructor.
  - left. split; [reflexivity|]. split; [exact I|]. intros k genes _. eexists. cbn [cf_objective cf_input_data long_cf given]. unfold sq_obj. exact (answer_1 _ k genes).
  - left. reflexivity.
Qed.
Example C83_combinatory_case : forall N s, 0 <= N -> rnd_seed s = None -> forall eps, (0 < eps)%Q -> exists enough, forall fuel, (enough <= fuel)%nat ->
  exists p, probability (combinatory_ga fuel (long_cf N (LStr "strong") [ints [2; 0; 5; 6]]) 0 6 4) s unfinished p /\ (p < eps)%Q.
Proof.
  intros N s HN Hs. apply C83_combinatory_almost_surely; auto.
  - apply long_shape; [lia|cbn; lia].
  - lia.
  - left. right. right. reflexivity.
  - constructor; [|constructor]. exists [2; 0; 5; 6]. split; [reflexivity|]. split; [reflexivity|]. split; [repeat constructor; cbn; intuition lia|repeat constructor; lia].
  - left. split; [reflexivity|]. split; [exact I|]. intros k genes _. eexists. cbn [cf_objective cf_input_data long_cf given]. unfold sq_obj. exact (answer_1 _ k genes).
  - left. reflexivity.
Qed.
(** The bound matters: with no draw allowed the run below does not end, with 20 it does. *)
Example C83_run : (unfinished (categorical_ga 0 (long_cf 4 (@LFloat Qops (1#2)) []) mixed_pools fresh_world),
  unfinished (categorical_ga 20 (long_cf 4 (@LFloat Qops (1#2)) []) mixed_pools fresh_world)) = (true, false).
Proof. run. Qed.

Print Assumptions C83_binary.
Print Assumptions C83_categorical.
Print Assumptions C83_combinatory.
Print Assumptions C83_binary_almost_surely.
Print Assumptions C83_categorical_almost_surely.
Print Assumptions C83_combinatory_almost_surely.
Print Assumptions C83_twins_refuted.
Print Assumptions C83_larger_bound.
