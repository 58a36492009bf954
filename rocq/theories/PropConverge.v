(** Property C82: the probability that a run misses a given point of the search space. *)
From Coq Require Import String.
From Coq Require Import ZArith QArith Qround Qabs Qminmax List Bool Lia Lqa Permutation.
From Verif Require Import AssessProofs Spec Num State Binary Population GaData Crossover Mutation Selection Penalty Fitness NewGeneration Driver
  ListLemmas Rnd Exec Laws CodingProofs PropCoding PopulationProofs CrossoverProofs MutationProofs SelectionProofs VegaProofs
  NewGenProofs UpdateProofs FitnessProofs StepProofs RunProofs Runs PropCrossover PropRun PropBest PropFitness DomainProofs SafetyProofs
  PropSelection OptimizeProofs PropDomain PropConditional PropResume ReachProofs PropReach Fuelless Chance ChanceProofs SelChanceProofs PropSelChance PropMutChance
  ChanceRun ChanceRunProofs ConvergeProofs Demo.
Import ListNotations.
Open Scope string_scope.
Open Scope list_scope.
Open Scope Z_scope.

(** *** The events *)
(** A run from [s] that returns, but has not called the objective on a point with
    property [Y]; and a run that has not both returned and made such a call. *)
Definition new_calls {NO : NumOps} (s s' : st) : list (list gv * oval) := firstn (length (log s') - length (log s)) (log s').
Definition returns_without {NO : NumOps} {A} (s : st) (Y : list gv -> bool) (o : outcome A) : bool :=
  match o with Ok _ s' => negb (existsb (fun call => Y (fst call)) (new_calls s s')) | _ => false end.
Definition fails {NO : NumOps} {A} (s : st) (Y : list gv -> bool) (o : outcome A) : bool :=
  match o with Ok _ s' => negb (existsb (fun call => Y (fst call)) (new_calls s s')) | _ => true end.

Local Existing Instance Qops.

(** *** The run *)
Lemma launched_first : forall cf g ck mk s c gd0 s0, launched cf g ck mk s c gd0 s0 ->
  exists n, population gd0 = n /\ started gd0 s0 /\ num_individ (population gd0) = cf_num_individ cf /\ children_percent gd0 = cf_children_percent cf /\
   num_generations gd0 = cf_num_generations cf /\ early_stop gd0 = resolved_stop cf /\ c_selection c = SelTournament (cf_tournament_size cf) /\
   (cf_transfer cf = "random" -> ng_transfer (c_newgen c) = TRandom) /\ log s0 = log s.
Proof.
  intros cf g ck mk s c gd0 s0 (p & s1 & p' & f & cl & m & ng & Sp & Ds & Fi & Nf & Nm & Nn & -> & ->).
  exists p'. split; auto. split; [exists (cf_num_individ cf), g, (cf_input_population cf), p, s1, p', (cf_num_generations cf), (cf_children_percent cf), (resolved_stop cf); auto|].
  destruct (set_params_ok _ _ _ _ _ _ _ Sp Fi) as (Pg' & Np & _ & Lm). split; auto. split; auto. split; auto. split; auto. split; auto. split.
  - intros Et. unfold new_newgen in Nn. rewrite Et in Nn. cbn in Nn. inversion Nn. reflexivity.
  - apply extends_do_seed in Ds. destruct Ds as ((_ & L1 & _) & _). apply fill_ok in Fi. destruct Fi as (g'' & _ & K). cbv zeta in K. destruct K as (_ & _ & (_ & L2 & _) & _). congruence.
Qed.

Lemma print_ok : forall gd s u s', print_best_solution gd s = Ok u s' -> s' = s.
Proof.
  intros gd s u s' H. unfold print_best_solution in H. destruct (best_solution gd) as [|i k|l [k|]]; try discriminate; [apply ret_ok in H; destruct H; auto|].
  induction l as [|x l IH]; cbn [miter] in H; [apply ret_ok in H; destruct H; auto|]. destruct (phenotype x); [|discriminate].
  bd H v s1 R. apply ret_ok in R. destruct R as [_ ->]. auto.
Qed.
Lemma optimize_worth : forall fuel cf g ck mk s g' m T Y q w eta Inv,
  valid_shape cf -> prepare g = inr g' ->
  Forall (fun x => exists geno, input_genotype g' x = inr geno /\ in_domain g' geno) (cf_input_population cf) ->
  mk (cf_mutation_lvl cf) = inr m -> belongs ck m g' -> mut_spec_ok m g' ->
  (forall x, in_domain g' x -> (min_len ck <= length x)%nat /\ mut_pre m g' x /\ Forall (gene_ok (ok := fun _ => True)) x) ->
  (forall x, in_domain g' x -> match g' with GenBinary gray gens bp => exists ph, decode_genotype gray gens bp x = inr ph | _ => True end) ->
  evaluates cf (domain_point g') -> rnd_seed s = None ->
  1 <= cf_num_generations cf -> (forall e, cf_early_stop cf = Some e -> cf_num_generations cf - 1 <= e) ->
  may_hit T Y m g' q -> (0 <= q)%Q -> (0 <= w)%Q -> (0 <= eta)%Q -> bounded_wait Inv (fun _ => True) fuel w eta ->
  (forall t e c gd0 s0 gd1 s1, launched cf g ck mk (set_source t e s) c gd0 s0 -> first_generation (c_fitness c) gd0 s0 = Ok gd1 s1 -> Inv c gd1 s1) ->
  at_most s (worth Y (length (log s)) 1 0 w) (ga_optimize fuel cf false g Hyperbola (SelTournament (cf_tournament_size cf)) ck mk false)
    (qpow q (Z.to_nat (cf_num_generations cf - 1)) + inject_Z (Z.of_nat (Z.to_nat (cf_num_generations cf - 1))) * eta).
Proof.
  intros fuel cf g ck mk s g' m T Y q w eta Inv V Pg Hin Hm Bel Ms Hx Hd Ev Hs Hng Hes MH Hq Hw He BW HI.
  set (k := Z.to_nat (cf_num_generations cf - 1)). set (K := (qpow q k + inject_Z (Z.of_nat k) * eta)%Q).
  assert (Kp : (0 <= K)%Q).
  { unfold K. assert (0 <= qpow q k)%Q by (apply qpow_nonneg; auto). assert (0 <= inject_Z (Z.of_nat k) * eta)%Q by (apply Qmult_le_0_compat; auto; unfold Qle; cbn; lia). lra. }
  assert (Pre : forall {A B} (x : M A) (h : A -> M B) s1, treelike x -> fuelless x -> rnd_seed s1 = None ->
    (forall a s2, arises x s1 (Ok a s2) -> rnd_seed s2 = None -> at_most s2 (worth Y (length (log s)) 1 0 w) (h a) K) -> at_most s1 (worth Y (length (log s)) 1 0 w) (bind x h) K).
  { intros A B x h s1 Tx Fx Hs1 Hh. apply (am_bind s1 _ _ _ (fun _ _ => K)).
    - apply tree_bound; auto. intros o Ho. destruct o; cbn [worth]; [apply Qle_refl|exact Kp|exfalso; exact (arises_fuel _ _ Fx Ho)].
    - intros a s2 Ho. apply Hh; auto. eapply arises_seedless; eauto. }
  unfold ga_optimize.
  apply Pre; auto; [apply tr_do_seed|apply fl_do_seed|]. intros u s1 A1 H1. destruct u.
  apply Pre; auto; [apply tr_lift|apply fl_lift|]. intros p s2 A2 H2.
  apply Pre; auto; [apply tr_lift|apply fl_lift|]. intros fc s3 A3 H3.
  apply Pre; auto; [apply tr_lift|apply fl_lift|]. intros m0 s4 A4 H4.
  apply Pre; auto; [apply tr_lift|apply fl_lift|]. intros ng s5 A5 H5.
  apply Pre; auto; [apply tr_fill|apply fl_fill|]. intros p' s6 A6 H6.
  cbv zeta. set (gd0 := new_gadata false (cf_num_generations cf) (cf_children_percent cf) (resolved_stop cf) p').
  set (c := mkComps (fst fc) (SelTournament (cf_tournament_size cf)) ck m0 ng).
  assert (La : forall t6 e6, exists t e, launched cf g ck mk (set_source t e s) c gd0 (set_source t6 e6 s6)).
  { intros t6 e6. destruct (A6 t6 e6) as (t5 & e5 & E6). destruct (A5 t5 e5) as (t4 & e4 & E5). destruct (A4 t4 e4) as (t3 & e3 & E4).
    destruct (A3 t3 e3) as (t2 & e2 & E3). destruct (A2 t2 e2) as (t1 & e1 & E2). destruct (A1 t1 e1) as (t0 & e0 & E1). cbn [with_source] in *.
    apply lift_ok in E2. destruct E2 as [Sp X2]. apply lift_ok in E3. destruct E3 as [Nf X3]. apply lift_ok in E4. destruct E4 as [Nm X4]. apply lift_ok in E5. destruct E5 as [Nn X5].
    exists t0, e0, p, (set_source t1 e1 s1), p', (fst fc), (snd fc), m0, ng. split; [exact Sp|]. split; [exact E1|].
    split; [rewrite <- E6; f_equal; congruence|]. split; [rewrite Nf; destruct fc; reflexivity|]. split; [exact Nm|]. split; [exact Nn|]. split; reflexivity. }
  apply (am_bind s6 _ _ _ (fun r s' => unseen Y (length (log s)) s')).
  - apply (am_weaken s6 (worth Y (length (log s)) 1 0 w) _ _ K); [|intros o _; destruct o; cbn [worth]; try apply Qle_refl; apply Qle_lteq; right; ring|apply Qle_refl].
    unfold run_loop.
    apply Pre; auto; [apply tr_fitness_execute|apply fl_fitness_execute|]. intros u s7 A7 H7.
    apply Pre; auto; [apply tr_update|apply fl_update|]. intros gd1 s8 A8 H8.
    destruct (A8 (tape s8) (ent s8)) as (t7 & e7 & E8). destruct (A7 t7 e7) as (t6 & e6 & E7). cbn [with_source] in E7, E8. rewrite source_same in E8.
    destruct (La t6 e6) as (t & e & L). clear La A1 A2 A3 A4 A5 A6 A7 A8.
    assert (F : first_generation (c_fitness c) gd0 (set_source t6 e6 s6) = Ok gd1 s8) by (unfold first_generation, bind; rewrite E7; exact E8).
    destruct (launched_going fuel cf g ck mk (set_source t e s) c gd0 (set_source t6 e6 s6) g' m L V Pg Hin Hm Bel Ms Hx Hd Ev) as (Eg0 & Em0 & Go).
    destruct (Go 0%nat c gd1 s8) as (G & _ & Eg & _); [exists gd1, s8; split; [exact F|apply steps_0]|].
    destruct (launched_first _ _ _ _ _ _ _ _ L) as (_ & _ & St & _ & _ & Eng & Ees & _ & _ & El).
    pose proof G as (_ & Si & Gs & _).
    destruct (first_ok (fun _ => True) _ _ _ _ _ Qorder Gs (proj1 Si) (started_init _ _ St) F) as (cs & l0 & bst & md & wr & Fi & _).
    destruct (fi_params _ _ _ _ _ _ _ _ _ _ Fi) as (P1 & P2 & P3). pose proof (fi_best _ _ _ _ _ _ _ _ _ _ Fi) as (_ & Bn).
    assert (Es : exists e, early_stop gd1 = Some e /\ Z.max 0 (no_improve gd1) + Z.of_nat k <= e).
    { rewrite P2, Ees. unfold resolved_stop, k. destruct (cf_early_stop cf) as [e1|]; [specialize (Hes e1 eq_refl)|]; eexists; (split; [reflexivity|]); rewrite Bn; lia. }
    destruct Es as (es & Es & Hn).
    rewrite P1, Eng. fold k.
    eapply am_weaken; [eapply (loop_worth T Y (length (log s)) Inv (fun _ => True) fuel w q eta Qorder Hq He BW k c gd1 s8 es G H8); eauto| |].
    + rewrite Em0, Eg. exact MH.
    + rewrite (fi_log _ _ _ _ _ _ _ _ _ _ Fi), app_length, El. cbn [log set_source set_ent set_tape]. lia.
    + intros o _. apply Qle_refl.
    + unfold K. destruct (unseen_bounds Y (length (log s)) s8) as [U0 U1]. assert (0 <= qpow q k)%Q by (apply qpow_nonneg; auto).
      assert (qpow q k * unseen Y (length (log s)) s8 <= qpow q k * 1)%Q by (rewrite !(Qmult_comm (qpow q k)); apply Qmult_le_compat_r; auto). lra.
  - intros [c' gd'] s7 A7. cbn [snd]. apply tree_bound.
    + apply tr_bind; [|intros; apply tr_ret]. destruct (cf_is_print cf); [|apply tr_ret]. unfold print_best_solution. destruct (best_solution gd') as [|i0 k0|l0 [k0|]]; try apply tr_raise; try apply tr_ret.
      apply tr_miter. intros a. destruct (phenotype a); [apply tr_ret|apply tr_raise].
    + eapply arises_seedless; [|exact H6|exact A7]. unfold run_loop. apply tr_bind; [apply tr_fitness_execute|]. intros. apply tr_bind; [apply tr_update|]. intros. apply tr_ga_loop.
    + intros o Ho. destruct o as [x s8|x|]; cbn [worth].
      * destruct (Ho (tape s8) (ent s8)) as (t7 & e7 & E7). cbn [with_source] in E7. rewrite source_same in E7. bd E7 u s9 R. apply ret_ok in E7. destruct E7 as [-> ->].
        assert (s9 = set_source t7 e7 s7) as ->. { destruct (cf_is_print cf); [eapply print_ok; eauto|]. apply ret_ok in R. destruct R; auto. }
        apply Qle_lteq. right. change (unseen Y (length (log s)) (set_source t7 e7 s7)) with (unseen Y (length (log s)) s7). ring.
      * apply unseen_bounds.
      * exfalso. refine (arises_fuel _ _ _ Ho). apply fl_bind; [|intros; apply fl_ret]. destruct (cf_is_print cf); [|apply fl_ret]. unfold print_best_solution. destruct (best_solution gd') as [|i0 k0|l0 [k0|]]; try apply fl_raise; try apply fl_ret.
        apply fl_miter. intros a. destruct (phenotype a); [apply fl_ret|apply fl_raise].
Qed.

(** The two events, for the components of a class. *)
Definition in_order (cf : config) (g : gspec) (ck : crossover_kind) (mk : lvl -> exn + mutation) (g' : gspec) (m : mutation) : Prop :=
  valid_shape cf /\ prepare g = inr g' /\
  Forall (fun x => exists geno, input_genotype g' x = inr geno /\ in_domain g' geno) (cf_input_population cf) /\
  mk (cf_mutation_lvl cf) = inr m /\ belongs ck m g' /\ mut_spec_ok m g' /\
  (forall x, in_domain g' x -> (min_len ck <= length x)%nat /\ mut_pre m g' x /\ Forall (gene_ok (ok := fun _ => True)) x) /\
  (forall x, in_domain g' x -> match g' with GenBinary gray gens bp => exists ph, decode_genotype gray gens bp x = inr ph | _ => True end) /\
  evaluates cf (domain_point g').
(** Every generation is run: there are some, and early_stop is not smaller than their number. *)
Definition full_length (cf : config) : Prop :=
  1 <= cf_num_generations cf /\ forall e, cf_early_stop cf = Some e -> cf_num_generations cf - 1 <= e.
(** No member of the population can be carried over twice: see C26. *)
Definition no_twins (cf : config) : Prop :=
  cf_transfer cf = "random" \/ cf_num_individ cf <= Qtrunc (cf_children_percent cf * inject_Z (cf_num_individ cf)).
Definition later_generations (cf : config) : nat := Z.to_nat (cf_num_generations cf - 1).
(** How much the searches for a second parent can add. *)
Definition waiting (cf : config) (fuel : nat) : Q :=
  (inject_Z (cf_num_generations cf - 1) * (inject_Z (Qtrunc (cf_children_percent cf * inject_Z (cf_num_individ cf))) *
   qpow (inject_Z (cf_tournament_size cf) / inject_Z (cf_num_individ cf)) fuel))%Q.

Section Run.
  Variables (fuel : nat) (cf : config) (g : gspec) (ck : crossover_kind) (mk : lvl -> exn + mutation) (g' : gspec) (m : mutation) (s : st).
  Variables (T Y : list gv -> bool) (q : Q).
  Hypothesis IO : in_order cf g ck mk g' m.
  Hypothesis FL : full_length cf.
  Hypothesis Hs : rnd_seed s = None.
  Hypothesis MH : may_hit T Y m g' q.
  Hypothesis Hq : (0 <= q)%Q.
  Let run := ga_optimize fuel cf false g Hyperbola (SelTournament (cf_tournament_size cf)) ck mk false.

  Lemma run_returns_without : exists p, probability run s (returns_without s Y) p /\ (p <= qpow q (later_generations cf))%Q.
  Proof.
    destruct IO as (I1 & I2 & I3 & I4 & I5 & I6 & I7 & I8 & I9). destruct FL as [F1 F2].
    eapply am_weaken; [eapply (optimize_worth fuel cf g ck mk s g' m T Y q 0 0 (fun _ _ _ => True)); eauto; [apply Qle_refl|apply Qle_refl|apply waits_any]| |].
    - intros o _. destruct o as [x s'|x|]; cbn [returns_without worth indicator]; [|apply Qle_refl|apply Qle_refl].
      unfold unseen, seen, new_calls. apply Qle_lteq. right. ring.
    - unfold later_generations. apply Qle_lteq. right. ring.
  Qed.
  Lemma run_fails : no_twins cf -> (forall s' e, run s' <> Err e) ->
    exists p, probability run s (fails s Y) p /\ (p <= qpow q (later_generations cf) + waiting cf fuel)%Q.
  Proof.
    intros NT Safe. destruct IO as (I1 & I2 & I3 & I4 & I5 & I6 & I7 & I8 & I9). destruct FL as [F1 F2]. pose proof I1 as ((Ht1 & Ht2) & Hc & Htr & Hl).
    set (t := cf_tournament_size cf) in *. set (n := cf_num_individ cf) in *. set (k := Qtrunc (cf_children_percent cf * inject_Z n)) in *.
    assert (Qp : (0 <= qpow (inject_Z t / inject_Z n) fuel)%Q).
    { apply qpow_nonneg. apply Qmult_le_0_compat; [|apply Qinv_le_0_compat]; unfold Qle; cbn; lia. }
    eapply am_weaken; [eapply (optimize_worth fuel cf g ck mk s g' m T Y q 1 (inject_Z k * qpow (inject_Z t / inject_Z n) fuel) (apart t n k)); eauto| |].
    - unfold Qle; cbn; lia.
    - apply Qmult_le_0_compat; auto. unfold Qle; cbn; lia.
    - apply waits_apart; [apply Qorder|lia].
    - intros t0 e0 c gd0 s0 gd1 s1 L F. destruct (launched_first _ _ _ _ _ _ _ _ L) as (_ & _ & St & En & Ec & _ & _ & Et & Er & _).
      destruct (launched_going fuel cf g ck mk (set_source t0 e0 s) c gd0 s0 g' m L I1 I2 I3 I4 I5 I6 I7 I8 I9) as (_ & _ & Go).
      destruct (Go 0%nat c gd1 s1) as ((_ & Si & Gs & _) & _); [exists gd1, s1; split; [exact F|apply steps_0]|].
      destruct (first_ok (fun _ => True) _ _ _ _ _ Qorder Gs (proj1 Si) (started_init _ _ St) F) as (cs & l0 & bst & md & wr & Fi & _).
      destruct (fi_params _ _ _ _ _ _ _ _ _ _ Fi) as (_ & _ & P3). destruct (fi_members _ _ _ _ _ _ _ _ _ _ Fi) as [_ Pm]. pose proof (fi_pop _ _ _ _ _ _ _ _ _ _ Fi) as Ep.
      split; [apply (Permutation_NoDup (Permutation_sym Pm)), (in_nodup _ _ (started_init _ _ St))|]. split; [exact Et|]. split; [destruct NT as [NT|NT]; auto|].
      split; [rewrite Ep; exact En|]. rewrite P3, Ec. reflexivity.
    - intros o Ho. destruct o as [x s'|x|]; cbn [fails worth indicator]; [unfold unseen, seen, new_calls; apply Qle_lteq; right; ring| |apply Qle_refl].
      exfalso. destruct (Ho (tape s) (ent s)) as (t1 & e1 & E). exact (Safe _ _ E).
    - unfold later_generations, waiting. rewrite Z2Nat.id by lia. apply Qle_refl.
  Qed.
End Run.

(** *** Bits *)
Definition flip_chance (level : Q) : Q := Qmin (@gate Qops level) (1 - @gate Qops level).
Lemma filter_le : forall {A} (f : A -> bool) l, (length (filter f l) <= length l)%nat.
Proof. intros A f l. induction l as [|a l IH]; cbn [filter length]; [auto|]. destruct (f a); cbn [length]; lia. Qed.
Lemma gate_range : forall level, (0 <= @gate Qops level <= 1)%Q.
Proof.
  intros level. unfold gate. set (l := filter _ _). assert (L : (length l <= 1000)%nat).
  { unfold l. etransitivity; [apply filter_le|]. rewrite zrange_length. apply Nat.leb_le. reflexivity. }
  split; [apply Qle_shift_div_l|apply Qle_shift_div_r]; try reflexivity.
  - rewrite Qmult_0_l. unfold Qle. cbn. lia.
  - rewrite Qmult_1_l, <- Zle_Qle. lia.
Qed.
Lemma flip_range : forall level, (0 <= flip_chance level <= 1)%Q.
Proof. intros level. unfold flip_chance. destruct (gate_range level) as [G0 G1]. apply Q.min_case; [intros x y E H; rewrite <- E; exact H| |]; lra. Qed.
Lemma flip_positive : forall level, between level -> (1 # 1000 <= flip_chance level)%Q.
Proof.
  intros level [H0 H1]. destruct (C76_level level) as (E & _ & _); [split; lra|]. unfold flip_chance. rewrite E.
  set (f := Qfloor (1000 * level)). assert (F0 : 0 <= f) by (apply (Qfloor_resp_le 0); lra). assert (F1 : f <= 998).
  { assert (f < 999); [|lia]. rewrite Zlt_Qlt. eapply Qle_lt_trans; [apply Qfloor_le|]. change (inject_Z 999) with 999%Q. lra. }
  rewrite Z.min_r by lia. assert (A : (1 <= inject_Z (f + 1) <= 999)%Q) by (split; [change 1%Q with (inject_Z 1)|change 999%Q with (inject_Z 999)]; rewrite <- Zle_Qle; lia).
  apply Q.min_case; [intros x y X H; rewrite <- X; exact H| |].
  - apply Qle_shift_div_l; [reflexivity|]. setoid_replace ((1 # 1000) * 1000)%Q with 1%Q by reflexivity. lra.
  - assert (inject_Z (f + 1) / 1000 <= 999 # 1000)%Q; [|lra]. apply Qle_shift_div_r; [reflexivity|]. setoid_replace ((999 # 1000) * 1000)%Q with 999%Q by reflexivity. lra.
Qed.
Lemma qprod_at_least : forall (mu : Q) l, (0 <= mu)%Q -> Forall (fun x => mu <= x)%Q l -> (qpow mu (length l) <= qprod l)%Q.
Proof.
  intros mu l Hm H. induction H as [|x l Hx H IH]; cbn [length qpow qprod]; [apply Qle_refl|].
  pose proof (qpow_nonneg mu (length l) Hm). apply Qle_trans with (x * qpow mu (length l))%Q; [apply Qmult_le_compat_r; auto|].
  rewrite !(Qmult_comm x). apply Qmult_le_compat_r; auto. lra.
Qed.
Lemma qpow_le_one : forall mu n, (0 <= mu)%Q -> (mu <= 1)%Q -> (qpow mu n <= 1)%Q.
Proof.
  intros mu n H0 H1. induction n as [|n IH]; cbn [qpow]; [apply Qle_refl|]. apply Qle_trans with (1 * qpow mu n)%Q; [apply Qmult_le_compat_r; auto; apply qpow_nonneg; auto|lra].
Qed.
(** An event of the mutated genotype and its complement. *)
Lemma complement : forall (f : M (list gv)) (T : list gv -> bool) s p, draws_only f s -> averages s (on_value (fun g => indicator (T g))) f p ->
  averages s (misses T) f (1 - p)%Q.
Proof.
  intros f T s p D H. apply (averages_scale s _ (-1)) in H.
  assert (H' : averages s (on_value (fun g => -1 * indicator (T g))%Q) f (-1 * p)%Q).
  { eapply averages_ext; [exact H|]. intros o _. destruct o; cbn [on_value]; ring. }
  apply (averages_value_const s f 1) in H'; auto.
  eapply averages_ext; [eapply averages_eq; [|exact H']; ring|]. intros o _. destruct o as [x s'|x|]; cbn [misses on_value]; try reflexivity. destruct (T x); cbn; ring.
Qed.
Lemma bits_miss : forall level bs cs s, length cs = length bs ->
  exists p, averages s (misses (bits_eqb cs)) (bin_mutation level (map GBit bs)) p /\ (p <= 1 - qpow (flip_chance level) (length bs))%Q.
Proof.
  intros level bs cs s L. eexists. split.
  - apply complement; [apply draws_mmap; intros; apply bin_gene_draws|]. eapply averages_ext; [apply (C76_bits level bs cs s L)|]. intros o _. destruct o; reflexivity.
  - set (l := map _ _). assert (E : length l = length bs) by (unfold l; rewrite map_length, combine_length; lia). rewrite <- E.
    assert (K : (qpow (flip_chance level) (length l) <= qprod l)%Q); [|lra]. apply qprod_at_least; [apply flip_range|].
    apply Forall_forall. intros x Hx. apply in_map_iff in Hx. destruct Hx as ([b c] & <- & _). unfold flip_chance. destruct (xorb _ _); [apply Q.le_min_l|apply Q.le_min_r].
Qed.

Lemma bits_eqb_eq : forall cs g, bits_eqb cs g = true -> g = map (@GBit Qops) cs.
Proof.
  induction cs as [|c cs IH]; intros [|y g] H; try discriminate; auto. cbn [bits_eqb] in H. destruct y; try discriminate. apply andb_true_iff in H. destruct H as [H1 H2].
  apply Bool.eqb_prop in H1. subst. cbn [map]. f_equal. auto.
Qed.
(** Two genes, or one gene with more than one interval: two bits at least. *)
Definition two_bits (gens : list qgene) : Prop := (2 <= length gens)%nat \/ exists g, gens = [g] /\ 2 <= points g.
Lemma binary_order : forall cf gray gens ns level, valid_shape cf -> Forall legal gens -> two_bits gens -> Forall2 bits_for gens ns ->
  level_named (cf_mutation_lvl cf) \/ level_number (cf_mutation_lvl cf) -> update_level (cf_mutation_lvl cf) (zsum ns) = inr level ->
  Forall (fun x => exists xs, vector x xs /\ Forall2 in_bounds gens xs) (cf_input_population cf) ->
  task cf (in_box gens) ->
  exists bp, in_order cf (GenBinary gray (gens : list bgene) bparams0) OnePoint new_bin (@GenBinary Qops gray gens bp) (MutBin (cf_mutation_lvl cf)) /\
    forall y Y, in_grid gens y -> Y y = true -> exists T, may_hit T Y (MutBin (cf_mutation_lvl cf)) (@GenBinary Qops gray gens bp) (1 - qpow (flip_chance level) (Z.to_nat (zsum ns))).
Proof.
  intros cf gray gens ns level V Lg H2 Fn Hl Ul Hin Sc.
  destruct (box_prepared gray gens Lg) as (bp & Gp & Pg).
  destruct (C05_decode_in_bounds gray gens Lg) as (bp' & ns' & Gp' & En & Fb & D & Su). rewrite Gp in Gp'. inversion Gp'; subst bp'. clear Gp'.
  rewrite (bits_unique _ _ _ Fb Fn) in *. clear Fb ns'.
  destruct (@prepared_usable Qops gray gens bparams0 _ eq_refl Pg) as (bp' & Eb & Us & ps & Eps & Fps). assert (Eq : bp' = bp) by congruence. rewrite Eq in *. clear Eb Eq bp'.
  assert (El : last (idx_bits bp) 0 = zsum ns) by (rewrite Eps, idx_bits_total, <- En, zsum_fold, Eps; reflexivity).
  assert (Two : 2 <= zsum ns).
  { assert (Hns : Forall (fun n => 1 <= n) ns) by (rewrite <- En; apply Us). destruct H2 as [H2|(g & -> & Hg)].
    - apply zsum_ge in Hns. apply Forall2_length in Fn. lia.
    - inversion Fn as [|? n ? ? B F]; subst. inversion F; subst. cbn. pose proof (bits_two _ _ B Hg). lia. }
  assert (M : new_bin (cf_mutation_lvl cf) = inr (MutBin (cf_mutation_lvl cf))).
  { unfold new_bin. destruct (cf_mutation_lvl cf) as [st|x|]; destruct Hl as [Hl|Hl]; try contradiction.
    - destruct Hl as [-> |[-> | ->]]; cbn; eauto.
    - unfold out_of_01. cbn in Hl. destruct (_ || _) eqn:E; [|eauto]. exfalso. apply orb_true_iff in E. cbn in E. rewrite !Qltb_iff in E.
      unfold inject_Z in E. change (@num Qops) with Q in *. destruct E; lra. }
  exists bp. split.
  - split; [exact V|]. split; [exact Pg|]. split; [|split; [exact M|split; [|split; [|split; [|split]]]]].
    + eapply Forall_impl; [|exact Hin]. intros x (xs & Vx & Bx). destruct (C06_input_checked gray gens bp xs Lg Gp) as [Ok _]. destruct (Ok Bx) as (bs & Eb).
      exists (bits_to_geno bs). assert (E : input_genotype (@GenBinary Qops gray gens bp) x = inr (bits_to_geno bs)).
      { cbn [input_genotype]. rewrite (vector_num _ _ Vx). rewrite Eb. reflexivity. }
      split; auto. eapply box_inputs; eauto.
    + constructor; [discriminate|exact I].
    + cbn. destruct (cf_mutation_lvl cf) as [st|x|]; [|exact I|destruct Hl as [[]|[]]].
      rewrite El. apply not_true_is_false. intros C. apply Qeq_bool_eq in C. unfold Qeq in C. cbn in C. lia.
    + intros x (bs & -> & Lb). rewrite map_length. cbn [min_len]. rewrite En in Lb. split; [lia|]. split; [exact I|].
      apply Forall_forall. intros z Hz. apply in_map_iff in Hz. destruct Hz as (b & <- & _). exact I.
    + intros x (bs & -> & Lb). destruct (D bs) as (ys & Ey & _); [rewrite <- En; auto|]. rewrite (decode_bits _ _ _ _ _ Ey). eauto.
    + eapply evaluates_weaker; [|exact (task_evaluates _ _ V Sc)]. intros genes Dg. eapply box_points; eauto.
  - intros y Y Gy HY. destruct Gy as (ms & ys & -> & Fb' & F3). rewrite (bits_unique _ _ _ Fb' Fn) in F3. destruct (Su ys F3) as (bs & Lb & Db).
    exists (bits_eqb bs). split.
    + intros x pt Tx Dx Sp. apply bits_eqb_eq in Tx. subst x. cbn [spec_point] in Sp. rewrite (decode_bits _ _ _ _ _ Db) in Sp. inversion Sp; subst pt. exact HY.
    + eexists. split; [cbn [mutator]; rewrite El, Ul; reflexivity|]. intros x s (bs' & -> & Lb').
      rewrite En in Lb'. assert (E : Z.to_nat (zsum ns) = length bs') by lia. rewrite E. apply bits_miss. lia.
Qed.

(** C82, BinaryGA.  A run that returns has evaluated the point [y] of the grid except
    with probability (1 - d)^(N - 1), where N is the number of generations and d, at
    least the L-th power of the smaller of gate and 1 - gate, bounds the chance of
    mutating any L bits into those of [y]. *)
Theorem C82_binary : forall fuel cf gray gens ns level s y Y, valid_shape cf -> Forall legal gens -> two_bits gens -> Forall2 bits_for gens ns ->
  level_named (cf_mutation_lvl cf) \/ level_number (cf_mutation_lvl cf) -> update_level (cf_mutation_lvl cf) (zsum ns) = inr level ->
  Forall (fun x => exists xs, vector x xs /\ Forall2 in_bounds gens xs) (cf_input_population cf) ->
  task cf (in_box gens) -> full_length cf -> rnd_seed s = None -> in_grid gens y -> Y y = true ->
  exists p, probability (binary_ga fuel cf gray (gens : list bgene)) s (returns_without s Y) p /\
    (p <= qpow (1 - qpow (flip_chance level) (Z.to_nat (zsum ns))) (later_generations cf))%Q.
Proof.
  intros fuel cf gray gens ns level s y Y V Lg H2 Fn Hl Ul Hin Sc Fl Hs Gy HY.
  destruct (binary_order cf gray gens ns level V Lg H2 Fn Hl Ul Hin Sc) as (bp & IO & Mh). destruct (Mh y Y Gy HY) as (T & MH).
  eapply run_returns_without; eauto. destruct (flip_range level) as [R0 R1]. pose proof (qpow_le_one _ (Z.to_nat (zsum ns)) R0 R1). lra.
Qed.
(** With transfer "random", or with at least as many children as individuals, so does the
    whole run: also the searches for second parents come to an end. *)
Theorem C82_binary_ends : forall fuel cf gray gens ns level s y Y, valid_shape cf -> Forall legal gens -> two_bits gens -> Forall2 bits_for gens ns ->
  level_named (cf_mutation_lvl cf) \/ level_number (cf_mutation_lvl cf) -> update_level (cf_mutation_lvl cf) (zsum ns) = inr level ->
  Forall (fun x => exists xs, vector x xs /\ Forall2 in_bounds gens xs) (cf_input_population cf) ->
  task cf (in_box gens) -> full_length cf -> no_twins cf -> rnd_seed s = None -> in_grid gens y -> Y y = true ->
  exists p, probability (binary_ga fuel cf gray (gens : list bgene)) s (fails s Y) p /\
    (p <= qpow (1 - qpow (flip_chance level) (Z.to_nat (zsum ns))) (later_generations cf) + waiting cf fuel)%Q.
Proof.
  intros fuel cf gray gens ns level s y Y V Lg H2 Fn Hl Ul Hin Sc Fl NT Hs Gy HY.
  destruct (binary_order cf gray gens ns level V Lg H2 Fn Hl Ul Hin Sc) as (bp & IO & Mh). destruct (Mh y Y Gy HY) as (T & MH).
  eapply run_fails; eauto.
  - destruct (flip_range level) as [R0 R1]. pose proof (qpow_le_one _ (Z.to_nat (zsum ns)) R0 R1). lra.
  - intros s' e. apply (binary_safe fuel cf gray gens s' V Lg H2 Hl Hin (task_evaluates _ _ V Sc)).
Qed.

(** *** Categories *)
(** Mutation turns a gene into a given value of its pool with at least this probability. *)
Definition pick_chance (level : Q) (p : @cgen Qops) : Q := Qmin (1 - @gate Qops level) (@gate Qops level / inject_Z (Z.of_nat (length (pool_values p)))).
Lemma pick_range : forall level p, (0 <= pick_chance level p <= 1)%Q.
Proof.
  intros level p. destruct (gate_range level) as [G0 G1]. unfold pick_chance. split.
  - apply Q.min_case; [intros x y E H; rewrite <- E; exact H|lra|]. apply Qmult_le_0_compat; [lra|]. apply Qinv_le_0_compat. unfold Qle. cbn. lia.
  - eapply Qle_trans; [apply Q.le_min_l|]. lra.
Qed.
Lemma pick_positive : forall level p, between level -> pool_values p <> [] -> (0 < pick_chance level p)%Q.
Proof.
  intros level p B N. pose proof (flip_positive level B) as F. unfold flip_chance in F. pose proof (Q.le_min_l (@gate Qops level) (1 - @gate Qops level)). pose proof (Q.le_min_r (@gate Qops level) (1 - @gate Qops level)).
  unfold pick_chance. apply Q.min_case; [intros x y E K; rewrite <- E; exact K|lra|]. apply Qlt_shift_div_l; [|lra].
  destruct (pool_values p); [contradiction|]. unfold Qlt. cbn. lia.
Qed.
Lemma cat_gene_hit : forall level p x y s, pool_ok p x -> In x (pool_values p) -> In y (pool_values p) ->
  exists e, averages s (on_value (fun z => indicator (gv_eqb z y))) (cat_gene level p x) e /\ (pick_chance level p <= e)%Q.
Proof.
  intros level p x y s [Hp Hx] Ix Iy. destruct (gate_range level) as [G0 G1]. set (w := fun z => indicator (gv_eqb z y)).
  assert (Eyy : gv_eqb y y = true) by (apply (gv_eqb_refl Qorder), qgene_ok).
  destruct (le_lt_dec (length (pool_values p)) 1) as [L|L].
  - exists 1%Q. split; [|eapply Qle_trans; [apply pick_range|apply Qle_refl]].
    assert (Exy : x = y). { destruct (pool_values p) as [|a [|b l]]; cbn in *; [contradiction| |lia]. destruct Ix as [<-|[]], Iy as [<-|[]]. reflexivity. }
    unfold cat_gene. apply averages_then with (r := fun _ : bool => 1%Q); [exact (draws_even _ _ s (gate_even level))| |].
    + assert (R : averages s (on_value w) (ret x) 1%Q) by (eapply averages_eq; [|apply (averages_ret s (on_value w) x)]; unfold w; cbn [on_value]; rewrite Exy, Eyy; reflexivity).
      intros b u _. destruct b; [|exact R]. destruct p as [lo hi stp|l|]; [| |contradiction].
      * destruct (Z.eqb_spec stp 0); [contradiction|]. cbv zeta. cbn [pool_values] in L. unfold zlen. destruct (Z.ltb_spec 1 (Z.of_nat (length (map (@GInt Qops) (py_range lo (hi + 1) stp))))); [lia|exact R].
      * cbn [pool_values] in L. unfold zlen. destruct (Z.ltb_spec 1 (Z.of_nat (length l))); [lia|exact R].
    + eapply averages_eq; [|eapply averages_ext; [apply (gate_mean level s 1 1)|]]; [ring|]. intros o _. destruct o as [[|]| |]; reflexivity.
  - destruct Hx as [Hx|(z & Iz & Nz)]; [lia|]. set (others := filter (fun y => negb (gv_eqb y x)) (pool_values p)).
    assert (No : others <> []). { intros C. assert (I : In z others) by (apply filter_In; rewrite Nz; auto). rewrite C in I. destruct I. }
    exists (@gate Qops level * mean (map w others) + (1 - @gate Qops level) * w x)%Q. split.
    { apply C76_category; auto. }
    assert (Mp : (0 <= mean (map w others))%Q).
    { unfold w. rewrite mean_indicator. apply Qmult_le_0_compat; [|apply Qinv_le_0_compat]; unfold Qle; cbn; lia. }
    unfold w at 2. destruct (gv_eqb x y) eqn:Exy; cbn [indicator].
    + eapply Qle_trans; [apply Q.le_min_l|]. assert (0 <= @gate Qops level * mean (map w others))%Q by (apply Qmult_le_0_compat; auto). lra.
    + eapply Qle_trans; [apply Q.le_min_r|].
      assert (Io : In y others). { apply filter_In. split; auto. destruct (gv_eqb y x) eqn:E; auto. apply (gv_eqb_sym Qorder) in E; try apply qgene_ok. congruence. }
      assert (Lo : (length others <= length (pool_values p))%nat) by apply filter_le.
      assert (Lp : (0 < length others)%nat) by (destruct others; [contradiction|cbn; lia]).
      assert (M : (/ inject_Z (Z.of_nat (length (pool_values p))) <= mean (map w others))%Q).
      { unfold w. rewrite mean_indicator. apply Qle_shift_div_l; [unfold Qlt; cbn; lia|].
        assert (F : (0 < length (filter (fun a => gv_eqb a y) others))%nat).
        { assert (In y (filter (fun a => gv_eqb a y) others)) by (apply filter_In; auto). destruct (filter _ others); [contradiction|cbn; lia]. }
        apply Qle_trans with 1%Q.
        - rewrite Qmult_comm. apply Qle_shift_div_r; [unfold Qlt; cbn; lia|]. rewrite Qmult_1_l, <- Zle_Qle. lia.
        - change 1%Q with (inject_Z 1). rewrite <- Zle_Qle. lia. }
      unfold Qdiv. apply Qle_trans with (@gate Qops level * mean (map w others))%Q; [|lra]. rewrite !(Qmult_comm (@gate Qops level)). apply Qmult_le_compat_r; auto.
Qed.

Lemma cat_hit : forall level ps x y s, Forall2 (fun p a => pool_ok p a /\ In a (pool_values p)) ps x -> Forall2 (fun p a => In a (pool_values p)) ps y ->
  draws_only (cat_mutation level ps x) s /\
  exists e, averages s (on_value (fun z => indicator (gvs_eqb z y))) (cat_mutation level ps x) e /\ (qprod (map (pick_chance level) ps) <= e)%Q.
Proof.
  intros level ps x y s H. revert y. induction H as [|p a ps x [Pa Ia] H IH]; intros y Hy.
  - inversion Hy; subst. cbn [cat_mutation map qprod]. split; [apply draws_ret|]. exists 1%Q. split; [|apply Qle_refl]. apply (averages_ret s (on_value (fun z => indicator (gvs_eqb z []))) []).
  - inversion Hy as [|? b ? y0 Ib Hy0]; subst. destruct (IH y0 Hy0) as [D (e & Ae & Le)]. destruct (cat_gene_hit level p a b s Pa Ia Ib) as (e1 & A1 & L1).
    assert (D1 : draws_only (cat_gene level p a) s).
    { intros t. destruct (proj1 (cat_gene_possible level p a Pa) (set_tape t s)) as (y' & t' & Ey & _). exists y', t'. rewrite Ey, set_tape_set. reflexivity. }
    cbn [cat_mutation]. split; [apply draws_bind; [exact D1|]; intros c; apply draws_bind; [exact D|]; intros; apply draws_ret|].
    exists (e1 * e)%Q. split.
    + apply averages_then with (r := fun c => (e * indicator (gv_eqb c b))%Q); [exact D1| |].
      * intros c u _. apply averages_then with (r := fun r => (indicator (gv_eqb c b) * indicator (gvs_eqb r y0))%Q); [exact D| |].
        -- intros r u' _. eapply averages_eq; [|apply (averages_ret s (on_value (fun z => indicator (gvs_eqb z (b :: y0)))) (c :: r))].
           cbn [on_value gvs_eqb]. destruct (gv_eqb c b), (gvs_eqb r y0); reflexivity.
        -- apply (averages_scale s _ (indicator (gv_eqb c b))) in Ae. eapply averages_ext; [eapply averages_eq; [|exact Ae]; ring|]. intros o _. destruct o; cbn [on_value]; ring.
      * apply (averages_scale s _ e) in A1. eapply averages_ext; [eapply averages_eq; [|exact A1]; ring|]. intros o _. destruct o; cbn [on_value]; ring.
    + cbn [map qprod]. assert (P0 : (0 <= qprod (map (pick_chance level) ps))%Q).
      { clear. induction ps as [|p ps IH]; cbn [map qprod]; [discriminate|]. apply Qmult_le_0_compat; auto. apply pick_range. }
      apply Qle_trans with (e1 * qprod (map (pick_chance level) ps))%Q; [apply Qmult_le_compat_r; auto|]. rewrite !(Qmult_comm e1). apply Qmult_le_compat_r; auto.
      eapply Qle_trans; [|exact L1]. apply pick_range.
Qed.
Lemma picks_range : forall level ps, (0 <= qprod (map (pick_chance level) ps) <= 1)%Q.
Proof.
  intros level ps. induction ps as [|p ps [I0 I1]]; cbn [map qprod]; [split; discriminate|]. destruct (pick_range level p) as [P0 P1]. split; [apply Qmult_le_0_compat; auto|].
  apply Qle_trans with (1 * qprod (map (pick_chance level) ps))%Q; [apply Qmult_le_compat_r; auto|lra].
Qed.
Lemma picks_positive : forall level ps y, between level -> Forall2 (fun p a => In a (pool_values p)) ps y -> (0 < qprod (map (pick_chance level) ps))%Q.
Proof.
  intros level ps y B H. induction H as [|p a ps y Ia H IH]; cbn [map qprod]; [reflexivity|]. apply Qmult_lt_0_compat; auto. apply pick_positive; auto. intros C. rewrite C in Ia. destruct Ia.
Qed.
Lemma categorical_order : forall cf gens level, valid_shape cf -> Forall good_pool gens -> cf_mutation_lvl cf = LFloat level -> (0 <= level <= 1)%Q ->
  Forall (from_pools gens) (cf_input_population cf) -> task cf (from_pools gens) ->
  in_order cf (GenCat gens) Uniform new_cat (GenCat gens) (MutCat level) /\
  forall y Y, from_pools gens y -> (forall z, from_pools gens z -> gvs_eqb z y = true -> Y z = true) ->
    exists T, may_hit T Y (MutCat level) (GenCat gens) (1 - qprod (map (pick_chance level) gens)).
Proof.
  intros cf gens level V Hg El Hl Hin Sc.
  assert (Pk : forall z, from_pools gens z -> Forall2 (fun p a => pool_ok p a /\ In a (pool_values p)) gens z).
  { intros z Dz. clear - Hg Dz. induction Dz as [|p a ps z Ha Dz IH]; inversion Hg; subst; constructor; auto.
    assert (P : pool_ok p a) by (apply (good_pool_ok (fun _ => True) Qorder); auto; apply qpool_fine). split; auto. eapply gene_in_values; eauto. }
  split.
  - split; [exact V|]. split; [reflexivity|]. split; [|split; [|split; [|split; [|split; [|split]]]]].
    + eapply Forall_impl; [|exact Hin]. intros z Hz. exists z. split; auto.
    + rewrite El. unfold new_cat, out_of_01. destruct (_ || _) eqn:E; [|reflexivity]. exfalso. apply orb_true_iff in E. cbn in E. rewrite !Qltb_iff in E.
      unfold inject_Z in E. change (@num Qops) with Q in *. destruct E; lra.
    + constructor. discriminate.
    + exact I.
    + intros z Dz. cbn [min_len mut_pre]. split; [lia|]. split.
      * apply Pk in Dz. eapply Forall2_impl; [|exact Dz]. cbv beta. tauto.
      * apply Forall_forall. intros; apply qgene_ok.
    + intros; exact I.
    + eapply evaluates_weaker; [|exact (task_evaluates _ _ V Sc)]. intros genes (geno & D & Sp). cbn in Sp. rewrite Sp. exact D.
  - intros y Y Fy HY. exists (fun g => gvs_eqb g y). split.
    + intros x pt Tx Dx Sp. cbn in Sp. subst pt. apply HY; auto.
    + eexists. split; [reflexivity|]. intros x s Dx.
      destruct (cat_hit level gens x y s (Pk x Dx)) as [D (e & Ae & Le)]. { apply Pk in Fy. eapply Forall2_impl; [|exact Fy]. cbv beta. tauto. }
      exists (1 - e)%Q. split; [apply complement; auto|lra].
Qed.
(** C82, CategoricalGA; up to equality of the elements. *)
Theorem C82_categorical : forall fuel cf gens level s y Y, valid_shape cf -> Forall good_pool gens -> cf_mutation_lvl cf = LFloat level -> (0 <= level <= 1)%Q ->
  Forall (from_pools gens) (cf_input_population cf) -> task cf (from_pools gens) -> full_length cf -> rnd_seed s = None ->
  from_pools gens y -> (forall z, from_pools gens z -> gvs_eqb z y = true -> Y z = true) ->
  exists p, probability (categorical_ga fuel cf gens) s (returns_without s Y) p /\ (p <= qpow (1 - qprod (map (pick_chance level) gens)) (later_generations cf))%Q.
Proof.
  intros fuel cf gens level s y Y V Hg El Hl Hin Sc Fl Hs Fy HY. destruct (categorical_order cf gens level V Hg El Hl Hin Sc) as [IO Mh]. destruct (Mh y Y Fy HY) as (T & MH).
  eapply run_returns_without; eauto. destruct (picks_range level gens). lra.
Qed.
Theorem C82_categorical_ends : forall fuel cf gens level s y Y, valid_shape cf -> Forall good_pool gens -> cf_mutation_lvl cf = LFloat level -> (0 <= level <= 1)%Q ->
  Forall (from_pools gens) (cf_input_population cf) -> task cf (from_pools gens) -> full_length cf -> no_twins cf -> rnd_seed s = None ->
  from_pools gens y -> (forall z, from_pools gens z -> gvs_eqb z y = true -> Y z = true) ->
  exists p, probability (categorical_ga fuel cf gens) s (fails s Y) p /\
    (p <= qpow (1 - qprod (map (pick_chance level) gens)) (later_generations cf) + waiting cf fuel)%Q.
Proof.
  intros fuel cf gens level s y Y V Hg El Hl Hin Sc Fl NT Hs Fy HY. destruct (categorical_order cf gens level V Hg El Hl Hin Sc) as [IO Mh]. destruct (Mh y Y Fy HY) as (T & MH).
  eapply run_fails; eauto.
  - destruct (picks_range level gens). lra.
  - intros s' e. apply (categorical_safe fuel cf gens s' V Hg); auto; [rewrite El; exact Hl|exact (task_evaluates _ _ V Sc)].
Qed.

(** *** The reported best *)
(** The objective gives the value [f pt] on every point of the space, at every call. *)
Definition measures (cf : config) (f : list gv -> Q) (space : list gv -> Prop) : Prop :=
  forall k pt, space pt -> answers (cf_objective cf) (given (cf_input_data cf)) k pt (inr (OScalar (f pt))).
(** The value [x] is at least as good as [z] for the target; the run reports one that is not. *)
Definition as_good (t : obj_target) (z x : Q) : bool :=
  match t with TNone => Qle_bool x z | T1 t => Qle_bool (Qabs (t - x)) (Qabs (t - z)) | TL _ => false end.
Definition reports_worse {A} (t : obj_target) (z : Q) (o : outcome (gadata * A)) : bool :=
  match o with
  | Ok (gd, _) _ => match best_solution gd with BSingle i _ => match obj_score i with SV1 x => negb (as_good t z x) | _ => true end | _ => true end
  | _ => false
  end.
Definition worse_or_lost {A} (t : obj_target) (z : Q) (o : outcome (gadata * A)) : bool :=
  match o with Ok _ _ => reports_worse t z o | _ => true end.
Lemma as_good_iff : forall t z x, no_better t z x <-> as_good t z x = true.
Proof. intros [|t|l] z x; cbn [no_better as_good]; [rewrite Qle_bool_iff; tauto|rewrite Qle_bool_iff; tauto|split; [intros []|discriminate]]. Qed.
Lemma as_good_same : forall t z z' x, (z == z')%Q -> no_better t z x -> no_better t z' x.
Proof. intros [|t|l] z z' x E; cbn [no_better]; auto; rewrite E; auto. Qed.
Lemma best_seen : forall fuel cf g ck mk s gd' cl s' (f : list gv -> Q) space y, cf_penalty cf = PNone -> measures cf f space ->
  ga_optimize fuel cf false g Hyperbola (SelTournament (cf_tournament_size cf)) ck mk false s = Ok (gd', cl) s' ->
  (exists calls, log s' = calls ++ log s /\ Forall (fun x => space (fst x)) calls) ->
  existsb (fun call => Qeq_bool (f (fst call)) (f y)) (new_calls s s') = true -> reports_worse (cf_obj_value cf) (f y) (Ok (gd', cl) s') = false.
Proof.
  intros fuel cf g ck mk s gd' cl s' f space y Pn Me H (calls & El & Fs) Ex.
  pose proof (C37_best_point fuel cf g (SelTournament (cf_tournament_size cf)) ck mk s gd' cl s' I Pn H) as (calls1 & i & gen & gs & pt & x & El1 & _ & Eb & _ & _ & Eo & K).
  assert (calls1 = calls) by (rewrite El1 in El; apply app_inv_tail in El; auto). subst calls1. clear El1.
  assert (En : new_calls s s' = calls). { unfold new_calls. rewrite El, app_length. replace (length calls + length (log s) - length (log s))%nat with (length calls + 0)%nat by lia. rewrite firstn_app_2. cbn. apply app_nil_r. }
  rewrite En in Ex. apply existsb_exists in Ex. destruct Ex as ([pt' v] & Iv & Ev). cbn [fst] in Ev. apply Qeq_bool_iff in Ev.
  destruct (K _ _ Iv) as (z & -> & Nb).
  assert (Ez : z = f pt').
  { pose proof H as H'. apply optimize_run in H'; [|repeat split; auto; exact I]. destruct H' as (p & s1 & p' & s2 & ft & m & ng & c' & _ & _ & _ & Nf & _ & _ & L & _ & Si & St & R).
    apply run_ends in R. destruct R as (k & A).
    destruct (C48_run _ Qorder _ _ _ _ Si (good_scores_any _ (proj1 Si)) St _ _ _ _ A) as (cs & _ & Ec & Ge). rewrite L, El in Ec. apply app_inv_tail in Ec.
    assert (Ic : In (pt', OScalar z) cs) by (apply in_rev; rewrite <- Ec; exact Iv). apply In_nth_error in Ic. destruct Ic as (j & Ej). apply Ge in Ej. cbn [c_fitness] in Ej.
    rewrite Pn in Nf. destruct (new_fitness_plain _ _ _ _ _ _ _ _ Nf (or_introl eq_refl)) as (_ & _ & _ & Eob & _ & Ein). rewrite Forall_forall in Fs. specialize (Fs _ Iv). cbn [fst] in Fs.
    pose proof (Me (length (log s2) + j)%nat pt' Fs) as An. rewrite Eob, Ein in Ej. clear - Ej An. inversion Ej; subst; inversion An; congruence. }
  subst z. apply (as_good_same _ _ (f y)) in Nb; [|exact Ev]. apply as_good_iff in Nb. cbn [reports_worse]. rewrite Eb, Eo, Nb. reflexivity.
Qed.

Theorem C82_binary_best : forall fuel cf gray gens ns level s y f, valid_shape cf -> Forall legal gens -> two_bits gens -> Forall2 bits_for gens ns ->
  level_named (cf_mutation_lvl cf) \/ level_number (cf_mutation_lvl cf) -> update_level (cf_mutation_lvl cf) (zsum ns) = inr level ->
  Forall (fun x => exists xs, vector x xs /\ Forall2 in_bounds gens xs) (cf_input_population cf) ->
  cf_penalty cf = PNone -> match cf_obj_value cf with TL _ => False | _ => True end -> measures cf f (in_box gens) ->
  full_length cf -> rnd_seed s = None -> in_grid gens y ->
  (exists p, probability (binary_ga fuel cf gray (gens : list bgene)) s (reports_worse (cf_obj_value cf) (f y)) p /\
    (p <= qpow (1 - qpow (flip_chance level) (Z.to_nat (zsum ns))) (later_generations cf))%Q) /\
  (no_twins cf -> exists p, probability (binary_ga fuel cf gray (gens : list bgene)) s (worse_or_lost (cf_obj_value cf) (f y)) p /\
    (p <= qpow (1 - qpow (flip_chance level) (Z.to_nat (zsum ns))) (later_generations cf) + waiting cf fuel)%Q).
Proof.
  intros fuel cf gray gens ns level s y f V Lg H2 Fn Hl Ul Hin Pn Ov Me Fl Hs Gy.
  assert (Ta : task cf (in_box gens)) by (left; split; [exact Pn|split; [exact Ov|]]; intros k pt Hp; exists (f pt); apply Me; auto).
  set (Y := fun pt => Qeq_bool (f pt) (f y)). assert (HY : Y y = true) by (apply Qeq_bool_iff; reflexivity).
  assert (Imp : forall r s', arises (binary_ga fuel cf gray (gens : list bgene)) s (Ok r s') -> existsb (fun call => Y (fst call)) (new_calls s s') = true -> reports_worse (cf_obj_value cf) (f y) (Ok r s') = false).
  { intros [gd' cl] s' Ho Ex. destruct (Ho (tape s') (ent s')) as (t & e & E). cbn [with_source] in E. rewrite source_same in E.
    eapply (best_seen fuel cf _ OnePoint new_bin (set_source t e s)); [exact Pn|exact Me|exact E| |exact Ex].
    destruct (C44_binary _ _ _ _ _ _ _ _ Lg E) as (calls & El & F). exists calls. split; auto. eapply Forall_impl; [|exact F]. cbv beta. tauto. }
  split.
  - eapply am_weaken; [apply (C82_binary fuel cf gray gens ns level s y Y); auto| |apply Qle_refl].
    intros o Ho. destruct o as [r s'|x|]; cbn [returns_without]; [|apply Qle_refl|apply Qle_refl]. specialize (Imp r s' Ho).
    destruct (existsb _ (new_calls s s')); [rewrite Imp by auto; apply Qle_refl|]. apply indicator_bounds.
  - intros NT. eapply am_weaken; [apply (C82_binary_ends fuel cf gray gens ns level s y Y); auto| |apply Qle_refl].
    intros o Ho. destruct o as [r s'|x|]; cbn [fails worse_or_lost]; [|apply Qle_refl|apply Qle_refl]. specialize (Imp r s' Ho).
    destruct (existsb _ (new_calls s s')); [rewrite Imp by auto; apply Qle_refl|]. apply indicator_bounds.
Qed.
Theorem C82_categorical_best : forall fuel cf gens level s y f, valid_shape cf -> Forall good_pool gens -> cf_mutation_lvl cf = LFloat level -> (0 <= level <= 1)%Q ->
  Forall (from_pools gens) (cf_input_population cf) ->
  cf_penalty cf = PNone -> match cf_obj_value cf with TL _ => False | _ => True end -> measures cf f (from_pools gens) ->
  (forall z, from_pools gens z -> gvs_eqb z y = true -> f z == f y)%Q ->
  full_length cf -> rnd_seed s = None -> from_pools gens y ->
  (exists p, probability (categorical_ga fuel cf gens) s (reports_worse (cf_obj_value cf) (f y)) p /\
    (p <= qpow (1 - qprod (map (pick_chance level) gens)) (later_generations cf))%Q) /\
  (no_twins cf -> exists p, probability (categorical_ga fuel cf gens) s (worse_or_lost (cf_obj_value cf) (f y)) p /\
    (p <= qpow (1 - qprod (map (pick_chance level) gens)) (later_generations cf) + waiting cf fuel)%Q).
Proof.
  intros fuel cf gens level s y f V Hg El Hl Hin Pn Ov Me Fe Fl Hs Gy.
  assert (Ta : task cf (from_pools gens)) by (left; split; [exact Pn|split; [exact Ov|]]; intros k pt Hp; exists (f pt); apply Me; auto).
  set (Y := fun pt => Qeq_bool (f pt) (f y)). assert (HY : forall z, from_pools gens z -> gvs_eqb z y = true -> Y z = true) by (intros; apply Qeq_bool_iff; apply Fe; auto).
  assert (Imp : forall r s', arises (categorical_ga fuel cf gens) s (Ok r s') -> existsb (fun call => Y (fst call)) (new_calls s s') = true -> reports_worse (cf_obj_value cf) (f y) (Ok r s') = false).
  { intros [gd' cl] s' Ho Ex. destruct (Ho (tape s') (ent s')) as (t & e & E). cbn [with_source] in E. rewrite source_same in E.
    eapply (best_seen fuel cf _ Uniform new_cat (set_source t e s)); [exact Pn|exact Me|exact E| |exact Ex].
    apply (C44_categorical _ _ _ _ _ _ _ Hin E). }
  split.
  - eapply am_weaken; [apply (C82_categorical fuel cf gens level s y Y); auto| |apply Qle_refl].
    intros o Ho. destruct o as [r s'|x|]; cbn [returns_without]; [|apply Qle_refl|apply Qle_refl]. specialize (Imp r s' Ho).
    destruct (existsb _ (new_calls s s')); [rewrite Imp by auto; apply Qle_refl|]. apply indicator_bounds.
  - intros NT. eapply am_weaken; [apply (C82_categorical_ends fuel cf gens level s y Y); auto| |apply Qle_refl].
    intros o Ho. destruct o as [r s'|x|]; cbn [fails worse_or_lost]; [|apply Qle_refl|apply Qle_refl]. specialize (Imp r s' Ho).
    destruct (existsb _ (new_calls s s')); [rewrite Imp by auto; apply Qle_refl|]. apply indicator_bounds.
Qed.

(** *** In the limit *)
Lemma qpow_lower : forall p n m, (0 <= p <= 1)%Q -> (n <= m)%nat -> (qpow p m <= qpow p n)%Q.
Proof.
  intros p n m [H0 H1] L. induction L as [|m L IH]; [apply Qle_refl|]. cbn [qpow]. eapply Qle_trans; [|exact IH].
  apply Qle_trans with (1 * qpow p m)%Q; [apply Qmult_le_compat_r; auto; apply qpow_nonneg; auto|lra].
Qed.
Lemma waiting_vanishes : forall cf eps, valid_shape cf -> 1 <= cf_num_generations cf -> (0 < eps)%Q -> exists f0, forall fuel, (f0 <= fuel)%nat -> (waiting cf fuel < eps)%Q.
Proof.
  intros cf eps ((Ht1 & Ht2) & Hc & _) Hn He. unfold waiting. set (t := cf_tournament_size cf) in *. set (n := cf_num_individ cf) in *. set (m := Qtrunc _) in *.
  set (a := inject_Z (cf_num_generations cf - 1)). set (b := inject_Z m). set (p := (inject_Z t / inject_Z n)%Q).
  assert (A : (0 <= a)%Q) by (unfold a, Qle; cbn; lia). assert (B : (1 <= b)%Q) by (unfold b; change 1%Q with (inject_Z 1); rewrite <- Zle_Qle; exact Hc).
  assert (P0 : (0 <= p)%Q) by (apply Qmult_le_0_compat; [|apply Qinv_le_0_compat]; unfold Qle; cbn; lia).
  assert (P1 : (p < 1)%Q) by (apply Qlt_shift_div_r; [unfold Qlt; cbn; lia|]; rewrite Qmult_1_l, <- Zlt_Qlt; lia).
  assert (AB : (0 <= a * b)%Q) by (apply Qmult_le_0_compat; lra). assert (K : (0 < a * b + 1)%Q) by lra.
  destruct (qpow_vanishes p (eps / (a * b + 1)) P0 P1) as (f0 & Hf).
  { apply Qlt_shift_div_l; [exact K|]. lra. }
  exists f0. intros fuel L. assert (Q1 : (qpow p fuel <= qpow p f0)%Q) by (apply qpow_lower; auto; split; auto; lra). pose proof (qpow_nonneg p fuel P0) as Q0.
  assert (Q2 : (qpow p fuel * (a * b + 1) < eps)%Q).
  { eapply Qle_lt_trans; [apply Qmult_le_compat_r; [exact Q1|lra]|]. apply (Qmult_lt_compat_r _ _ (a * b + 1)) in Hf; auto. eapply Qlt_le_trans; [exact Hf|]. apply Qle_lteq. right. field. intros C. rewrite C in K. discriminate K. }
  assert (E : (a * (b * qpow p fuel) == qpow p fuel * (a * b + 1) - qpow p fuel)%Q) by ring. rewrite E. lra.
Qed.
Lemma two_sum : forall gens ns, Forall legal gens -> two_bits gens -> Forall2 bits_for gens ns -> 2 <= zsum ns.
Proof.
  intros gens ns Lg H2 Fn. destruct (C05_decode_in_bounds true gens Lg) as (bp & ns' & Gp & En & Fb & _). rewrite (bits_unique _ _ _ Fb Fn) in *. clear Fb.
  destruct (box_prepared true gens Lg) as (bp' & Gp' & Pg). assert (Eq : bp' = bp) by congruence. subst bp'.
  destruct (@prepared_usable Qops true gens bparams0 _ eq_refl Pg) as (bp' & Eb & Us & _). assert (Eq : bp' = bp) by congruence. subst bp'.
  assert (Hns : Forall (fun n => 1 <= n) ns) by (rewrite <- En; apply Us). destruct H2 as [H2|(g & -> & Hg)].
  - apply zsum_ge in Hns. apply Forall2_length in Fn. lia.
  - inversion Fn as [|? n ? ? B F]; subst. inversion F; subst. cbn. pose proof (bits_two _ _ B Hg). lia.
Qed.
Lemma qpow_raise : forall a b n, (0 <= a)%Q -> (a <= b)%Q -> (qpow a n <= qpow b n)%Q.
Proof.
  intros a b n H0 H. induction n as [|n IH]; [apply Qle_refl|]. cbn [qpow]. pose proof (qpow_nonneg a n H0).
  apply Qle_trans with (b * qpow a n)%Q; [apply Qmult_le_compat_r; auto|]. rewrite !(Qmult_comm b). apply Qmult_le_compat_r; auto. lra.
Qed.
Lemma misses_vanish : forall d eps, (0 < d)%Q -> (0 < eps)%Q -> exists N, forall d' k, (d <= d')%Q -> (d' <= 1)%Q -> (N <= k)%nat -> (qpow (1 - d') k < eps)%Q.
Proof.
  intros d eps Hd He. destruct (Qlt_le_dec 1 d) as [Gt|Le]; [exists O; intros; lra|].
  destruct (qpow_vanishes (1 - d) eps) as (N & HN); [lra|lra|exact He|]. exists N. intros d' k D1 D2 L.
  apply Qle_lt_trans with (qpow (1 - d) N); auto. apply Qle_trans with (qpow (1 - d) k); [apply qpow_raise; lra|apply qpow_lower; auto; split; lra].
Qed.
Lemma qpow_positive : forall a n, (0 < a)%Q -> (0 < qpow a n)%Q.
Proof. intros a n H. induction n as [|n IH]; [reflexivity|]. cbn [qpow]. apply Qmult_lt_0_compat; auto. Qed.

(** With enough generations the reported best is, up to any given risk, as good as any
    point of the grid.  The number of generations depends on the grid alone, not on
    the objective, the population size or the mutation level. *)
Theorem C82_binary_limit : forall gens ns eps, Forall legal gens -> two_bits gens -> Forall2 bits_for gens ns -> (0 < eps)%Q ->
  exists N, forall cf gray s y f, N <= cf_num_generations cf -> valid_shape cf -> mixed_level (cf_mutation_lvl cf) (zsum ns) ->
    Forall (fun x => exists xs, vector x xs /\ Forall2 in_bounds gens xs) (cf_input_population cf) ->
    cf_penalty cf = PNone -> match cf_obj_value cf with TL _ => False | _ => True end -> measures cf f (in_box gens) ->
    full_length cf -> rnd_seed s = None -> in_grid gens y ->
    (forall fuel, exists p, probability (binary_ga fuel cf gray (gens : list bgene)) s (reports_worse (cf_obj_value cf) (f y)) p /\ (p < eps)%Q) /\
    (no_twins cf -> exists enough, forall fuel, (enough <= fuel)%nat ->
      exists p, probability (binary_ga fuel cf gray (gens : list bgene)) s (worse_or_lost (cf_obj_value cf) (f y)) p /\ (p < eps)%Q).
Proof.
  intros gens ns eps Lg H2 Fn He. set (d := qpow (1 # 1000) (Z.to_nat (zsum ns))).
  destruct (misses_vanish d (eps * (1 # 2))) as (N & HN); [apply qpow_positive; reflexivity|lra|]. exists (Z.of_nat N + 1).
  intros cf gray s y f LN V Ml Hin Pn Ov Me Fl Hs Gy.
  destruct (mixed_between _ _ (two_sum gens ns Lg H2 Fn) Ml) as (level & Ul & B).
  assert (Hl : level_named (cf_mutation_lvl cf) \/ level_number (cf_mutation_lvl cf)).
  { clear - Ml. destruct (cf_mutation_lvl cf) as [st|x|]; cbn in *; [left; tauto|right; destruct Ml; split; lra|contradiction]. }
  assert (Bd : (qpow (1 - qpow (flip_chance level) (Z.to_nat (zsum ns))) (later_generations cf) < eps * (1 # 2))%Q).
  { destruct (flip_range level). apply HN; [apply qpow_raise; [discriminate|apply flip_positive; auto]|apply qpow_le_one; auto|unfold later_generations; lia]. }
  split.
  - intros fuel. destruct (C82_binary_best fuel cf gray gens ns level s y f V Lg H2 Fn Hl Ul Hin Pn Ov Me Fl Hs Gy) as ((p & Pp & Lp) & _). exists p. split; auto. lra.
  - intros NT. destruct (waiting_vanishes cf (eps * (1 # 2)) V (proj1 Fl)) as (f0 & Hf0); [lra|]. exists f0. intros fuel Lf. specialize (Hf0 fuel Lf).
    destruct (C82_binary_best fuel cf gray gens ns level s y f V Lg H2 Fn Hl Ul Hin Pn Ov Me Fl Hs Gy) as (_ & K). destruct (K NT) as (p & Pp & Lp). exists p. split; auto. lra.
Qed.
Theorem C82_categorical_limit : forall gens level eps, Forall good_pool gens -> between level -> (0 < eps)%Q ->
  exists N, forall cf s y f, N <= cf_num_generations cf -> valid_shape cf -> cf_mutation_lvl cf = LFloat level -> Forall (from_pools gens) (cf_input_population cf) ->
    cf_penalty cf = PNone -> match cf_obj_value cf with TL _ => False | _ => True end -> measures cf f (from_pools gens) ->
    (forall z, from_pools gens z -> gvs_eqb z y = true -> f z == f y)%Q ->
    full_length cf -> rnd_seed s = None -> from_pools gens y ->
    (forall fuel, exists p, probability (categorical_ga fuel cf gens) s (reports_worse (cf_obj_value cf) (f y)) p /\ (p < eps)%Q) /\
    (no_twins cf -> exists enough, forall fuel, (enough <= fuel)%nat ->
      exists p, probability (categorical_ga fuel cf gens) s (worse_or_lost (cf_obj_value cf) (f y)) p /\ (p < eps)%Q).
Proof.
  intros gens level eps Hg B He. set (d := qprod (map (pick_chance level) gens)).
  assert (D0 : (0 < d)%Q).
  { unfold d. clear - Hg B. induction Hg as [|p gens G Hg IH]; [reflexivity|]. cbn [map qprod]. apply Qmult_lt_0_compat; auto. apply pick_positive; auto.
    destruct p as [a b stp|l|]; cbn [good_pool pool_values] in *; [|destruct G as [(x & ->)|(x & y & Hx & _)]; [discriminate|intros ->; destruct Hx]|contradiction].
    intros C. apply map_eq_nil in C. apply (f_equal (@length Z)) in C. rewrite py_range_length in C. cbn [length] in C.
    assert (Pl : 0 < range_len a (b + 1) stp). { apply range_len_pos; [lia|]. destruct (0 <? stp) eqn:E0; [apply Z.ltb_lt in E0|apply Z.ltb_ge in E0]; lia. }
    lia. }
  destruct (misses_vanish d (eps * (1 # 2)) D0) as (N & HN); [lra|]. exists (Z.of_nat N + 1).
  intros cf s y f LN V El Hin Pn Ov Me Fe Fl Hs Gy. assert (Hl : (0 <= level <= 1)%Q) by (destruct B; split; lra).
  assert (Bd : (qpow (1 - d) (later_generations cf) < eps * (1 # 2))%Q).
  { apply HN; [apply Qle_refl|apply picks_range|unfold later_generations; lia]. }
  split.
  - intros fuel. destruct (C82_categorical_best fuel cf gens level s y f V Hg El Hl Hin Pn Ov Me Fe Fl Hs Gy) as ((p & Pp & Lp) & _). exists p. split; auto. unfold d in Bd. lra.
  - intros NT. destruct (waiting_vanishes cf (eps * (1 # 2)) V (proj1 Fl)) as (f0 & Hf0); [lra|]. exists f0. intros fuel Lf. specialize (Hf0 fuel Lf).
    destruct (C82_categorical_best fuel cf gens level s y f V Hg El Hl Hin Pn Ov Me Fe Fl Hs Gy) as (_ & K). destruct (K NT) as (p & Pp & Lp). exists p. split; auto. unfold d in Bd. lra.
Qed.

(** *** Probabilities of runs are well defined *)
(** Every event of a complete run has one probability, between 0 and 1, when it does not
    depend on what the sources would yield next. *)
Theorem C82_probability : forall {NO : NumOps} fuel cf multi g fk sel ck mk ngm s (event : outcome (gadata * option (list string)) -> bool),
  rnd_seed s = None -> (forall t e o, event (with_source t e o) = event o) ->
  exists p, (probability (ga_optimize fuel cf multi g fk sel ck mk ngm) s event p /\ 0 <= p /\ p <= 1)%Q /\
    forall q, probability (ga_optimize fuel cf multi g fk sel ck mk ngm) s event q -> (q == p)%Q.
Proof.
  intros NO fuel cf multi g fk sel ck mk ngm s event Hs Un.
  assert (Tr : treelike (ga_optimize fuel cf multi g fk sel ck mk ngm)).
  { unfold ga_optimize, run_loop. apply tr_bind; [apply tr_do_seed|intros _]. do 4 (apply tr_bind; [apply tr_lift|intros ?]). apply tr_bind; [apply tr_fill|intros ?].
    apply tr_bind; [apply tr_bind; [apply tr_fitness_execute|intros _]; apply tr_bind; [apply tr_update|intros ?]; apply tr_ga_loop|intros ?].
    apply tr_bind; [destruct (cf_is_print cf); [unfold print_best_solution|apply tr_ret]|intros _; apply tr_ret].
    destruct (best_solution _) as [|i gs|set [gs|]]; [apply tr_raise|apply tr_ret|apply tr_miter; intros i; destruct (phenotype i); [apply tr_ret|apply tr_raise]|apply tr_raise]. }
  assert (Sq : unseeing (fun o => indicator (event o))) by (intros t e o; rewrite Un; apply Qeq_refl).
  destruct (plain_bound s (fun o => indicator (event o)) _ 1 (proj1 (Tr s Hs))) as (p & Pp & Lp); [intros o _; apply indicator_bounds|].
  exists p. split; [split; [exact Pp|split; [|exact Lp]]|intros q Pq; apply (expects_unique _ _ _ _ _ Sq Pq Pp)].
  clear - Pp. induction Pp as [m o q Hm Hq|m n mk' r q Hn Hm Hr IH Hq|m mn q Hm H IH]; [rewrite Hq; apply indicator_bounds| |exact IH].
  rewrite Hq. rewrite <- (mean_const 0 (below n) (below_nonempty n Hn)). apply mean_le. intros d Hd. apply IH. apply below_in. exact Hd.
Qed.

(** *** Cases *)
Definition sq_value (genes : list gv) : Q :=
  fold_left (fun acc g => match g with GNum x => (acc + x * x)%Q | GInt z => (acc + inject_Z (z * z))%Q | _ => acc end) genes 0%Q.
(** [N] generations of 5 individuals, 3 children each, at random without twins. *)
Definition long_cf (N : Z) (lv : lvl) (inp : list (list gv)) : config :=
  mkCfg N 5 sq_obj (T1 (1#2)) None PNone None (6#10) None inp 2 lv "random" true.
Lemma long_shape : forall N lv inp, 0 <= N -> Z.of_nat (length inp) <= 5 -> valid_shape (long_cf N lv inp).
Proof. intros N lv inp HN Hi. split; [cbn; lia|]; split; [vm_compute; discriminate|]; split; [right; reflexivity|]; cbn; lia. Qed.
Lemma long_measures : forall N lv inp space, measures (long_cf N lv inp) sq_value space.
Proof. intros N lv inp space k pt _. cbn [long_cf cf_objective cf_input_data given]. unfold sq_obj. exact (answer_1 _ k pt). Qed.
Lemma box_ns : Forall2 bits_for box [4; 3].
Proof.
  constructor; [|constructor; [|constructor]]; (split; [lia|]; split; [vm_compute; discriminate|]; intros j Hj; assert (D : j = 0 \/ j = 1 \/ j = 2 \/ j = 3) by lia;
    destruct D as [-> |[-> |[-> | ->]]]; try lia; vm_compute; reflexivity).
Qed.
Lemma box_legal : Forall legal box.
Proof. repeat constructor; vm_compute; congruence. Qed.
Lemma box_input : Forall (fun x => exists xs, vector x xs /\ Forall2 in_bounds box xs) [[GInt 1; @GNum Qops (1#2)]].
Proof.
  repeat constructor. exists [1; 1#2]%Q. split.
  - constructor; [right; exists 1; auto|]. constructor; [left; auto|constructor].
  - repeat constructor; vm_compute; congruence.
Qed.
Example C82_binary_case : forall N fuel s y, 1 <= N -> rnd_seed s = None -> in_grid box y ->
  exists p, probability (binary_ga fuel (long_cf N (@LFloat Qops (1#4)) [[GInt 1; @GNum Qops (1#2)]]) true (box : list bgene)) s
      (worse_or_lost (T1 (1#2)) (sq_value y)) p /\
    (p <= qpow (1 - qpow (251 # 1000) 7) (Z.to_nat (N - 1)) + inject_Z (N - 1) * (3 * qpow (2 # 5) fuel))%Q.
Proof.
  intros N fuel s y HN Hs Gy.
  destruct (C82_binary_best fuel (long_cf N (@LFloat Qops (1#4)) [[GInt 1; @GNum Qops (1#2)]]) true box [4; 3] (1#4 : Q) s y sq_value) as (_ & K); auto.
  - apply long_shape; [lia|cbn; lia].
  - exact box_legal.
  - left. cbn. lia.
  - exact box_ns.
  - right. split; vm_compute; discriminate.
  - exact box_input.
  - exact I.
  - apply long_measures.
  - split; [exact HN|discriminate].
  - destruct (K (or_introl eq_refl)) as (p & Pp & Lp). exists p. split; [exact Pp|exact Lp].
Qed.
Example C82_binary_limit_case : exists N, forall s y, rnd_seed s = None -> in_grid box y ->
  exists enough, forall fuel, (enough <= fuel)%nat ->
    exists p, probability (binary_ga fuel (long_cf N (LStr "strong") [[GInt 1; @GNum Qops (1#2)]]) true (box : list bgene)) s (worse_or_lost (T1 (1#2)) (sq_value y)) p /\ (p < 1 # 1000000)%Q.
Proof.
  destruct (C82_binary_limit box [4; 3] (1 # 1000000)%Q box_legal (or_introl (le_n 2)) box_ns eq_refl) as (N & HN). exists (Z.max 1 N). intros s y Hs Gy.
  destruct (HN (long_cf (Z.max 1 N) (LStr "strong") [[GInt 1; @GNum Qops (1#2)]]) true s y sq_value) as (_ & K); auto.
  - cbn. lia.
  - apply long_shape; [lia|cbn; lia].
  - right. right. split; [reflexivity|vm_compute; discriminate].
  - exact box_input.
  - exact I.
  - apply long_measures.
  - split; [cbn; lia|discriminate].
  - exact (K (or_introl eq_refl)).
Qed.
Lemma mixed_good : Forall good_pool mixed_pools.
Proof. constructor; [cbn; lia|]. constructor; [right; exists (GInt 4), (GInt 5); repeat split; cbn; auto|]. constructor; [left; eauto|constructor]. Qed.
Lemma mixed_shape : forall z, from_pools mixed_pools z -> exists u v, z = [GInt u; GInt v; GStr "a"].
Proof.
  intros z Fz. inversion Fz as [|? a ? z1 Ga F1]; subst. inversion F1 as [|? b ? z2 Gb F2]; subst. inversion F2 as [|? c ? z3 Gc F3]; subst. inversion F3; subst. clear Fz F1 F2 F3.
  destruct Ga as (x & i & -> & _). cbn in Gb, Gc.
  assert (Hb : exists u, b = GInt u) by (destruct Gb as [<-|[<-|[<-|[]]]]; eauto). destruct Hb as (u & ->). destruct Gc as [<-|[]]. eauto.
Qed.
Lemma mixed_equal : forall z y, from_pools mixed_pools z -> from_pools mixed_pools y -> gvs_eqb z y = true -> (sq_value z == sq_value y)%Q.
Proof.
  intros z y Fz Fy E. destruct (mixed_shape z Fz) as (u & v & ->). destruct (mixed_shape y Fy) as (u' & v' & ->). cbn [gvs_eqb gv_eqb] in E.
  apply andb_true_iff in E. destruct E as [E1 E]. apply andb_true_iff in E. destruct E as [E2 _]. apply Z.eqb_eq in E1. apply Z.eqb_eq in E2. subst. reflexivity.
Qed.
Example C82_categorical_case : forall N fuel s y, 1 <= N -> rnd_seed s = None -> from_pools mixed_pools y ->
  exists p, probability (categorical_ga fuel (long_cf N (@LFloat Qops (1#2)) []) mixed_pools) s (worse_or_lost (T1 (1#2)) (sq_value y)) p /\
    (p <= qpow (1 - (501 # 4000) * ((501 # 3000) * (499 # 1000))) (Z.to_nat (N - 1)) + inject_Z (N - 1) * (3 * qpow (2 # 5) fuel))%Q.
Proof.
  intros N fuel s y HN Hs Gy.
  destruct (C82_categorical_best fuel (long_cf N (@LFloat Qops (1#2)) []) mixed_pools (1#2 : Q) s y sq_value) as (_ & K); auto.
  - apply long_shape; [lia|cbn; lia].
  - exact mixed_good.
  - split; vm_compute; discriminate.
  - constructor.
  - exact I.
  - apply long_measures.
  - intros z Fz. apply mixed_equal; auto.
  - split; [exact HN|discriminate].
  - destruct (K (or_introl eq_refl)) as (p & Pp & Lp). exists p. split; [exact Pp|]. eapply Qle_trans; [exact Lp|]. apply Qplus_le_compat; [|apply Qle_refl].
    apply qpow_raise; vm_compute; discriminate.
Qed.
(** A run of the modelled program that does meet the point: 14 calls, the best one recorded. *)
Example C82_run : observe (fun r s => (idx_generation (fst r), length (log s), returns_without fresh_world (fun pt => gvs_eqb pt [GInt 0; GInt 4; GStr "a"]) (Ok r s)))
  (categorical_ga 50 (long_cf 4 (@LFloat Qops (1#2)) []) mixed_pools fresh_world) = Some (4, 14%nat, false).
Proof. run. Qed.
Print Assumptions C82_binary.
Print Assumptions C82_binary_ends.
Print Assumptions C82_categorical.
Print Assumptions C82_categorical_ends.
Print Assumptions C82_binary_best.
Print Assumptions C82_categorical_best.
Print Assumptions C82_binary_limit.
Print Assumptions C82_categorical_limit.
Print Assumptions C82_probability.
