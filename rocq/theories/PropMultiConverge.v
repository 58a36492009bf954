(** C85: VEGA and FFGA evaluate every point of the grid with a probability that tends to
    one, and FFGA, which keeps its front, reports a set that no point of the grid beats. *)
From Coq Require Import String.
From Coq Require Import ZArith QArith Qround Qabs Qminmax List Bool Lia Lqa Permutation.
From Verif Require Import Spec Num State Binary Population GaData Crossover Mutation Selection Penalty Fitness NewGeneration Driver
  ListLemmas Rnd Exec Laws CodingProofs PopulationProofs CrossoverProofs MutationProofs SelectionProofs VegaProofs
  NewGenProofs UpdateProofs FitnessProofs StepProofs RunProofs Runs DomainProofs SafetyProofs Fuelless FuelProofs SeedProofs ReachProofs OptimizeProofs
  RankingProofs BalancedProofs PropProportional MultiProofs MultiRuns MultiSafetyProofs
  Chance ChanceProofs SelChanceProofs PropSelChance PropMutChance ChanceRun ChanceRunProofs ConvergeProofs MultiConvergeProofs CompareProofs
  AssessProofs PropCoding PropFitness PropRun PropDomain PropConditional PropMulti PropPareto PropMultiSafe PropArchive PropReach PropConverge Demo.
Import ListNotations.
Open Scope string_scope.
Open Scope list_scope.
Open Scope Z_scope.
Local Existing Instance Qops.

(** *** The run *)
(** What optimize of VEGA and FFGA hands to its main loop. *)
Definition mlaunched (cf : config) (g : gspec) (fk : fitness_kind) (sel : selection) (ngm : bool) (s : st) (c : comps) (gd0 : gadata) (s0 : st) : Prop :=
  exists p s1 p' f cl m ng,
    set_params (cf_num_individ cf) g (cf_input_population cf) = inr p /\ do_seed s = Ok tt s1 /\ fill p s1 = Ok p' s0 /\
    new_fitness fk (cf_objective cf) (cf_obj_value cf) (cf_input_data cf) (cf_penalty cf) (cf_conditions cf) = inr (f, cl) /\
    new_bin (cf_mutation_lvl cf) = inr m /\ new_newgen ngm (cf_transfer cf) = inr ng /\
    c = mkComps f sel OnePoint m ng /\
    gd0 = new_gadata true (cf_num_generations cf) (cf_children_percent cf) (resolved_stop cf) p'.
(** Whenever the objective answers a tuple for [pt] it is [F pt], of [n] values. *)
Definition tuples (cf : config) (F : list gv -> list Q) (n : nat) : Prop :=
  (forall pt, length (F pt) = n) /\ forall k pt v, answers (cf_objective cf) None k pt (inr (OTuple v)) -> v = F pt.
Lemma tuples_steady : forall cf F n, tuples cf F n -> steady (cf_objective cf) F /\ sized (fun _ => True) F n.
Proof.
  intros cf F n [H1 H2]. split; [intros k genes v H; apply (H2 k); apply one_arg_answers; exact H|]. intros genes. split; [apply H1|]. apply Forall_forall. auto.
Qed.

Lemma mlaunched_first : forall cf gray gens bp fk sel ngm s c gd0 s0, mlaunched cf (GenBinary gray (gens : list bgene) bp) fk sel ngm s c gd0 s0 ->
  multi_started gd0 s0 /\ num_individ (population gd0) = cf_num_individ cf /\ children_percent gd0 = cf_children_percent cf /\
  num_generations gd0 = cf_num_generations cf /\ early_stop gd0 = resolved_stop cf /\ log s0 = log s /\
  prepare (GenBinary gray (gens : list bgene) bp) = inr (gspec_of (population gd0)) /\
  Z.of_nat (length (members (population gd0))) = Z.max 0 (cf_num_individ cf).
Proof.
  intros cf gray gens bp fk sel ngm s c gd0 s0 (p & s1 & p' & f & cl & m & ng & Sp & Ds & Fi & Nf & Nm & Nn & -> & ->).
  split; [exists (cf_num_individ cf), gray, (gens : list bgene), bp, (cf_input_population cf), p, s1, p', (cf_num_generations cf), (cf_children_percent cf), (resolved_stop cf); auto|].
  destruct (set_params_ok _ _ _ _ _ _ _ Sp Fi) as (Pg' & Np & _ & Lm). split; auto. split; auto. split; auto. split; auto. split; auto.
  apply extends_do_seed in Ds. destruct Ds as ((_ & L1 & _) & _). apply fill_ok in Fi. destruct Fi as (g'' & _ & K). cbv zeta in K. destruct K as (_ & _ & (_ & L2 & _) & _). congruence.
Qed.

Lemma front_some : forall F n h l front, (forall pt : list gv, length (F pt) = n) -> l <> [] -> front_first F h l front -> front <> [].
Proof.
  intros F n h l front Sz Nl (rest & El & A & B) ->. cbn [app] in El. subst rest.
  destruct (minimal (fun _ => True) Qorder F l n (phen h)) with (xs := l) as (r & Ir & Hr); [intros; split; [apply Sz|apply Forall_forall; auto]|apply incl_refl|auto|].
  destruct (B r Ir) as (y & Iy & D). assert (dom F (phen h) y r = true) by (apply dom_true; auto). rewrite Hr in H by auto. discriminate.
Qed.

(** Generations count from a launched state. *)
Lemma multi_worth : forall fuel cf gray gens fk sel ngm s n0 m F n T Y q w eta Inv,
  Forall legal gens -> tuples cf F n -> is_multi_kind fk = true -> objectives_ok sel ->
  (forall gd k, num_individ (population gd) = cf_num_individ cf -> children_percent gd = cf_children_percent cf -> num_pairs sel gd k -> (1 <= k)%nat) ->
  full_length cf -> 1 <= cf_num_individ cf -> rnd_seed s = None -> (n0 <= length (log s))%nat ->
  new_bin (cf_mutation_lvl cf) = inr m ->
  (forall bp, @get_gens_params Qops gens = inr bp -> may_hit T Y m (@GenBinary Qops gray gens bp) q) -> (0 <= q)%Q -> (0 <= w)%Q -> (0 <= eta)%Q ->
  mbounded_wait (fun _ => True) F n Inv fuel w eta ->
  (forall t e c gd0 s0 gd1 s1, mlaunched cf (GenBinary gray (gens : list bgene) bparams0) fk sel ngm (set_source t e s) c gd0 s0 ->
     multi_objective (fun _ => True) c F n -> first_generation (c_fitness c) gd0 s0 = Ok gd1 s1 -> Inv c gd1 s1) ->
  at_most s (worth Y n0 1 0 w) (ga_optimize fuel cf true (GenBinary gray (gens : list bgene) bparams0) fk sel OnePoint new_bin ngm)
    (qpow q (later_generations cf) + inject_Z (Z.of_nat (later_generations cf)) * eta).
Proof.
  intros fuel cf gray gens fk sel ngm s n0 m F n T Y q w eta Inv Lg Tu Mk Ho Np [Hng Hes] H1n Hs Ln Nm MH Hq Hw He BW HI.
  destruct (tuples_steady _ _ _ Tu) as [Sy Sz].
  set (k := later_generations cf). set (K := (qpow q k + inject_Z (Z.of_nat k) * eta)%Q).
  assert (Kp : (0 <= K)%Q).
  { unfold K. assert (0 <= qpow q k)%Q by (apply qpow_nonneg; auto). assert (0 <= inject_Z (Z.of_nat k) * eta)%Q by (apply Qmult_le_0_compat; auto; unfold Qle; cbn; lia). lra. }
  assert (Pre : forall {A B} (x : M A) (h : A -> M B) s1, treelike x -> fuelless x -> rnd_seed s1 = None ->
    (forall a s2, arises x s1 (Ok a s2) -> rnd_seed s2 = None -> at_most s2 (worth Y n0 1 0 w) (h a) K) -> at_most s1 (worth Y n0 1 0 w) (bind x h) K).
  { intros A B x h s1 Tx Fx Hs1 Hh. apply (am_bind s1 _ _ _ (fun _ _ => K)).
    - apply tree_bound; auto. intros o Ho'. destruct o; cbn [worth]; [apply Qle_refl|exact Kp|exfalso; exact (arises_fuel _ _ Fx Ho')].
    - intros a s2 Ho'. apply Hh; auto. eapply arises_seedless; eauto. }
  unfold ga_optimize.
  apply Pre; auto; [apply tr_do_seed|apply fl_do_seed|]. intros u s1 A1 H1. destruct u.
  apply Pre; auto; [apply tr_lift|apply fl_lift|]. intros p s2 A2 H2.
  apply Pre; auto; [apply tr_lift|apply fl_lift|]. intros fc s3 A3 H3.
  apply Pre; auto; [apply tr_lift|apply fl_lift|]. intros m0 s4 A4 H4.
  apply Pre; auto; [apply tr_lift|apply fl_lift|]. intros ng s5 A5 H5.
  apply Pre; auto; [apply tr_fill|apply fl_fill|]. intros p' s6 A6 H6.
  cbv zeta. set (gd0 := new_gadata true (cf_num_generations cf) (cf_children_percent cf) (resolved_stop cf) p').
  set (c := mkComps (fst fc) sel OnePoint m0 ng).
  assert (La : forall t6 e6, exists t e, mlaunched cf (GenBinary gray (gens : list bgene) bparams0) fk sel ngm (set_source t e s) c gd0 (set_source t6 e6 s6)).
  { intros t6 e6. destruct (A6 t6 e6) as (t5 & e5 & E6). destruct (A5 t5 e5) as (t4 & e4 & E5). destruct (A4 t4 e4) as (t3 & e3 & E4).
    destruct (A3 t3 e3) as (t2 & e2 & E3). destruct (A2 t2 e2) as (t1 & e1 & E2). destruct (A1 t1 e1) as (t0 & e0 & E1). cbn [with_source] in *.
    apply lift_ok in E2. destruct E2 as [Sp X2]. apply lift_ok in E3. destruct E3 as [Nf X3]. apply lift_ok in E4. destruct E4 as [Nm' X4]. apply lift_ok in E5. destruct E5 as [Nn X5].
    exists t0, e0, p, (set_source t1 e1 s1), p', (fst fc), (snd fc), m0, ng. split; [exact Sp|]. split; [exact E1|].
    split; [rewrite <- E6; f_equal; congruence|]. split; [rewrite Nf; destruct fc; reflexivity|]. split; [exact Nm'|]. split; [exact Nn|]. split; reflexivity. }
  apply (am_bind s6 _ _ _ (fun r s' => unseen Y n0 s')).
  - apply (am_weaken s6 (worth Y n0 1 0 w) _ _ K); [|intros o _; destruct o; cbn [worth]; try apply Qle_refl; apply Qle_lteq; right; ring|apply Qle_refl].
    unfold run_loop.
    apply Pre; auto; [apply tr_fitness_execute|apply fl_fitness_execute|]. intros u s7 A7 H7.
    apply Pre; auto; [apply tr_update|apply fl_update|]. intros gd1 s8 A8 H8.
    destruct (A8 (tape s8) (ent s8)) as (t7 & e7 & E8). destruct (A7 t7 e7) as (t6 & e6 & E7). cbn [with_source] in E7, E8. rewrite source_same in E8.
    destruct (La t6 e6) as (t & e & L). clear La A1 A2 A3 A4 A5 A6 A7 A8.
    assert (Fg : first_generation (c_fitness c) gd0 (set_source t6 e6 s6) = Ok gd1 s8) by (unfold first_generation, bind; rewrite E7; exact E8).
    destruct (mlaunched_first _ _ _ _ _ _ _ _ _ _ _ L) as (St & En & Ecp & Eng & Ees & El & Pg & Len).
    pose proof L as (p1 & s11 & p1' & f1 & cl1 & m1 & ng1 & Sp1 & Ds1 & Fi1 & Nf1 & Nm1 & Nn1 & Ec1 & Eg1).
    assert (Em : m0 = m) by (inversion Ec1; congruence).
    assert (Mo : multi_objective (fun _ => True) c F n).
    { assert (A : fkind f1 = fk /\ obj_function f1 = cf_objective cf).
      { unfold new_fitness in Nf1. destruct (cf_penalty cf); [inversion Nf1; auto| |discriminate]. destruct (_ <=? 1); [inversion Nf1; auto|].
        destruct (is_multi_kind fk); [|destruct (index_of "optimize" _)]; inversion Nf1; auto. }
      destruct A as (A1 & A2). rewrite Ec1. repeat split; cbn [c_fitness c_selection]; [rewrite A1; exact Mk|rewrite A2; exact Sy|apply Sz|apply Sz|exact Ho]. }
    assert (BinG : exists bp, @get_gens_params Qops gens = inr bp /\ gspec_of (population gd0) = @GenBinary Qops gray gens bp).
    { cbn [prepare] in Pg. destruct (@get_gens_params Qops gens) as [e0|bp]; inversion Pg. eauto. }
    destruct BinG as (bp & Gp & Egs).
    assert (Pi : pop_in gd0 (set_source t6 e6 s6)).
    { rewrite Eg1. pose proof (fill_in (cf_num_individ cf) _ _ p1 s11 p1' (set_source t6 e6 s6) (cf_num_generations cf) (cf_children_percent cf) (resolved_stop cf) eq_refl Sp1 Fi1) as X. apply X.
      intros x geno Ix E. assert (Eg' : gspec_of p1' = @GenBinary Qops gray gens bp) by (rewrite Eg1 in Egs; exact Egs). rewrite Eg' in *.
      eapply box_inputs; [exact Lg| |exact E]. cbn [prepare]. rewrite Gp. reflexivity. }
    destruct Mo as (Mk1 & Sy1 & Sz1 & Ho1).
    destruct (multi_first_ok (fun _ => True) F n (c_fitness c) gd0 _ gd1 s8 Qorder counting_exact Mk1 Sy1 Sz1 (multi_started_init _ _ St) Fg) as (h2 & rc & cs & front & Fi & Mi).
    destruct (mfirst_in _ _ _ _ _ _ _ _ _ _ Fi (multi_started_init _ _ St) Pi) as (Pi1 & _).
    destruct (mf_params _ _ _ _ _ _ _ _ _ _ Fi) as (P1 & P2 & P3). pose proof (mf_pop _ _ _ _ _ _ _ _ _ _ Fi) as Epop.
    assert (Bel : belongs OnePoint m (@GenBinary Qops gray gens bp)).
    { assert (Eb : m = MutBin (cf_mutation_lvl cf)); [|rewrite Eb; constructor; [discriminate|exact I]].
      clear - Nm. unfold new_bin in Nm. destruct (cf_mutation_lvl cf) as [st|x|]; [|destruct (out_of_01 x); inversion Nm; auto|discriminate]. destruct (_ || _); inversion Nm; auto. }
    assert (Li : mlight (fun _ => True) F n c gd1 s8).
    { split; [repeat split; auto; apply Sz1|]. split; [exact Mi|]. split; [exact Pi1|]. split.
      - rewrite Epop. cbn [gspec_of set_members]. rewrite Egs. unfold c. cbn [c_crossover c_mutation]. rewrite Em. exact Bel.
      - intros k0 Hk0. apply (Np gd1); [rewrite Epop; exact En|congruence|exact Hk0]. }
    assert (Es : exists e, early_stop gd1 = Some e /\ Z.max 0 (no_improve gd1) + Z.of_nat k <= e).
    { assert (Bn : no_improve gd1 = 0).
      { rewrite (mf_no_improve _ _ _ _ _ _ _ _ _ _ Fi). destruct front as [|r0 front]; [|reflexivity]. exfalso.
        apply (front_some F n (heap s8) (members (population gd1)) []); [apply Sz| |apply (mf_front _ _ _ _ _ _ _ _ _ _ Fi)|reflexivity].
        intros C. pose proof (Permutation_length (mf_perm _ _ _ _ _ _ _ _ _ _ Fi)) as Pl. rewrite C in Pl. cbn [length] in Pl. lia. }
      rewrite P2, Ees. unfold resolved_stop, k, later_generations. destruct (cf_early_stop cf) as [e1|]; [specialize (Hes e1 eq_refl)|]; eexists; (split; [reflexivity|]); rewrite Bn; lia. }
    destruct Es as (es & Es & Hn).
    rewrite P1, Eng. change (Z.to_nat (cf_num_generations cf - 1)) with k.
    eapply am_weaken; [eapply (mloop_worth (fun _ => True) Qorder counting_exact F n T Y n0 Inv fuel w q eta Hq He BW k c gd1 s8 es Li H8); eauto| |].
    + apply (HI t e c gd0 (set_source t6 e6 s6)); auto. repeat split; auto; apply Sz1.
    + unfold c. cbn [c_mutation]. rewrite Em, Epop. cbn [gspec_of set_members]. rewrite Egs. apply MH. exact Gp.
    + rewrite (mf_log _ _ _ _ _ _ _ _ _ _ Fi), !app_length, El. cbn [log set_source set_ent set_tape]. lia.
    + intros o _. apply Qle_refl.
    + unfold K. destruct (unseen_bounds Y n0 s8) as [U0 U1]. assert (0 <= qpow q k)%Q by (apply qpow_nonneg; auto).
      assert (qpow q k * unseen Y n0 s8 <= qpow q k * 1)%Q by (rewrite !(Qmult_comm (qpow q k)); apply Qmult_le_compat_r; auto). lra.
  - intros [c' gd'] s7 A7. cbn [snd]. apply tree_bound.
    + apply tr_bind; [|intros; apply tr_ret]. destruct (cf_is_print cf); [|apply tr_ret]. unfold print_best_solution. destruct (best_solution gd') as [|i0 k0|l0 [k0|]]; try apply tr_raise; try apply tr_ret.
      apply tr_miter. intros a. destruct (phenotype a); [apply tr_ret|apply tr_raise].
    + eapply arises_seedless; [|exact H6|exact A7]. unfold run_loop. apply tr_bind; [apply tr_fitness_execute|]. intros. apply tr_bind; [apply tr_update|]. intros. apply tr_ga_loop.
    + intros o Ho'. destruct o as [x s8|x|]; cbn [worth].
      * destruct (Ho' (tape s8) (ent s8)) as (t7 & e7 & E7). cbn [with_source] in E7. rewrite source_same in E7. bd E7 u s9 R. apply ret_ok in E7. destruct E7 as [-> ->].
        assert (s9 = set_source t7 e7 s7) as ->. { destruct (cf_is_print cf); [eapply print_ok; eauto|]. apply ret_ok in R. destruct R; auto. }
        apply Qle_lteq. right. change (unseen Y n0 (set_source t7 e7 s7)) with (unseen Y n0 s7). ring.
      * apply unseen_bounds.
      * exfalso. refine (arises_fuel _ _ _ Ho'). apply fl_bind; [|intros; apply fl_ret]. destruct (cf_is_print cf); [|apply fl_ret]. unfold print_best_solution. destruct (best_solution gd') as [|i0 k0|l0 [k0|]]; try apply fl_raise; try apply fl_ret.
        apply fl_miter. intros a. destruct (phenotype a); [apply fl_ret|apply fl_raise].
Qed.

Lemma bits_may_hit : forall gray gens ns bp lv level y Y, Forall legal gens -> Forall2 bits_for gens ns -> @get_gens_params Qops gens = inr bp ->
  update_level lv (zsum ns) = inr level -> in_grid gens y -> Y y = true ->
  exists T, may_hit T Y (MutBin lv) (@GenBinary Qops gray gens bp) (1 - qpow (flip_chance level) (Z.to_nat (zsum ns))).
Proof.
  intros gray gens ns bp lv level y Y Lg Fn Gp Ul Gy HY.
  destruct (box_prepared gray gens Lg) as (bp' & Gp' & Pg). rewrite Gp in Gp'. inversion Gp'; subst bp'. clear Gp'.
  destruct (C05_decode_in_bounds gray gens Lg) as (bp' & ns' & Gp' & En & Fb & D & Su). rewrite Gp in Gp'. inversion Gp'; subst bp'. clear Gp'.
  rewrite (bits_unique _ _ _ Fb Fn) in *. clear Fb ns'.
  destruct (@prepared_usable Qops gray gens bparams0 _ eq_refl Pg) as (bp' & Eb & Us & ps & Eps & Fps). assert (Eq : bp' = bp) by congruence. rewrite Eq in *. clear Eb Eq bp'.
  assert (El : last (idx_bits bp) 0 = zsum ns) by (rewrite Eps, idx_bits_total, <- En, zsum_fold, Eps; reflexivity).
  destruct Gy as (ms & ys & -> & Fb' & F3). rewrite (bits_unique _ _ _ Fb' Fn) in F3. destruct (Su ys F3) as (bs & Lb & Db).
  exists (bits_eqb bs). split.
  - intros x pt Tx Dx Sp. apply bits_eqb_eq in Tx. subst x. cbn [spec_point] in Sp. rewrite (decode_bits _ _ _ _ _ Db) in Sp. inversion Sp; subst pt. exact HY.
  - eexists. split; [cbn [mutator]; rewrite El, Ul; reflexivity|]. intros x s (bs' & -> & Lb').
    rewrite En in Lb'. assert (E : Z.to_nat (zsum ns) = length bs') by lia. rewrite E. apply bits_miss. lia.
Qed.
Lemma level_made : forall l : @lvl Qops, level_named l \/ level_number l -> new_bin l = inr (MutBin l).
Proof.
  intros l Hl. unfold new_bin. destruct l as [st|x|]; destruct Hl as [Hl|Hl]; try contradiction.
  - destruct Hl as [-> |[-> | ->]]; cbn; eauto.
  - unfold out_of_01. cbn in Hl. destruct (_ || _) eqn:E; [|eauto]. exfalso. apply orb_true_iff in E. cbn in E. rewrite !Qltb_iff in E.
    unfold inject_Z in E. change (@num Qops) with Q in *. destruct E; lra.
Qed.

(** What both theorems ask of a task: a grid, tuples as values, a mutation level, and
    that every generation is run. *)
Definition multi_task (cf : config) (gens : list qgene) (ns : list Z) (level : Q) (F : list gv -> list Q) (n : nat) : Prop :=
  Forall legal gens /\ Forall2 bits_for gens ns /\ tuples cf F n /\ (level_named (cf_mutation_lvl cf) \/ level_number (cf_mutation_lvl cf)) /\
  update_level (cf_mutation_lvl cf) (zsum ns) = inr level /\ full_length cf /\ 1 <= cf_num_individ cf.
Definition missing (cf : config) (ns : list Z) (level : Q) : Q := qpow (1 - qpow (flip_chance level) (Z.to_nat (zsum ns))) (later_generations cf).

Lemma multi_misses : forall fuel cf gray gens ns level fk sel ngm F n s n0 y Y w eta Inv, multi_task cf gens ns level F n -> is_multi_kind fk = true -> objectives_ok sel ->
  (forall gd k, num_individ (population gd) = cf_num_individ cf -> children_percent gd = cf_children_percent cf -> num_pairs sel gd k -> (1 <= k)%nat) ->
  rnd_seed s = None -> (n0 <= length (log s))%nat -> in_grid gens y -> Y y = true -> (0 <= w)%Q -> (0 <= eta)%Q ->
  mbounded_wait (fun _ => True) F n Inv fuel w eta ->
  (forall t e c gd0 s0 gd1 s1, mlaunched cf (GenBinary gray (gens : list bgene) bparams0) fk sel ngm (set_source t e s) c gd0 s0 ->
     multi_objective (fun _ => True) c F n -> first_generation (c_fitness c) gd0 s0 = Ok gd1 s1 -> Inv c gd1 s1) ->
  at_most s (worth Y n0 1 0 w) (ga_optimize fuel cf true (GenBinary gray (gens : list bgene) bparams0) fk sel OnePoint new_bin ngm)
    (missing cf ns level + inject_Z (Z.of_nat (later_generations cf)) * eta).
Proof.
  intros fuel cf gray gens ns level fk sel ngm F n s n0 y Y w eta Inv (Lg & Fn & Tu & Hl & Ul & Fl & H1) Mk Ho Np Hs Ln Gy HY Hw He BW HI.
  destruct (box_prepared gray gens Lg) as (bp & Gp & Pg).
  destruct (bits_may_hit gray gens ns bp _ level y Y Lg Fn Gp Ul Gy HY) as (T & MH).
  unfold missing. eapply multi_worth with (T := T); eauto.
  - apply level_made. exact Hl.
  - intros bp' Gp'. rewrite Gp in Gp'. inversion Gp'; subst bp'. exact MH.
  - destruct (flip_range level) as [R0 R1]. pose proof (qpow_le_one _ (Z.to_nat (zsum ns)) R0 R1). lra.
Qed.

Lemma ffga_pairs : forall (cf : config) gd k, num_individ (population gd) = cf_num_individ cf -> children_percent gd = cf_children_percent cf ->
  1 <= Qtrunc (cf_children_percent cf * inject_Z (cf_num_individ cf)) -> num_pairs SelBalanced gd k -> k = Z.to_nat (Qtrunc (cf_children_percent cf * inject_Z (cf_num_individ cf))) /\ (1 <= k)%nat.
Proof.
  intros cf gd k En Ecp Hc (x & Hx & ->). assert (P : pairs_wanted None gd (Qtrunc (cf_children_percent cf * inject_Z (cf_num_individ cf)))) by (cbn [pairs_wanted]; rewrite Ecp, En; reflexivity).
  rewrite (pairs_wanted_fun _ _ _ _ Hx P). split; auto. lia.
Qed.

(** C85.  When FFGA returns, it has evaluated the point [y] of the grid except with
    probability (1 - d)^(N - 1), as in C82. *)
Theorem C85_ffga : forall fuel cf gray gens ns level F n s y Y, multi_task cf gens ns level F n ->
  1 <= Qtrunc (cf_children_percent cf * inject_Z (cf_num_individ cf)) -> rnd_seed s = None -> in_grid gens y -> Y y = true ->
  exists p, probability (ffga fuel cf gray (gens : list bgene)) s (returns_without s Y) p /\ (p <= missing cf ns level)%Q.
Proof.
  intros fuel cf gray gens ns level F n s y Y Mt Hc Hs Gy HY. unfold ffga.
  eapply am_weaken; [eapply (multi_misses fuel cf gray gens ns level Ffga SelBalanced true F n s (length (log s)) y Y 0 0 (fun _ _ _ => True)); eauto| |].
  - exact I.
  - intros gd k En Ecp K. apply (ffga_pairs cf gd k En Ecp Hc K).
  - apply Qle_refl.
  - apply Qle_refl.
  - apply mwaits_any.
  - intros o _. destruct o as [x s'|x|]; cbn [returns_without worth indicator]; [|apply Qle_refl|apply Qle_refl].
    unfold unseen, seen, new_calls. apply Qle_lteq. right. ring.
  - apply Qle_lteq. right. ring.
Qed.
(** So has VEGA, which may call the objective on a list of zeros first. *)
Theorem C85_vega : forall fuel cf gray gens ns level F n s y Y, multi_task cf gens ns level F n ->
  (1 <= rounds cf n)%nat -> 1 <= Qtrunc (cf_children_percent cf * inject_Z (cf_num_individ cf) / inject_Z (Z.of_nat (rounds cf n))) ->
  rnd_seed s = None -> in_grid gens y -> Y y = true ->
  exists p, probability (vega fuel cf gray (gens : list bgene)) s (returns_without s Y) p /\ (p <= missing cf ns level)%Q.
Proof.
  intros fuel cf gray gens ns level F n s y Y Mt Hr Hc Hs Gy HY. unfold vega.
  assert (M0 : (0 <= missing cf ns level)%Q).
  { unfold missing. apply qpow_nonneg. destruct (flip_range level) as [R0 R1]. pose proof (qpow_le_one _ (Z.to_nat (zsum ns)) R0 R1). lra. }
  eapply am_weaken; [apply (am_bind s (worth Y (length (log s)) 1 0 0) _ _ (fun _ _ => missing cf ns level) (missing cf ns level))| |apply Qle_refl].
  - apply tree_bound; auto.
    + destruct (cf_conditions cf); [apply tr_ret|]. apply tr_bind; [|intros; apply tr_ret]. unfold call_list, call1. apply tr_bind; [destruct (cf_objective cf); first [apply tr_logged|apply tr_raise]|]. intros [x|l]; [apply tr_raise|apply tr_ret].
    + intros o _. destruct o; cbn [worth]; [apply Qle_refl|exact M0|exact M0].
  - intros m s1 A1. assert (Em : m = Z.of_nat (rounds cf n) /\ (length (log s) <= length (log s1))%nat /\ rnd_seed s1 = None).
    { destruct (A1 (tape s1) (ent s1)) as (t1 & e1 & E1). cbn [with_source] in E1. rewrite source_same in E1. unfold rounds, optimizes.
      destruct (cf_conditions cf) as [cl|] eqn:Ec; [apply ret_ok in E1; destruct E1 as [-> ->]; auto|].
      bd E1 v s2 R. apply ret_ok in E1. destruct E1 as [-> ->].
      unfold call_list in R. bd R v0 s3 R0. apply call1_ok in R0. destruct R0 as [Ea ->]. destruct v0 as [x|l]; [discriminate|]. apply ret_ok in R. destruct R as [-> ->].
      cbn [log set_log set_source set_ent set_tape rnd_seed length]. split; [|split; [lia|exact Hs]].
      destruct Mt as (_ & _ & (Fl & Fs) & _). apply one_arg_answers in Ea. rewrite (Fs _ _ _ Ea), Fl. reflexivity. }
    destruct Em as (-> & Ll & Hs1). set (q := rounds cf n) in *.
    eapply am_weaken; [eapply (multi_misses fuel cf gray gens ns level VegaHyperbola (SelVegaTournament (Z.of_nat q) 3) false F n s1 (length (log s)) y Y 0 0 (fun _ _ _ => True)); eauto| |].
    + exact I.
    + intros gd k En Ecp (x & Hx & ->). rewrite Nat2Z.id. specialize (Hx ltac:(lia)).
      assert (Pw : pairs_wanted (Some (Z.of_nat q)) gd (Qtrunc (cf_children_percent cf * inject_Z (cf_num_individ cf) / inject_Z (Z.of_nat q)))).
      { cbn [pairs_wanted]. eexists. split; [|reflexivity]. rewrite Ecp, En. unfold py_div. cbn. destruct (Qeq_bool _ _) eqn:E; [|reflexivity].
        apply Qeq_bool_eq in E. unfold Qeq in E. cbn in E. lia. }
      rewrite (pairs_wanted_fun _ _ _ _ Hx Pw). nia.
    + apply Qle_refl.
    + apply Qle_refl.
    + apply mwaits_any.
    + intros o _. apply Qle_refl.
    + apply Qle_lteq. right. ring.
  - intros o _. destruct o as [x s'|x|]; cbn [returns_without worth indicator]; [|apply Qle_refl|apply Qle_refl].
    unfold unseen, seen, new_calls. apply Qle_lteq. right. ring.
Qed.

(** *** The reported set *)
Fixpoint all_le (a b : list Q) : bool :=
  match a, b with
  | [], [] => true
  | x :: a', y :: b' => Qle_bool x y && all_le a' b'
  | _, _ => false
  end.
(** The run returns, and every individual it reports has a value that exceeds the one in [z]. *)
Definition front_misses {A} (z : list Q) (o : outcome (gadata * A)) : bool :=
  match o with
  | Ok (gd, _) _ => match best_solution gd with
                    | BPareto set _ => negb (existsb (fun i => match obj_score i with SVL a => all_le a z | _ => false end) set)
                    | _ => true
                    end
  | _ => false
  end.
Definition misses_or_lost {A} (z : list Q) (o : outcome (gadata * A)) : bool :=
  match o with Ok _ _ => front_misses z o | _ => true end.
Lemma all_le_refl : forall a, all_le a a = true.
Proof. induction a as [|x a IH]; cbn; auto. rewrite IH, andb_true_r. apply Qle_bool_iff. apply Qle_refl. Qed.
Lemma all_le_trans : forall a b c, length a = length b -> no_greater (a : list (@num Qops)) b -> all_le b c = true -> all_le a c = true.
Proof.
  induction a as [|x a IH]; intros [|y b] [|z c] L N H; try discriminate; auto. cbn in L, N. destruct N as [N1 N2]. cbn [all_le] in *. apply andb_true_iff in H. destruct H as [H1 H2].
  apply andb_true_iff. split; [|apply (IH b); auto]. apply Qle_bool_iff in H1. apply Qle_bool_iff.
  destruct (Qlt_le_dec y x) as [C|C]; [apply Qltb_iff in C; congruence|]. eapply Qle_trans; eauto.
Qed.

Lemma mlaunched_run : forall fuel cf gray gens fk sel ngm s gd' cl s',
  ga_optimize fuel cf true (GenBinary gray (gens : list bgene) bparams0) fk sel OnePoint new_bin ngm s = Ok (gd', cl) s' ->
  exists c gd0 s0 k c', mlaunched cf (GenBinary gray (gens : list bgene) bparams0) fk sel ngm s c gd0 s0 /\ at_generation fuel c gd0 s0 k c' gd' s'.
Proof.
  intros fuel cf gray gens fk sel ngm s gd' cl s' H. unfold ga_optimize in H.
  bd H u s1 R1. destruct u. bd H p sx R2. apply lift_ok in R2. destruct R2 as [Sp ->].
  bd H fc sy R3. apply lift_ok in R3. destruct R3 as [Nf ->]. bd H mt sz R4. apply lift_ok in R4. destruct R4 as [Nm ->].
  bd H ng sw R5. apply lift_ok in R5. destruct R5 as [Nn ->]. bd H p' s2 R6. cbv zeta in H. bd H r s3 R7. destruct r as [c' gd1].
  bd H u1 s4 R8. apply ret_ok in H. destruct H as [E ->]. inversion E; subst gd1 cl. clear E. destruct fc as [f cl].
  cbn [fst snd] in *.
  assert (s4 = s3) as -> by (destruct (cf_is_print cf); [eapply print_ok; eauto|apply ret_ok in R8; destruct R8; auto]).
  apply run_ends in R7. destruct R7 as (k & At).
  exists (mkComps f sel OnePoint mt ng), (new_gadata true (cf_num_generations cf) (cf_children_percent cf) (resolved_stop cf) p'), s2, k, c'.
  split; auto. exists p, s1, p', f, cl, mt, ng. auto 10.
Qed.
Lemma mlaunched_objective : forall cf gray gens fk sel ngm F n s c gd0 s0, tuples cf F n -> is_multi_kind fk = true -> objectives_ok sel ->
  mlaunched cf (GenBinary gray (gens : list bgene) bparams0) fk sel ngm s c gd0 s0 -> multi_objective (fun _ => True) c F n /\ fkind (c_fitness c) = fk /\ c_selection c = sel.
Proof.
  intros cf gray gens fk sel ngm F n s c gd0 s0 Tu Mk Ho (p & s1 & p' & f & cl & m & ng & Sp & Ds & Fi & Nf & Nm & Nn & -> & ->).
  destruct (tuples_steady _ _ _ Tu) as [Sy Sz].
  assert (A : fkind f = fk /\ obj_function f = cf_objective cf).
  { unfold new_fitness in Nf. destruct (cf_penalty cf); [inversion Nf; auto| |discriminate]. destruct (_ <=? 1); [inversion Nf; auto|].
    destruct (is_multi_kind fk); [|destruct (index_of "optimize" _)]; inversion Nf; auto. }
  destruct A as (A1 & A2). cbn [c_fitness c_selection]. split; [|auto]. repeat split; cbn [c_fitness c_selection]; [rewrite A1; exact Mk|rewrite A2; exact Sy|apply Sz|apply Sz|exact Ho].
Qed.
Lemma members_left : forall fuel cf gray gens fk ngm F n s gd' cl s', tuples cf F n -> is_multi_kind fk = true -> 1 <= cf_num_individ cf ->
  1 <= Qtrunc (cf_children_percent cf * inject_Z (cf_num_individ cf)) ->
  ga_optimize fuel cf true (GenBinary gray (gens : list bgene) bparams0) fk SelBalanced OnePoint new_bin ngm s = Ok (gd', cl) s' -> members (population gd') <> [].
Proof.
  intros fuel cf gray gens fk ngm F n s gd' cl s' Tu Mk H1 Hc H. apply mlaunched_run in H. destruct H as (c & gd0 & s0 & k & c' & La & gd1 & s1 & Fg & S).
  destruct (mlaunched_objective _ _ _ _ SelBalanced _ F n _ _ _ _ Tu Mk I La) as (Mo & _ & Es).
  destruct (mlaunched_first _ _ _ _ _ _ _ _ _ _ _ La) as (St & En & Ecp & _ & _ & _ & _ & Len).
  set (Inv := fun (_ : comps) (gd : gadata) (_ : st) => members (population gd) <> [] /\ num_individ (population gd) = cf_num_individ cf /\ children_percent gd = cf_children_percent cf).
  destruct (multi_run_inv (fun _ => True) Qorder counting_exact F n fuel Inv c gd0 s0 gd1 s1 Mo (multi_started_init _ _ St) Fg) with (k := k) (c' := c') (gd' := gd') (s' := s') as (_ & _ & X & _); auto.
  - intros h2 rc cs front Fi _. destruct (mf_params _ _ _ _ _ _ _ _ _ _ Fi) as (_ & _ & P3). pose proof (mf_pop _ _ _ _ _ _ _ _ _ _ Fi) as Ep. split; [|split; [rewrite Ep; exact En|congruence]].
    intros C. pose proof (Permutation_length (mf_perm _ _ _ _ _ _ _ _ _ _ Fi)) as Pl. rewrite C in Pl. cbn [length] in Pl. lia.
  - intros c1 gd2 s2 c2 gd3 s3 kids els h1 h2 rc cs front (_ & E2 & _) _ (_ & N1 & N2) Ms _. destruct (ms_params _ _ _ _ _ _ _ _ _ _ _ _ _ _ Ms) as (_ & _ & P3).
    pose proof (ms_pop _ _ _ _ _ _ _ _ _ _ _ _ _ _ Ms) as Ep. split; [|split; [rewrite Ep; exact N1|congruence]].
    pose proof (ms_count _ _ _ _ _ _ _ _ _ _ _ _ _ _ Ms) as Ct. rewrite E2, Es in Ct. destruct (ffga_pairs cf gd2 _ N1 N2 Hc Ct) as [_ L].
    intros C. pose proof (Permutation_length (ms_perm _ _ _ _ _ _ _ _ _ _ _ _ _ _ Ms)) as Pl. rewrite C, app_length in Pl. cbn [length] in Pl. lia.
Qed.
Lemma front_seen : forall fuel cf gray gens F n s gd' cl s' y, tuples cf F n -> 1 <= cf_num_individ cf ->
  1 <= Qtrunc (cf_children_percent cf * inject_Z (cf_num_individ cf)) ->
  cf_transfer cf = "best" -> cf_penalty cf = PNone -> (match cf_input_data cf with Some d => truthy d = false | None => True end) ->
  ffga fuel cf gray (gens : list bgene) s = Ok (gd', cl) s' ->
  existsb (fun call => all_le (F (fst call)) (F y)) (new_calls s s') = true -> front_misses (F y) (Ok (gd', cl) s') = false.
Proof.
  intros fuel cf gray gens F n s gd' cl s' y Tu H1 Hc Tr Pn Dt H Ex. destruct (tuples_steady _ _ _ Tu) as [Sy Sz].
  destruct (C72_ffga (fun _ => True) Qorder counting_exact F n fuel cf gray gens s gd' cl s' Sy Sz Tr Pn Dt H) as (calls & set & g & El & Eb & Es & K).
  { eapply (members_left fuel cf gray gens Ffga true F n); eauto. }
  assert (En : new_calls s s' = calls). { unfold new_calls. rewrite El, app_length. replace (length calls + length (log s) - length (log s))%nat with (length calls + 0)%nat by lia. rewrite firstn_app_2. cbn. apply app_nil_r. }
  rewrite En in Ex. apply existsb_exists in Ex. destruct Ex as ([pt v] & Iv & Ev). cbn [fst] in Ev. destruct (K _ _ Iv) as (_ & i & Ii & N).
  cbn [front_misses]. rewrite Eb. apply negb_false_iff. apply existsb_exists. exists i. split; auto. rewrite (Es i Ii). apply (all_le_trans _ (F pt)); auto. destruct Tu as [Fl _]. rewrite !Fl. reflexivity.
Qed.

(** Reported sets of runs that return. *)
Theorem C85_ffga_front : forall fuel cf gray gens ns level F n s y, multi_task cf gens ns level F n ->
  1 <= Qtrunc (cf_children_percent cf * inject_Z (cf_num_individ cf)) -> rnd_seed s = None -> in_grid gens y ->
  cf_transfer cf = "best" -> cf_penalty cf = PNone -> (match cf_input_data cf with Some d => truthy d = false | None => True end) ->
  exists p, probability (ffga fuel cf gray (gens : list bgene)) s (front_misses (F y)) p /\ (p <= missing cf ns level)%Q.
Proof.
  intros fuel cf gray gens ns level F n s y Mt Hc Hs Gy Tr Pn Dt. pose proof Mt as (_ & _ & Tu & _ & _ & _ & H1).
  eapply am_weaken; [apply (C85_ffga fuel cf gray gens ns level F n s y (fun pt => all_le (F pt) (F y))); auto; apply all_le_refl| |apply Qle_refl].
  intros o Ho. destruct o as [[gd' cl] s'|x|]; cbn [returns_without]; [|apply Qle_refl|apply Qle_refl].
  destruct (existsb _ (new_calls s s')) eqn:E; [|apply indicator_bounds].
  destruct (Ho (tape s') (ent s')) as (t & e & R). cbn [with_source] in R. rewrite source_same in R.
  rewrite (front_seen fuel cf gray gens F n (set_source t e s) gd' cl s' y Tu H1 Hc Tr Pn Dt R E). apply Qle_refl.
Qed.

(** *** The searches for a second parent *)
Lemma inject_pred : forall n, (inject_Z (n - 1) == inject_Z n - 1)%Q.
Proof. intros n. unfold Qeq. cbn. lia. Qed.
Lemma rest_sum : forall (lo : Q) ws i, (i < length ws)%nat -> Forall (fun w => lo <= w)%Q ws -> (nth i ws 0 + inject_Z (Z.of_nat (length ws) - 1) * lo <= qsum ws)%Q.
Proof.
  assert (All : forall (lo : Q) ws, Forall (fun w => lo <= w)%Q ws -> (inject_Z (Z.of_nat (length ws)) * lo <= qsum ws)%Q).
  { intros lo ws H. induction H as [|x ws Hx H IH]; cbn [qsum length]; [change (inject_Z (Z.of_nat 0)) with 0%Q; lra|].
    rewrite Nat2Z.inj_succ. unfold Z.succ. rewrite inject_Z_plus. change (inject_Z 1) with 1%Q. lra. }
  intros lo ws. induction ws as [|x ws IH]; intros i Hi H; cbn [length] in *; [lia|]. inversion H as [|? ? Hx Hw]; subst. cbn [qsum].
  replace (Z.of_nat (S (length ws)) - 1) with (Z.of_nat (length ws)) by lia. destruct i as [|i]; cbn [nth]; [specialize (All lo ws Hw); lra|].
  specialize (IH i ltac:(lia) Hw). rewrite inject_pred in IH. lra.
Qed.
(** Weights between 1 / (P + 2) and 1 / 2: no share exceeds 2 / 3. *)
Definition even_weights (ws : list Q) : Prop := (2 <= length ws)%nat /\ Forall (fun w => 1 / inject_Z (Z.of_nat (length ws) + 2) <= w /\ w <= 1 # 2)%Q ws.
Lemma even_positive : forall ws, even_weights ws -> ws <> [] /\ Forall (fun w => 0 < w)%Q ws.
Proof.
  intros ws [L H]. split; [intros ->; cbn in L; lia|]. eapply Forall_impl; [|exact H]. cbv beta. intros w [H1 _]. eapply Qlt_le_trans; [|exact H1]. apply Qlt_shift_div_l; [unfold Qlt; cbn; lia|lra].
Qed.
Lemma even_share : forall ws i, even_weights ws -> (i < length ws)%nat -> (nth i ws 0 / qsum ws <= 2 # 3)%Q.
Proof.
  intros ws i E Hi. destruct (even_positive ws E) as [Ne Fp]. pose proof (qsum_pos ws Ne Fp) as Sp. destruct E as [L H].
  set (P := inject_Z (Z.of_nat (length ws))). assert (P2 : (2 <= P)%Q) by (unfold P; change 2%Q with (inject_Z 2); rewrite <- Zle_Qle; lia).
  assert (R := rest_sum (1 / inject_Z (Z.of_nat (length ws) + 2)) ws i Hi). assert (F : Forall (fun w => 1 / inject_Z (Z.of_nat (length ws) + 2) <= w)%Q ws) by (eapply Forall_impl; [|exact H]; cbv beta; tauto).
  specialize (R F). rewrite inject_pred, inject_Z_plus in R. fold P in R. change (inject_Z 2) with 2%Q in R.
  assert (W : (nth i ws 0 <= 1 # 2)%Q). { rewrite Forall_forall in H. apply H. apply nth_In. exact Hi. }
  assert (Q4 : (1 # 4 <= (P - 1) * (1 / (P + 2)))%Q).
  { setoid_replace ((P - 1) * (1 / (P + 2)))%Q with ((P - 1) / (P + 2))%Q by (field; lra). apply Qle_shift_div_l; lra. }
  apply Qle_shift_div_r; [exact Sp|]. lra.
Qed.
Lemma steered_index : forall sc, @steered Qops _ (get_index sc).
Proof. intros sc. unfold get_index, random_. apply rc_bind; [apply rc_bind; [apply rc_draw; reflexivity|intros; apply rc_ret]|intros; apply rc_lift]. Qed.
Lemma steered_second : forall f sc i, @steered Qops _ (second_index f sc i).
Proof. induction f as [|f IH]; intros; cbn [second_index]; [apply rc_nofuel|]. apply rc_bind; [apply steered_index|]. intros a. destruct (a =? i); [apply IH|apply rc_ret]. Qed.
Lemma balanced_pair_spent : forall (ws scores : list Q) l fuel s, even_weights ws -> selection_scores (ws : list (@num Qops)) = inr scores -> rnd_seed s = None ->
  at_most s (spent 1) (balanced_pair fuel (scores : list (@num Qops)) l) (qpow (3 # 4) fuel).
Proof.
  intros ws scores l fuel s E Es Hs. destruct (even_positive ws E) as [Ne Fp]. destruct (share_pos ws Ne Fp) as [Sn Sp].
  unfold balanced_pair. apply fuelless_bind; auto; [apply tr_index|apply fl_get_index|apply qpow_nonneg; discriminate|].
  intros i1 s1 A1. pose proof (arises_seedless _ _ _ _ (tr_index _) Hs A1) as Hs1.
  assert (I1 : exists i, i1 = Z.of_nat i /\ (i < length ws)%nat).
  { destruct (A1 (tape s1) (ent s1)) as (t1 & e1 & E1). cbn [with_source] in E1. apply get_index_ok in E1. destruct E1 as ((k & Hk & Ek) & _).
    change (@nrand Qops k) with (k # 2 ^ 53) in Ek. destruct (roulette ws (k # 2 ^ 53) Sn Sp) as (sc & i & E' & Ei & Li & _).
    - unfold Qle. cbn. lia.
    - unfold Qlt. cbn. lia.
    - rewrite Es in E'. inversion E'; subst sc. exists i. split; [congruence|auto]. }
  destruct I1 as (i & -> & Hi).
  destruct (C74_roulette ws scores s1 i Ne Fp Es Hi) as [Cp Dp]. cbv zeta in Cp, Dp. set (p := (inject_Z _ / _)%Q) in *.
  destruct (C75_second_index (scores : list (@num Qops)) s1 (Z.of_nat i) p (index_outcomes ws scores s1 Ne Fp Es) Cp) as [Ex _].
  assert (P1 : (p <= 3 # 4)%Q).
  { pose proof (even_share ws i E Hi) as Sh. apply Qabs_Qlt_condition in Dp. destruct Dp as [_ Dp]. assert (1 / inject_Z (2 ^ 53) <= 1 # 12)%Q by (vm_compute; discriminate). lra. }
  assert (P0 : (0 <= p)%Q).
  { destruct (proj2 (C27_intervals ws Ne Fp) i Hi) as (Ss & _). assert (Mo : (cshare ws i < cshare ws (S i))%Q) by (rewrite (cshare_step ws i) by auto; specialize (Sp i Hi); lra).
    unfold p. apply Qmult_le_0_compat; [|discriminate]. change 0%Q with (inject_Z 0). rewrite <- Zle_Qle.
    assert (Qceiling (cshare ws i * inject_Z (2 ^ 53)) <= Qceiling (cshare ws (S i) * inject_Z (2 ^ 53))); [|lia].
    apply Qceiling_resp_le, Qmult_le_compat_r; [apply Qlt_le_weak; auto|discriminate]. }
  apply (am_bind s1 _ _ _ (fun _ _ => 0%Q)).
  - exists (qpow p fuel). split; [|apply qpow_le; auto].
    eapply expects_ext with (f := fun o => indicator (exhausted o)).
    + eapply averages_expects; [exact (Ex fuel)|]. intros t0 e0. apply (proj1 (steered_second _ _ _)).
    + intros o _. destruct o; reflexivity.
  - intros i2 s2 A2. pose proof (arises_seedless _ _ _ _ (tr_second_index _ _ _) Hs1 A2) as Hs2. apply spent_fuelless; auto; [| |lra]; unfold pop_at.
    + repeat (apply tr_bind; [first [apply tr_alloc|apply tr_bind; [apply tr_lift_opt|intros; apply tr_get]]|intros ?]). apply tr_ret.
    + repeat (apply fl_bind; [first [apply fl_alloc|apply fl_bind; [apply fl_lift_opt|intros; apply fl_get]]|intros ?]). apply fl_ret.
Qed.
Lemma tr_probabilities : forall k idx l, @treelike Qops _ (add_probabilities k idx l).
Proof.
  intros k idx l. unfold add_probabilities. apply tr_bind; [|intros; apply tr_lift]. induction l as [|r l IH]; cbn [mmap]; [apply tr_ret|].
  apply tr_bind; [|intros w; apply tr_bind; [exact IH|intros; apply tr_ret]]. unfold weight. apply tr_bind; [apply tr_get|]. intros. apply tr_bind; [apply tr_lift_opt|]. intros v. unfold sv_at.
  destruct idx; destruct v; first [apply tr_raise|apply tr_ret|apply tr_lift_opt].
Qed.
Lemma weights_read : forall l ws (s : @st Qops), Forall2 (fun r w => score (heap s r) = SV1 (w : num)) l ws -> mmap (weight KScore None) l s = Ok (ws : list num) s.
Proof.
  intros l ws s H. induction H as [|r w l ws E H IH]; [reflexivity|]. cbn [mmap]. unfold bind. unfold weight at 1, bind, get, lift_opt, key_of. rewrite E. cbn [ret]. rewrite IH. reflexivity.
Qed.
Lemma balanced_spent : forall fuel (gd : gadata) ws s m, even_weights ws -> rnd_seed s = None ->
  Forall2 (fun r w => score (heap s r) = SV1 (w : num)) (members (population gd)) ws -> pairs_wanted None gd m ->
  at_most s (spent 1) (selection_execute fuel SelBalanced gd) (inject_Z (Z.max 0 m) * qpow (3 # 4) fuel).
Proof.
  intros fuel gd ws s m E Hs Fw Em. cbn [selection_execute]. unfold balanced_pass.
  assert (Qp : (0 <= qpow (3 # 4) fuel)%Q) by (apply qpow_nonneg; discriminate).
  assert (Mp : (0 <= inject_Z (Z.max 0 m) * qpow (3 # 4) fuel)%Q) by (apply Qmult_le_0_compat; auto; unfold Qle; cbn; lia).
  assert (Tb : treelike (base_execute gd)). { unfold base_execute, get_empty_copy, reset_idx_individ. repeat (apply tr_bind; [|intros ?]); try apply tr_ret; [apply tr_reset|apply tr_do_seed]. }
  apply fuelless_bind; auto; [apply fl_base_execute|]. intros gd1 s1 A1. pose proof (arises_seedless _ _ _ _ Tb Hs A1) as Hs1.
  destruct (A1 (tape s1) (ent s1)) as (t1 & e1 & E1). cbn [with_source] in E1. rewrite source_same in E1. apply base_execute_ok in E1. destruct E1 as (-> & N1 & _ & _ & _ & Rn).
  cbn [population set_parents]. set (l := members (population gd)) in *.
  assert (Fw1 : Forall2 (fun r w => score (heap s1 r) = SV1 (w : num)) l ws).
  { eapply Forall2_impl; [|exact Fw]. cbv beta. intros r w Er. rewrite Rn. cbn [heap set_source set_ent set_tape]. destruct (last_pos 0 l r); exact Er. }
  apply fuelless_bind; auto; [apply tr_ret|apply fl_ret|]. intros u s2 A2.
  destruct (A2 (tape s2) (ent s2)) as (t2 & e2 & E2). cbn [with_source] in E2. rewrite source_same in E2. apply ret_ok in E2. destruct E2 as [_ E2].
  assert (Hs2 : rnd_seed s2 = None) by (rewrite E2; exact Hs1). assert (Fw2 : Forall2 (fun r w => score (heap s2 r) = SV1 (w : num)) l ws) by (rewrite E2; exact Fw1).
  destruct (even_positive ws E) as [Ne Fp]. assert (Sn : ~ (qsum ws == 0)%Q) by (pose proof (qsum_pos ws Ne Fp); lra). destruct (scores_ok ws Sn) as (scores & Es & _ & _).
  apply fuelless_bind; auto; [apply tr_probabilities|apply fl_probabilities|]. intros sc s3 A3.
  destruct (A3 (tape s3) (ent s3)) as (t3 & e3 & E3). cbn [with_source] in E3. rewrite source_same in E3. unfold add_probabilities, bind in E3. rewrite (weights_read l ws) in E3 by exact Fw2.
  apply lift_ok in E3. destruct E3 as [E3 Est]. rewrite Es in E3. inversion E3; subst sc. clear E3. assert (Hs3 : rnd_seed s3 = None) by (rewrite Est; exact Hs2).
  unfold balanced_selection. cbn [population set_parents]. fold l.
  apply fuelless_bind; auto; [unfold get_total_num_parents; repeat (apply tr_bind; [|intros ?]); [apply tr_ret|apply tr_lift_opt]|unfold get_total_num_parents; repeat (apply fl_bind; [|intros ?]); [apply fl_ret|apply fl_lift_opt]|].
  intros total s5 A5. unfold get_total_num_parents in A5. cbn [children_percent population set_parents] in A5.
  destruct (A5 (tape s5) (ent s5)) as (t5 & e5 & E5). cbn [with_source] in E5. rewrite source_same in E5. unfold bind in E5. cbn [ret] in E5.
  unfold pairs_wanted in Em. rewrite Em in E5. cbn [lift_opt ret] in E5. inversion E5 as [[Et5 Es5]]. clear E5 A5.
  assert (Hs5 : rnd_seed s5 = None) by (rewrite <- Es5; exact Hs3). rewrite Es5.
  apply (am_bind s5 _ _ _ (fun _ _ => 0%Q)).
  - rewrite <- Et5. replace (Z.max 0 m) with (Z.of_nat (Z.to_nat m)) by lia.
    eapply (am_affine s5 (spent 1) _ _ _ 1 0); [lra|eapply (spent_repeat _ (fun _ => True) (qpow (3 # 4) fuel) (tr_balanced_pair _ _ _) Qp); auto| |].
    + intros x _ Hx. apply (balanced_pair_spent ws scores l fuel x); auto.
    + intros o _. destruct o; cbn [spent]; lra.
    + apply Qle_lteq. right. ring.
  - intros ps s6 A6. apply spent_fuelless; [apply tr_ret|apply fl_ret| |apply Qle_refl].
    apply (arises_seedless _ _ _ _ (tr_mrepeat _ _ (tr_balanced_pair _ _ _)) Hs5 A6).
Qed.

(** *** The scores of FFGA *)
Lemma rank_score : forall f gen best v i j (r : Q), fkind f = Ffga -> rank i = Some (SV1 (r : num)) -> assess f gen best v i = inr j ->
  exists x : Q, score j = SV1 (x : num) /\ (x == 1 / (1 + r))%Q.
Proof.
  intros f gen best v i j r Fk Er H.
  assert (G : forall i' (pen : Q) sc, rank i' = rank i -> get_fitness_score f i' (pen : num) = inr sc -> exists x : Q, sc = SV1 (x : num) /\ (x == 1 / (1 + r))%Q).
  { intros i' pen sc Ei. unfold get_fitness_score. rewrite Fk, Ei, Er. unfold py_div. destruct (neqb _ _); [discriminate|]. intros E. inversion E. eexists. split; [reflexivity|]. reflexivity. }
  unfold assess in H. destruct (check_input f v) as [e|cv]; [discriminate|].
  destruct (is_conditional f).
  - destruct cv; try discriminate. destruct (fpenalty f); [|discriminate]. destruct (take_obj_score f l) as [|ov]; [discriminate|].
    destruct (violates (conditions f) (snd ov)) as [|bad]; [discriminate|].
    destruct (penalty_execute p (conditions f) (snd ov) gen best) as [|pen]; [discriminate|]. cbv zeta in H.
    destruct (get_fitness_score f _ pen) as [|sc] eqn:Eg; [discriminate|]. inversion H; subst. apply G in Eg; [|destruct bad; reflexivity]. exact Eg.
  - cbv zeta in H. destruct (get_fitness_score f _ nzero) as [|sc] eqn:Eg; [discriminate|]. inversion H; subst. apply G in Eg; [|reflexivity]. exact Eg.
Qed.
Lemma count_score : forall (k P : nat) (x : Q), (k <= P)%nat -> (x == 1 / (1 + ones k))%Q ->
  (1 / inject_Z (Z.of_nat P + 2) <= x /\ x <= 1 # 2)%Q /\ (k = 0%nat -> x == 1 # 2)%Q.
Proof.
  intros k P x L ->. rewrite (ones_value k). assert (E : (1 + inject_Z (Z.of_nat k + 1) == inject_Z (Z.of_nat k + 2))%Q).
  { change 1%Q with (inject_Z 1). rewrite <- inject_Z_plus. replace (1 + (Z.of_nat k + 1)) with (Z.of_nat k + 2) by lia. reflexivity. }
  rewrite E. clear E.
  assert (K2 : (inject_Z 2 <= inject_Z (Z.of_nat k + 2))%Q) by (rewrite <- Zle_Qle; lia). assert (KP : (inject_Z (Z.of_nat k + 2) <= inject_Z (Z.of_nat P + 2))%Q) by (rewrite <- Zle_Qle; lia).
  change (inject_Z 2) with 2%Q in K2. split; [split|intros ->; reflexivity].
  - apply Qle_shift_div_l; [lra|]. setoid_replace (1 / inject_Z (Z.of_nat P + 2) * inject_Z (Z.of_nat k + 2))%Q with (inject_Z (Z.of_nat k + 2) / inject_Z (Z.of_nat P + 2))%Q by (field; lra).
    apply Qle_shift_div_r; lra.
  - apply Qle_shift_div_r; lra.
Qed.
Lemma rank_count_bound : forall F h l r, NoDup l -> In r l -> (@rank_count Qops F h l r <= length l)%nat.
Proof.
  intros F h l r Nd Ir. unfold rank_count. assert (O : occ l r = 1%nat) by (apply (NoDup_count_occ' Nat.eq_dec); auto). rewrite O. unfold dominators.
  assert (G : forall p (xs : list nat), (length (filter p xs) <= length xs)%nat) by (intros p; induction xs as [|y xs IH]; cbn; [lia|destruct (p y); cbn; lia]).
  pose proof (G (fun y => dom F (phen h) y r) l). lia.
Qed.

Definition even_scores (F : list gv -> list Q) (h : nat -> individ) (l : list nat) : Prop :=
  forall r, In r l -> exists x : Q, score (h r) = SV1 (x : num) /\ (1 / inject_Z (Z.of_nat (length l) + 2) <= x /\ x <= 1 # 2)%Q /\
    ((forall y, In y l -> ~ beats F h y r) -> x == 1 # 2)%Q.
(** Members that were just ranked and evaluated. *)
Lemma scores_made : forall F f g gen best h1 h2 h' k us cs l, fkind f = Ffga -> NoDup l -> ranks l (rank_count F h1 l) h1 h2 ->
  @assessed Qops f g gen best h2 h' k us cs -> incl us l -> (forall r, In r l -> ~ In r us -> h' r = h2 r) ->
  forall r, In r us -> exists x : Q, score (h' r) = SV1 (x : num) /\ (1 / inject_Z (Z.of_nat (length l) + 2) <= x /\ x <= 1 # 2)%Q /\
    ((forall y, In y l -> ~ beats F h' y r) -> x == 1 # 2)%Q.
Proof.
  intros F f g gen best h1 h2 h' k us cs l Fk Nd [Rk _] As Iu Ot r Ir. pose proof (Iu r Ir) as Il.
  assert (Ph : forall y, In y l -> phen h' y = phen h1 y).
  { intros y Iy. unfold phen. destruct (in_dec Nat.eq_dec y us) as [i|i].
    - destruct (assessed_in _ _ _ _ _ _ _ _ _ _ As i) as (v & k' & _ & _ & A). apply assess_keeps in A. destruct A as (_ & -> & _). rewrite Rk by auto. reflexivity.
    - rewrite Ot, Rk by auto. reflexivity. }
  destruct (assessed_in _ _ _ _ _ _ _ _ _ _ As Ir) as (v & k' & _ & _ & A).
  destruct (rank_score f gen best v (h2 r) (h' r) (@ones Qops (rank_count F h1 l r)) Fk) as (x & Ex & Hx); [rewrite Rk by auto; reflexivity|exact A|].
  destruct (count_score _ (length l) x (rank_count_bound F h1 l r Nd Il) Hx) as [B Z]. exists x. split; auto. split; auto. intros Nb. apply Z.
  apply rank_count_0; auto. intros y Iy C. apply (Nb y Iy). unfold beats in *. rewrite !Ph by auto. exact C.
Qed.
Lemma nodup_app : forall l l' : list nat, NoDup l -> NoDup l' -> (forall r, In r l -> In r l' -> False) -> NoDup (l ++ l').
Proof.
  induction l as [|x l IH]; intros l' H1 H2 H; cbn; auto. inversion H1 as [|? ? Nx Nl]; subst. constructor.
  - intros C. apply in_app_or in C. destruct C as [C|C]; [contradiction|]. apply (H x); [left; auto|auto].
  - apply IH; auto. intros r I1 I2. apply (H r); [right; auto|auto].
Qed.
Definition even_state (cf : config) (F : list gv -> list Q) (c : comps) (gd : gadata) (s : st) : Prop :=
  c_selection c = SelBalanced /\ fkind (c_fitness c) = Ffga /\ ng_multi (c_newgen c) = true /\ ng_transfer (c_newgen c) = TBest /\
  num_individ (population gd) = cf_num_individ cf /\ children_percent gd = cf_children_percent cf /\
  NoDup (members (population gd)) /\ (2 <= length (members (population gd)))%nat /\ even_scores F (heap s) (members (population gd)).
Lemma even_scores_perm : forall F h l l', Permutation l l' -> even_scores F h l' -> even_scores F h l.
Proof.
  intros F h l l' P E r Ir. destruct (E r (Permutation_in _ P Ir)) as (x & Ex & B & Z). exists x. split; auto. rewrite (Permutation_length P). split; auto.
  intros Nb. apply Z. intros y Iy. apply Nb. apply (Permutation_in _ (Permutation_sym P)). exact Iy.
Qed.
Lemma even_first : forall cf gray gens F n s c gd0 s0 gd1 s1, tuples cf F n -> cf_transfer cf = "best" -> 2 <= cf_num_individ cf ->
  mlaunched cf (GenBinary gray (gens : list bgene) bparams0) Ffga SelBalanced true s c gd0 s0 -> first_generation (c_fitness c) gd0 s0 = Ok gd1 s1 -> even_state cf F c gd1 s1.
Proof.
  intros cf gray gens F n s c gd0 s0 gd1 s1 Tu Tr H2 La Fg.
  destruct (mlaunched_objective _ _ _ Ffga SelBalanced _ F n _ _ _ _ Tu eq_refl I La) as ((Mk & Sy & Sz & Ho) & Fk & Es).
  destruct (mlaunched_first _ _ _ _ _ _ _ _ _ _ _ La) as (St & En & Ecp & _ & _ & _ & _ & Len).
  destruct La as (p & sx & p' & f & cl & m & ng & Sp & Ds & Fi & Nf & Nm & Nn & Ec & Eg). rewrite Tr in Nn. cbn in Nn. inversion Nn; subst ng.
  pose proof (multi_started_init _ _ St) as Mi.
  destruct (multi_first_ok (fun _ => True) F n (c_fitness c) gd0 s0 gd1 s1 Qorder counting_exact Mk Sy Sz Mi Fg) as (h2 & rc & cs & front & Fs & Mi1).
  pose proof (mf_perm _ _ _ _ _ _ _ _ _ _ Fs) as Pm. pose proof (mf_pop _ _ _ _ _ _ _ _ _ _ Fs) as Ep. destruct (mf_params _ _ _ _ _ _ _ _ _ _ Fs) as (_ & _ & P3).
  assert (Nd : NoDup (members (population gd0))) by (destruct Mi; auto).
  split; auto. split; auto. split; [rewrite Ec; reflexivity|]. split; [rewrite Ec; reflexivity|]. split; [rewrite Ep; exact En|]. split; [congruence|].
  split; [eapply Permutation_NoDup; [apply Permutation_sym; exact Pm|exact Nd]|]. split; [rewrite (Permutation_length Pm); lia|].
  apply (even_scores_perm F _ _ _ Pm). intros r Ir.
  apply (scores_made F (c_fitness c) (gspec_of (population gd0)) 0 BNone (heap s0) h2 (heap s1) (length rc + length (log s0)) (members (population gd0)) cs (members (population gd0))); auto.
  - apply (mf_ranks _ _ _ _ _ _ _ _ _ _ Fs).
  - apply (mf_eval _ _ _ _ _ _ _ _ _ _ Fs).
  - apply incl_refl.
  - intros y Iy Ny. contradiction.
Qed.
Lemma even_step : forall cf F n fuel c gd s c' gd' s', (forall pt, length (F pt) = n) -> 1 <= Qtrunc (cf_children_percent cf * inject_Z (cf_num_individ cf)) ->
  mlight (fun _ => True) F n c gd s -> even_state cf F c gd s -> ga_step fuel c gd s = Ok (c', gd') s' -> even_state cf F c' gd' s'.
Proof.
  intros cf F n fuel c gd s c' gd' s' Fl Hc ML (E1 & E2 & E3 & E4 & E5 & E6 & Nd & L2 & Ev) R. pose proof ML as (_ & Mi & _).
  destruct (mlight_step (fun _ => True) Qorder counting_exact F n _ _ _ _ _ _ _ ML R) as (kids & els & h1 & h2 & rc & cs & front & St & _).
  destruct (mstep_same_comps _ _ _ _ _ _ _ _ _ _ _ _ _ _ St) as (C1 & C2 & C3 & C4).
  destruct (ms_params _ _ _ _ _ _ _ _ _ _ _ _ _ _ St) as (_ & _ & P3). pose proof (ms_pop _ _ _ _ _ _ _ _ _ _ _ _ _ _ St) as Ep. pose proof (ms_perm _ _ _ _ _ _ _ _ _ _ _ _ _ _ St) as Pm.
  pose proof (ms_count _ _ _ _ _ _ _ _ _ _ _ _ _ _ St) as Ct. rewrite E1 in Ct. destruct (ffga_pairs cf gd _ E5 E6 Hc Ct) as [_ Lk].
  pose proof (ms_taken _ _ _ _ _ _ _ _ _ _ _ _ _ _ St E3) as Tk. rewrite E1 in Tk. specialize (Tk I). unfold multi_taken in Tk. rewrite E4 in Tk.
  assert (Ne : els <> []) by (apply (front_some F n (heap s) (members (population gd))); auto; intros C; rewrite C in L2; cbn [length] in L2; lia).
  destruct (ms_kids _ _ _ _ _ _ _ _ _ _ _ _ _ _ St) as (a & Ek & La & _).
  assert (Ndl : NoDup (kids ++ els)).
  { destruct Tk as (rest & El & _). apply nodup_app.
    - rewrite Ek. apply seq_NoDup.
    - rewrite El in Nd. clear - Nd. induction els as [|x els IH]; [constructor|]. cbn [app] in Nd. inversion Nd as [|? ? Nx Nl]; subst. constructor; [intros C; apply Nx, in_or_app; auto|auto].
    - intros r Ik Ie. rewrite Ek in Ik. apply in_seq in Ik. apply (ms_els _ _ _ _ _ _ _ _ _ _ _ _ _ _ St), (mi_alloc _ _ _ Mi) in Ie. lia. }
  split; [congruence|]. split; [congruence|]. split; [congruence|]. split; [congruence|]. split; [rewrite Ep; exact E5|]. split; [congruence|].
  split; [eapply Permutation_NoDup; [apply Permutation_sym; exact Pm|exact Ndl]|].
  split; [rewrite (Permutation_length Pm), app_length; destruct els; [contradiction|cbn [length]; lia]|].
  apply (even_scores_perm F _ _ _ Pm). intros r Ir. apply in_app_or in Ir. destruct Ir as [Ir|Ir].
  - apply (scores_made F (c_fitness c) (gspec_of (population gd)) (idx_generation gd) (best_solution gd) h1 h2 (heap s') (length rc + length (log s)) kids cs (kids ++ els)); auto.
    + apply (ms_ranks _ _ _ _ _ _ _ _ _ _ _ _ _ _ St).
    + apply (ms_eval _ _ _ _ _ _ _ _ _ _ _ _ _ _ St).
    + intros y Iy. apply in_or_app. auto.
    + intros y Iy Ny. apply in_app_or in Iy. destruct Iy as [Iy|Iy]; [contradiction|]. apply (ms_els_heap _ _ _ _ _ _ _ _ _ _ _ _ _ _ St). exact Iy.
  - pose proof (ms_els _ _ _ _ _ _ _ _ _ _ _ _ _ _ St r Ir) as Im. destruct (Ev r Im) as (x & Ex & _ & Z).
    destruct Tk as (rest & El & Fr & _). specialize (Z (Fr r Ir)). exists x.
    destruct (ms_core _ _ _ _ _ _ _ _ _ _ _ _ _ _ St r (mi_alloc _ _ _ Mi r Im)) as ((_ & _ & Sc & _) & _). split; [congruence|]. split; [|auto].
    rewrite Z. split; [|lra]. apply Qle_shift_div_r; [unfold Qlt; cbn; lia|]. assert (X : (inject_Z 2 <= inject_Z (Z.of_nat (length (kids ++ els)) + 2))%Q) by (rewrite <- Zle_Qle; lia). change (inject_Z 2) with 2%Q in X. lra.
Qed.
Lemma even_weights_of : forall F h l, (2 <= length l)%nat -> even_scores F h l -> exists ws : list Q, even_weights ws /\ Forall2 (fun r w => score (h r) = SV1 (w : num)) l ws.
Proof.
  intros F h l L E. unfold even_weights.
  assert (G : forall xs, incl xs l -> exists ws : list Q, Forall2 (fun r w => score (h r) = SV1 (w : num)) xs ws /\ Forall (fun w => 1 / inject_Z (Z.of_nat (length l) + 2) <= w /\ w <= 1 # 2)%Q ws).
  { induction xs as [|r xs IH]; intros Hx; [exists []; split; constructor|]. destruct IH as (ws & A & B); [intros y Iy; apply Hx; right; exact Iy|].
    destruct (E r) as (x & Ex & Bx & _); [apply Hx; left; auto|]. exists (x :: ws). split; constructor; auto. }
  destruct (G l (incl_refl l)) as (ws & A & B). exists ws. assert (Len : length ws = length l) by (clear - A; induction A; cbn; auto). rewrite Len. auto.
Qed.
Lemma ffga_waits : forall cf F n fuel, (forall pt, length (F pt) = n) -> 1 <= Qtrunc (cf_children_percent cf * inject_Z (cf_num_individ cf)) ->
  mbounded_wait (fun _ => True) F n (even_state cf F) fuel 1 (inject_Z (Qtrunc (cf_children_percent cf * inject_Z (cf_num_individ cf))) * qpow (3 # 4) fuel).
Proof.
  intros cf F n fuel Fl Hc. split; [|split].
  - intros c gd s _ Hs (E1 & E2 & E3 & E4 & E5 & E6 & Nd & L2 & Ev). destruct (even_weights_of F (heap s) _ L2 Ev) as (ws & Ew & Fw). rewrite E1.
    set (m := Qtrunc (cf_children_percent cf * inject_Z (cf_num_individ cf))) in *. replace m with (Z.max 0 m) by lia. apply (balanced_spent fuel gd ws s m); auto.
    cbn [pairs_wanted]. rewrite E5, E6. reflexivity.
  - intros c gd s c' gd' s' ML Ev R. eapply even_step; eauto.
  - intros c gd s t e H. exact H.
Qed.

(** *** Runs that end *)
(** How much the searches for a second parent can add. *)
Definition mwaiting (cf : config) (fuel : nat) : Q :=
  (inject_Z (cf_num_generations cf - 1) * (inject_Z (Qtrunc (cf_children_percent cf * inject_Z (cf_num_individ cf))) * qpow (3 # 4) fuel))%Q.
Lemma pareto_tuples : forall cf F n space, pareto_task cf F n space -> tuples cf F n.
Proof. intros cf F n space (H1 & H2 & _). split; auto. Qed.
(** With transfer "best" and two individuals or more the whole run ends, and does so after
    evaluating the point, except with a probability that tends to 0. *)
Theorem C85_ffga_ends : forall fuel cf gray gens ns level F n s y Y, multi_shape cf gens -> Forall2 bits_for gens ns ->
  update_level (cf_mutation_lvl cf) (zsum ns) = inr level -> pareto_task cf F n (in_box gens) -> mode_ok cf n -> full_length cf ->
  cf_transfer cf = "best" -> 2 <= cf_num_individ cf -> 1 <= Qtrunc (cf_children_percent cf * inject_Z (cf_num_individ cf)) ->
  rnd_seed s = None -> in_grid gens y -> Y y = true ->
  exists p, probability (ffga fuel cf gray (gens : list bgene)) s (fails s Y) p /\ (p <= missing cf ns level + mwaiting cf fuel)%Q.
Proof.
  intros fuel cf gray gens ns level F n s y Y Sh Fn Ul Ta Mo Fl Tr H2 Hc Hs Gy HY. pose proof (pareto_tuples _ _ _ _ Ta) as Tu.
  assert (Mt : multi_task cf gens ns level F n) by (destruct Sh as (Lg & _ & Hl & _); split; [exact Lg|]; split; [exact Fn|]; split; [exact Tu|]; split; [exact Hl|]; split; [exact Ul|]; split; [exact Fl|]; lia).
  assert (Q0 : (0 <= qpow (3 # 4) fuel)%Q) by (apply qpow_nonneg; discriminate).
  eapply am_weaken; [eapply (multi_misses fuel cf gray gens ns level Ffga SelBalanced true F n s (length (log s)) y Y 1 (inject_Z (Qtrunc (cf_children_percent cf * inject_Z (cf_num_individ cf))) * qpow (3 # 4) fuel) (even_state cf F)); eauto| |].
  - exact I.
  - intros gd k En Ecp K. apply (ffga_pairs cf gd k En Ecp Hc K).
  - discriminate.
  - apply Qmult_le_0_compat; [|exact Q0]. unfold Qle; cbn; lia.
  - apply ffga_waits; [apply Ta|exact Hc].
  - intros t e c gd0 s0 gd1 s1 La _ Fg. eapply even_first; eauto.
  - intros o Ho. destruct o as [x s'|x|]; cbn [fails worth indicator]; [| |apply Qle_refl].
    + unfold unseen, seen, new_calls. apply Qle_lteq. right. ring.
    + exfalso. assert (H1 : 1 <= cf_num_individ cf) by lia. destruct (Ho (tape s) (ent s)) as (t & e & E). apply (C68_ffga fuel cf gray gens F n (set_source t e s) Sh Ta Mo (or_introl (conj Tr H1)) Hc x). exact E.
  - unfold mwaiting, later_generations. destruct Fl as [Hn _]. rewrite Z2Nat.id by lia. apply Qle_refl.
Qed.
Theorem C85_ffga_front_ends : forall fuel cf gray gens ns level F n s y, multi_shape cf gens -> Forall2 bits_for gens ns ->
  update_level (cf_mutation_lvl cf) (zsum ns) = inr level -> pareto_task cf F n (in_box gens) -> full_length cf ->
  cf_transfer cf = "best" -> cf_penalty cf = PNone -> (match cf_input_data cf with Some d => truthy d = false | None => True end) ->
  2 <= cf_num_individ cf -> 1 <= Qtrunc (cf_children_percent cf * inject_Z (cf_num_individ cf)) ->
  rnd_seed s = None -> in_grid gens y ->
  exists p, probability (ffga fuel cf gray (gens : list bgene)) s (misses_or_lost (F y)) p /\ (p <= missing cf ns level + mwaiting cf fuel)%Q.
Proof.
  intros fuel cf gray gens ns level F n s y Sh Fn Ul Ta Fl Tr Pn Dt H2 Hc Hs Gy. pose proof (pareto_tuples _ _ _ _ Ta) as Tu.
  assert (Mo : mode_ok cf n) by (unfold mode_ok; rewrite Pn; exact I).
  eapply am_weaken; [apply (C85_ffga_ends fuel cf gray gens ns level F n s y (fun pt => all_le (F pt) (F y))); auto; apply all_le_refl| |apply Qle_refl].
  intros o Ho. destruct o as [[gd' cl] s'|x|]; cbn [fails misses_or_lost]; [|apply Qle_refl|apply Qle_refl].
  destruct (existsb _ (new_calls s s')) eqn:E; [|apply indicator_bounds].
  destruct (Ho (tape s') (ent s')) as (t & e & R). cbn [with_source] in R. rewrite source_same in R.
  assert (H1 : 1 <= cf_num_individ cf) by lia. rewrite (front_seen fuel cf gray gens F n (set_source t e s) gd' cl s' y Tu H1 Hc Tr Pn Dt R E). apply Qle_refl.
Qed.

(** *** All points at once *)
Lemma mean_plus : forall {A} (f g : A -> Q) l, (mean (map (fun a => f a + g a) l) == mean (map f l) + mean (map g l))%Q.
Proof. intros A f g l. unfold mean. rewrite !map_length, qsum_plus. unfold Qdiv. ring. Qed.
Lemma plain_plus : forall {A} s (f g : outcome A -> Q) m, @plain Qops A s m -> exists p q, expects s f m p /\ expects s g m q /\ expects s (fun o => f o + g o)%Q m (p + q)%Q.
Proof.
  intros A s f g m H. induction H as [m o Hm|m k mk Hk Hm Hr IH|m mn Hm H IH].
  - exists (f o), (g o). split; [|split]; (eapply ex_done; [exact Hm|reflexivity]).
  - destruct (finite_choice (below k) (fun d p => exists q, expects s f (mk d) p /\ expects s g (mk d) q /\ expects s (fun o => f o + g o)%Q (mk d) (p + q)%Q)) as (r1 & R1).
    { intros d Hd. apply below_in in Hd. destruct (IH d Hd) as (p & q & X). eauto. }
    destruct (finite_choice (below k) (fun d q => expects s f (mk d) (r1 d) /\ expects s g (mk d) q /\ expects s (fun o => f o + g o)%Q (mk d) (r1 d + q)%Q)) as (r2 & R2); [exact R1|].
    exists (mean (map r1 (below k))), (mean (map r2 (below k))).
    assert (R : forall d, 0 <= d < k -> expects s f (mk d) (r1 d) /\ expects s g (mk d) (r2 d) /\ expects s (fun o => f o + g o)%Q (mk d) (r1 d + r2 d)%Q) by (intros d Hd; apply R2, below_in, Hd).
    split; [|split].
    + apply (ex_draw s f m k mk r1); auto; [intros d Hd; apply R; auto|reflexivity].
    + apply (ex_draw s g m k mk r2); auto; [intros d Hd; apply R; auto|reflexivity].
    + apply (ex_draw s _ m k mk (fun d => r1 d + r2 d)%Q); auto; [intros d Hd; apply R; auto|]. symmetry. apply (mean_plus r1 r2).
  - destruct IH as (p & q & A1 & A2 & A3). exists p, q. split; [|split]; (eapply ex_seed; [exact Hm|assumption]).
Qed.
Lemma union_bound : forall {A X} s (m : M A) (E : X -> outcome A -> bool) (q : Q) xs, @plain Qops A s m -> (forall x t e o, E x (with_source t e o) = E x o) ->
  (forall x, In x xs -> at_most s (fun o => indicator (E x o)) m q) ->
  at_most s (fun o => indicator (existsb (fun x => E x o) xs)) m (inject_Z (Z.of_nat (length xs)) * q).
Proof.
  intros A X s m E q xs Pl Un. induction xs as [|x xs IH]; intros H.
  - apply plain_bound; auto. intros o _. cbn. change (inject_Z 0) with 0%Q. lra.
  - destruct (H x (or_introl eq_refl)) as (p1 & X1 & L1). destruct IH as (p2 & X2 & L2); [intros y Hy; apply H; right; auto|].
    destruct (plain_plus s (fun o => indicator (E x o)) (fun o => indicator (existsb (fun y => E y o) xs)) m Pl) as (p1' & p2' & Y1 & Y2 & Y3).
    assert (E1 : (p1' == p1)%Q) by (eapply expects_unique; [|exact Y1|exact X1]; intros t e o; rewrite Un; apply Qeq_refl).
    assert (E2 : (p2' == p2)%Q).
    { eapply expects_unique; [|exact Y2|exact X2]. intros t e o. assert (Ee : existsb (fun y => E y (with_source t e o)) xs = existsb (fun y => E y o) xs) by (clear - Un; induction xs as [|y xs IH]; cbn; [reflexivity|rewrite Un, IH; reflexivity]). rewrite Ee. apply Qeq_refl. }
    eapply am_weaken; [exists (p1' + p2')%Q; split; [exact Y3|apply Qle_refl]| |].
    + intros o _. cbn [existsb]. destruct (E x o), (existsb (fun y => E y o) xs); cbn; discriminate.
    + cbn [length]. rewrite Nat2Z.inj_succ. unfold Z.succ. rewrite inject_Z_plus. change (inject_Z 1) with 1%Q. lra.
Qed.

(** The points of the grid. *)
Fixpoint grid_points (gens : list qgene) (ns : list Z) : list (list Q) :=
  match gens, ns with
  | [], [] => [[]]
  | g :: gens', n :: ns' => flat_map (fun i => map (cons (grid g n i)) (grid_points gens' ns')) (below (2 ^ n))
  | _, _ => []
  end.
Lemma flat_length : forall {A B} (f : A -> list B) n l, (forall a, In a l -> length (f a) = n) -> length (flat_map f l) = (length l * n)%nat.
Proof. intros A B f n l. induction l as [|a l IH]; intros H; cbn; auto. rewrite app_length, (H a) by (left; auto). rewrite IH by (intros; apply H; right; auto). reflexivity. Qed.
Lemma grid_size : forall gens ns, Forall2 bits_for gens ns -> Z.of_nat (length (grid_points gens ns)) = 2 ^ zsum ns.
Proof.
  intros gens ns H. induction H as [|g n gens ns B H IH]; [reflexivity|]. cbn [grid_points zsum]. rewrite (flat_length _ (length (grid_points gens ns))) by (intros; apply map_length).
  destruct B as [B _]. rewrite Nat2Z.inj_mul, IH. unfold below. rewrite map_length, seq_length.
  assert (0 < 2 ^ n) by (apply Z.pow_pos_nonneg; lia). rewrite Z2Nat.id by lia. rewrite <- Z.pow_add_r; [reflexivity|lia|].
  clear - H. induction H as [|g n gens ns [B _] H IH]; cbn; lia.
Qed.
Lemma grid_in : forall gens ns, Forall2 bits_for gens ns -> forall ys, In ys (grid_points gens ns) <-> Forall3 (fun g n y => exists i, 0 <= i <= 2 ^ n - 1 /\ y = grid g n i) gens ns ys.
Proof.
  intros gens ns H. induction H as [|g n gens ns B H IH]; intros ys; cbn [grid_points].
  - split; [intros [<-|[]]; constructor|]. intros F. inversion F. left. reflexivity.
  - rewrite in_flat_map. split.
    + intros (i & Hi & Hy). apply below_in in Hi. apply in_map_iff in Hy. destruct Hy as (zs & <- & Hz). constructor; [exists i; split; [lia|reflexivity]|apply IH; auto].
    + intros F. inversion F as [|? ? y ? ? zs (i & Hi & ->) F']; subst. exists i. split; [apply below_in; lia|]. apply in_map_iff. exists zs. split; auto. apply IH. auto.
Qed.
Lemma grid_in_grid : forall gens ns ys, Forall2 bits_for gens ns -> (In ys (grid_points gens ns) <-> in_grid gens (map GNum (ys : list (@num Qops)))).
Proof.
  intros gens ns ys H. rewrite (grid_in gens ns H). split.
  - intros F. exists ns, ys. auto.
  - intros (ms & zs & E & Fb & F). rewrite (bits_unique _ _ _ Fb H) in F. assert (ys = zs); [|subst; auto]. clear - E. revert zs E. induction ys as [|y ys IH]; intros [|z zs] E; try discriminate E; auto. cbn [map] in E. injection E as E1 E2. rewrite E1, (IH zs E2). reflexivity.
Qed.

(** Some point of the list is not matched: no reported individual is at most as large in
    every value. *)
Definition uncovered {A} (F : list gv -> list Q) (ys : list (list gv)) (o : outcome (gadata * A)) : bool := existsb (fun y => front_misses (F y) o) ys.
Definition uncovered_or_lost {A} (F : list gv -> list Q) (ys : list (list gv)) (o : outcome (gadata * A)) : bool :=
  match o with Ok _ _ => uncovered F ys o | _ => true end.
Lemma ffga_plain : forall fuel cf gray (gens : list bgene) (s : @st Qops), rnd_seed s = None -> plain s (ffga fuel cf gray gens).
Proof.
  intros fuel cf gray gens s Hs.
  assert (Tr : treelike (ffga fuel cf gray gens)).
  { unfold ffga, ga_optimize, run_loop. apply tr_bind; [apply tr_do_seed|intros _]. do 4 (apply tr_bind; [apply tr_lift|intros ?]). apply tr_bind; [apply tr_fill|intros ?].
    apply tr_bind; [apply tr_bind; [apply tr_fitness_execute|intros _]; apply tr_bind; [apply tr_update|intros ?]; apply tr_ga_loop|intros ?].
    apply tr_bind; [destruct (cf_is_print cf); [unfold print_best_solution|apply tr_ret]|intros _; apply tr_ret].
    destruct (best_solution _) as [|i gs|set [gs|]]; [apply tr_raise|apply tr_ret|apply tr_miter; intros i; destruct (phenotype i); [apply tr_ret|apply tr_raise]|apply tr_raise]. }
  apply Tr. exact Hs.
Qed.
(** The reported set covers the whole grid, up to 2^bits times the bound for one point. *)
Theorem C85_ffga_covers : forall fuel cf gray gens ns level F n s, multi_task cf gens ns level F n ->
  1 <= Qtrunc (cf_children_percent cf * inject_Z (cf_num_individ cf)) -> rnd_seed s = None ->
  cf_transfer cf = "best" -> cf_penalty cf = PNone -> (match cf_input_data cf with Some d => truthy d = false | None => True end) ->
  exists ys, (forall y, in_grid gens y <-> In y ys) /\ Z.of_nat (length ys) = 2 ^ zsum ns /\
  exists p, probability (ffga fuel cf gray (gens : list bgene)) s (uncovered F ys) p /\ (p <= inject_Z (2 ^ zsum ns) * missing cf ns level)%Q.
Proof.
  intros fuel cf gray gens ns level F n s Mt Hc Hs Tr Pn Dt. pose proof Mt as (_ & Fn & _).
  exists (map (map (@GNum Qops)) (grid_points gens ns)).
  assert (In' : forall y, in_grid gens y <-> In y (map (map (@GNum Qops)) (grid_points gens ns))).
  { intros y. rewrite in_map_iff. split.
    - intros G. pose proof G as (ms & zs & -> & _). exists zs. split; auto. apply (grid_in_grid gens ns zs Fn). exact G.
    - intros (zs & <- & Iz). apply (grid_in_grid gens ns zs Fn). exact Iz. }
  assert (Sz : Z.of_nat (length (map (map (@GNum Qops)) (grid_points gens ns))) = 2 ^ zsum ns) by (rewrite map_length; apply grid_size; auto).
  split; [exact In'|]. split; [exact Sz|].
  eapply am_weaken; [apply (union_bound s (@ffga Qops fuel cf gray gens) (fun y => front_misses (F y)) (missing cf ns level) (map (map (@GNum Qops)) (grid_points gens ns)))| |].
  - apply ffga_plain. exact Hs.
  - intros x t e o. destruct o as [[gd cl] s'|x0|]; reflexivity.
  - intros y Iy. apply (C85_ffga_front fuel cf gray gens ns level F n s y); auto. apply In'. exact Iy.
  - intros o _. apply Qle_refl.
  - rewrite Sz. apply Qle_refl.
Qed.
Theorem C85_ffga_covers_ends : forall fuel cf gray gens ns level F n s, multi_shape cf gens -> Forall2 bits_for gens ns ->
  update_level (cf_mutation_lvl cf) (zsum ns) = inr level -> pareto_task cf F n (in_box gens) -> full_length cf ->
  cf_transfer cf = "best" -> cf_penalty cf = PNone -> (match cf_input_data cf with Some d => truthy d = false | None => True end) ->
  2 <= cf_num_individ cf -> 1 <= Qtrunc (cf_children_percent cf * inject_Z (cf_num_individ cf)) -> rnd_seed s = None ->
  exists ys, (forall y, in_grid gens y <-> In y ys) /\ Z.of_nat (length ys) = 2 ^ zsum ns /\
  exists p, probability (ffga fuel cf gray (gens : list bgene)) s (uncovered_or_lost F ys) p /\ (p <= inject_Z (2 ^ zsum ns) * (missing cf ns level + mwaiting cf fuel))%Q.
Proof.
  intros fuel cf gray gens ns level F n s Sh Fn Ul Ta Fl Tr Pn Dt H2 Hc Hs.
  exists (map (map (@GNum Qops)) (grid_points gens ns)).
  assert (In' : forall y, in_grid gens y <-> In y (map (map (@GNum Qops)) (grid_points gens ns))).
  { intros y. rewrite in_map_iff. split.
    - intros G. pose proof G as (ms & zs & -> & _). exists zs. split; auto. apply (grid_in_grid gens ns zs Fn). exact G.
    - intros (zs & <- & Iz). apply (grid_in_grid gens ns zs Fn). exact Iz. }
  assert (Sz : Z.of_nat (length (map (map (@GNum Qops)) (grid_points gens ns))) = 2 ^ zsum ns) by (rewrite map_length; apply grid_size; auto).
  split; [exact In'|]. split; [exact Sz|].
  eapply am_weaken; [apply (union_bound s (@ffga Qops fuel cf gray gens) (fun y => misses_or_lost (F y)) (missing cf ns level + mwaiting cf fuel) (map (map (@GNum Qops)) (grid_points gens ns)))| |].
  - apply ffga_plain. exact Hs.
  - intros x t e o. destruct o as [[gd cl] s'|x0|]; reflexivity.
  - intros y Iy. apply (C85_ffga_front_ends fuel cf gray gens ns level F n s y); auto. apply In'. exact Iy.
  - intros o _. destruct o as [[gd cl] s'|x0|]; cbn [uncovered_or_lost misses_or_lost]; [apply Qle_refl| |];
      (assert (Ne : map (map (@GNum Qops)) (grid_points gens ns) <> []) by (intros C; apply (f_equal (@length _)) in C; rewrite C in Sz; cbn [length] in Sz;
         assert (0 < 2 ^ zsum ns) by (apply Z.pow_pos_nonneg; [lia|]; clear - Fn; induction Fn as [|? ? ? ? [? _] ? ?]; cbn; lia); lia));
      destruct (map (map (@GNum Qops)) (grid_points gens ns)) as [|y ys]; [contradiction|apply Qle_refl|contradiction|apply Qle_refl].
  - rewrite Sz. apply Qle_refl.
Qed.

(** *** The limit *)
Lemma mwaiting_vanishes : forall cf eps, 1 <= cf_num_generations cf -> 1 <= Qtrunc (cf_children_percent cf * inject_Z (cf_num_individ cf)) -> (0 < eps)%Q ->
  exists f0, forall fuel, (f0 <= fuel)%nat -> (mwaiting cf fuel < eps)%Q.
Proof.
  intros cf eps Hn Hc He. unfold mwaiting. set (m := Qtrunc _) in *. set (a := inject_Z (cf_num_generations cf - 1)). set (b := inject_Z m).
  assert (A : (0 <= a)%Q) by (unfold a, Qle; cbn; lia). assert (B : (1 <= b)%Q) by (unfold b; change 1%Q with (inject_Z 1); rewrite <- Zle_Qle; exact Hc).
  assert (AB : (0 <= a * b)%Q) by (apply Qmult_le_0_compat; lra). assert (K : (0 < a * b + 1)%Q) by lra.
  destruct (qpow_vanishes (3 # 4) (eps / (a * b + 1))) as (f0 & Hf); [discriminate|reflexivity|apply Qlt_shift_div_l; [exact K|lra]|].
  exists f0. intros fuel L. assert (Q1 : (qpow (3 # 4) fuel <= qpow (3 # 4) f0)%Q) by (apply qpow_lower; auto; split; discriminate). pose proof (qpow_nonneg (3 # 4) fuel ltac:(discriminate)) as Q0.
  assert (Q2 : (qpow (3 # 4) fuel * (a * b + 1) < eps)%Q).
  { eapply Qle_lt_trans; [apply Qmult_le_compat_r; [exact Q1|lra]|]. apply (Qmult_lt_compat_r _ _ (a * b + 1)) in Hf; auto. eapply Qlt_le_trans; [exact Hf|]. apply Qle_lteq. right. field. intros C. rewrite C in K. discriminate K. }
  assert (E : (a * (b * qpow (3 # 4) fuel) == qpow (3 # 4) fuel * (a * b + 1) - qpow (3 # 4) fuel)%Q) by ring. rewrite E. lra.
Qed.
(** With enough generations, and enough tries for the second parents, the set FFGA reports
    covers the whole grid up to any given risk.  The number of generations depends on the
    grid alone, not on the objective, the population size or the mutation level. *)
Theorem C85_ffga_limit : forall gens ns eps, Forall2 bits_for gens ns -> (0 < eps)%Q ->
  exists N, forall cf gray F n s, N <= cf_num_generations cf -> multi_shape cf gens -> mixed_level (cf_mutation_lvl cf) (zsum ns) ->
    pareto_task cf F n (in_box gens) -> full_length cf ->
    cf_transfer cf = "best" -> cf_penalty cf = PNone -> (match cf_input_data cf with Some d => truthy d = false | None => True end) ->
    2 <= cf_num_individ cf -> 1 <= Qtrunc (cf_children_percent cf * inject_Z (cf_num_individ cf)) -> rnd_seed s = None ->
    exists enough, forall fuel, (enough <= fuel)%nat ->
      exists ys, (forall y, in_grid gens y <-> In y ys) /\
      exists p, probability (ffga fuel cf gray (gens : list bgene)) s (uncovered_or_lost F ys) p /\ (p < eps)%Q.
Proof.
  intros gens ns eps Fn He. set (d := qpow (1 # 1000) (Z.to_nat (zsum ns))). set (G := inject_Z (2 ^ zsum ns)).
  assert (Zp : 0 <= zsum ns) by (clear - Fn; induction Fn as [|? ? ? ? [? _] ? ?]; cbn; lia).
  assert (Gp : (0 < G)%Q) by (unfold G; change 0%Q with (inject_Z 0); rewrite <- Zlt_Qlt; apply Z.pow_pos_nonneg; lia).
  set (e2 := (eps / (2 * G))%Q). assert (E2 : (0 < e2)%Q) by (apply Qlt_shift_div_l; lra).
  destruct (misses_vanish d e2) as (N & HN); [apply qpow_positive; reflexivity|exact E2|]. exists (Z.of_nat N + 1).
  intros cf gray F n s LN Sh Ml Ta Fl Tr Pn Dt H2 Hc Hs. pose proof Sh as (Lg & H2b & Hl & _).
  destruct (mixed_between _ _ (two_sum gens ns Lg H2b Fn) Ml) as (level & Ul & B).
  assert (Bd : (missing cf ns level < e2)%Q).
  { destruct (flip_range level). apply HN; [apply qpow_raise; [discriminate|apply flip_positive; auto]|apply qpow_le_one; auto|unfold later_generations; lia]. }
  destruct (mwaiting_vanishes cf e2 (proj1 Fl) Hc E2) as (f0 & Hf0). exists f0. intros fuel Lf. specialize (Hf0 fuel Lf).
  destruct (C85_ffga_covers_ends fuel cf gray gens ns level F n s Sh Fn Ul Ta Fl Tr Pn Dt H2 Hc Hs) as (ys & Iy & _ & p & Pp & Lp). exists ys. split; auto. exists p. split; auto.
  eapply Qle_lt_trans; [exact Lp|]. fold G. apply Qlt_le_trans with (G * (e2 + e2))%Q.
  - rewrite !(Qmult_comm G). apply Qmult_lt_compat_r; [exact Gp|lra].
  - unfold e2. apply Qle_lteq. right. field. intros C. rewrite C in Gp. discriminate Gp.
Qed.

(** *** Cases *)
(** [N] generations of [num] individuals, half as many children, the objectives x^2 + y^2
    and (x - 1)^2 + y^2 on a grid of 128 points. *)
Definition front_cf (N num : Z) : config := mkCfg N num (pure pair_values) TNone None PNone None (1#2) None [] 2 (LStr "normal") "best" true.
Lemma front_tuples : forall N num, tuples (front_cf N num) pair_values 2.
Proof. intros N num. split; [reflexivity|]. intros k pt v A. inversion A; subst. reflexivity. Qed.
Lemma front_task : forall N num, pareto_task (front_cf N num) pair_values 2 (in_box box).
Proof.
  intros N num. split; [reflexivity|]. split; [intros k pt v A; inversion A; subst; reflexivity|]. split; [intros k pt _; exact (answer_1 _ k pt)|].
  intros k genes _. exists (pair_values genes). split; [exact (answer_1 _ k genes)|reflexivity].
Qed.
Lemma front_shape : forall N num, 0 <= num -> multi_shape (front_cf N num) box.
Proof.
  intros N num H. split; [exact box_legal|]. split; [left; cbn; lia|]. split; [left; right; left; reflexivity|]. split; [constructor|cbn; lia].
Qed.
Lemma front_length : forall N num, 1 <= N -> full_length (front_cf N num).
Proof. intros N num H. split; [exact H|discriminate]. Qed.
Lemma front_multi : forall N num, 1 <= N -> 1 <= num -> multi_task (front_cf N num) box [4; 3] (1#7) pair_values 2.
Proof.
  intros N num HN Hn. split; [exact box_legal|]. split; [exact box_ns|]. split; [apply front_tuples|]. split; [left; right; left; reflexivity|].
  split; [reflexivity|]. split; [apply front_length; auto|exact Hn].
Qed.
Example C85_vega_case : forall N fuel s y Y, 1 <= N -> rnd_seed s = None -> in_grid box y -> Y y = true ->
  exists p, probability (vega fuel (front_cf N 4) true (box : list bgene)) s (returns_without s Y) p /\ (p <= qpow (1 - qpow (143 # 1000) 7) (Z.to_nat (N - 1)))%Q.
Proof.
  intros N fuel s y Y HN Hs Gy HY. apply (C85_vega fuel (front_cf N 4) true box [4; 3] (1#7) pair_values 2 s y Y); auto; [apply front_multi; lia|vm_compute; lia|vm_compute; discriminate].
Qed.
Example C85_ffga_case : forall N fuel s, 1 <= N -> rnd_seed s = None ->
  exists ys, (forall y, in_grid box y <-> In y ys) /\ length ys = 128%nat /\
  exists p, probability (ffga fuel (front_cf N 4) true (box : list bgene)) s (uncovered_or_lost pair_values ys) p /\
    (p <= 128 * (qpow (1 - qpow (143 # 1000) 7) (Z.to_nat (N - 1)) + inject_Z (N - 1) * (2 * qpow (3 # 4) fuel)))%Q.
Proof.
  intros N fuel s HN Hs.
  destruct (C85_ffga_covers_ends fuel (front_cf N 4) true box [4; 3] (1#7) pair_values 2 s) as (ys & Iy & Ly & p & Pp & Lp); auto.
  - apply front_shape. lia.
  - exact box_ns.
  - apply front_task.
  - apply front_length. exact HN.
  - exact I.
  - cbn. lia.
  - vm_compute. discriminate.
  - exists ys. split; [exact Iy|]. split; [cbn in Ly; lia|]. exists p. split; [exact Pp|exact Lp].
Qed.
Example C85_limit_case : exists N, forall s, rnd_seed s = None -> exists enough, forall fuel, (enough <= fuel)%nat ->
  exists ys, (forall y, in_grid box y <-> In y ys) /\
  exists p, probability (ffga fuel (front_cf N 20) true (box : list bgene)) s (uncovered_or_lost pair_values ys) p /\ (p < 1 # 1000000)%Q.
Proof.
  destruct (C85_ffga_limit box [4; 3] (1 # 1000000)%Q box_ns eq_refl) as (N & HN). exists (Z.max 1 N). intros s Hs.
  apply (HN (front_cf (Z.max 1 N) 20) true pair_values 2%nat s); auto.
  - cbn. lia.
  - apply front_shape. lia.
  - right. left. reflexivity.
  - apply front_task.
  - apply front_length. lia.
  - exact I.
  - cbn. lia.
  - vm_compute. discriminate.
Qed.
(** Runs of the modelled program: how many of the 128 points the reported set misses after
    one, two and six generations. *)
Definition left_out (N num : Z) : option Z :=
  observe (fun r s => Z.of_nat (length (filter (fun ys => front_misses (pair_values (map (@GNum Qops) ys)) (Ok r s)) (grid_points box [4; 3]))))
    (ffga 50 (front_cf N num) true (box : list bgene) wide_world).
Example C85_runs : (left_out 1 4, left_out 2 4, left_out 6 4) = (Some 30, Some 19, Some 8).
Proof. run. Qed.
Print Assumptions C85_ffga.
Print Assumptions C85_vega.
Print Assumptions C85_ffga_front.
Print Assumptions C85_ffga_ends.
Print Assumptions C85_ffga_front_ends.
Print Assumptions C85_ffga_covers.
Print Assumptions C85_ffga_covers_ends.
Print Assumptions C85_ffga_limit.
