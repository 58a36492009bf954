(** Property C86: CombinatoryGA on full tours comes upon every tour when a generation has
    at least as many children as a tournament has competitors. *)
From Coq Require Import String.
From Coq Require Import ZArith QArith Qround Qabs Qminmax List Bool Lia Lqa Permutation.
From Verif Require Import AssessProofs Spec Num State Binary Population GaData Crossover Mutation Selection Penalty Fitness NewGeneration Driver
  ListLemmas Rnd Exec Laws CodingProofs PropCoding PopulationProofs CrossoverProofs MutationProofs SelectionProofs VegaProofs
  NewGenProofs UpdateProofs FitnessProofs StepProofs RunProofs Runs PropCrossover PropRun PropBest PropFitness DomainProofs SafetyProofs
  PropSelection OptimizeProofs PropDomain PropConditional PropResume ReachProofs PropReach Fuelless SeedProofs Chance ChanceProofs SelChanceProofs PropSelChance PropMutChance
  ChanceRun ChanceRunProofs ConvergeProofs PropConverge CompareProofs PropTermination PropMultiConverge TrapProofs PropTrap LuckProofs TourLuck TourSteps TourPaths TourRun Demo.
Import ListNotations.
Open Scope string_scope.
Open Scope list_scope.
Open Scope Z_scope.
Local Existing Instance Qops.

(** *** The statement *)
(** The objective answers a point of the space alike at every call. *)
Definition repeatable (cf : config) (space : list gv -> Prop) : Prop :=
  exists F, forall k pt, space pt -> answers (cf_objective cf) (given (cf_input_data cf)) k pt (inr (F pt)).
(** Children of a generation; at least as many as competitors in a tournament. *)
Definition children (cf : config) : Z := Qtrunc (cf_children_percent cf * inject_Z (cf_num_individ cf)).
Definition many_children (cf : config) : Prop := cf_tournament_size cf <= children cf.
(** Mutation moves a gene, or does not, with at least this probability:
    base_combinatory_mutation.py:14-43. *)
Definition level_chance (l : lvl) : Q :=
  match l with
  | LStr s => if String.eqb s "weak" then flip_chance (3 # 100) else if String.eqb s "normal" then flip_chance (1 # 10) else flip_chance (3 # 10)
  | LFloat x => flip_chance x
  | LOther => 0
  end.
(** The chance of the lucky generations that lead from any population to a given tour. *)
Definition tour_chance (cf : config) (k : Z) : Q :=
  qpow (generation_chance (cf_num_individ cf) (cf_tournament_size cf) (children cf) k (level_chance (cf_mutation_lvl cf))) (path_length k).

(** *** A bound for the loop is one for the run *)
Lemma optimize_bound : forall fuel cf g ck mk s Y K, rnd_seed s = None -> (0 <= K)%Q ->
  (forall t e c gd0 s0 gd1 s1, launched cf g ck mk (set_source t e s) c gd0 s0 -> first_generation (c_fitness c) gd0 s0 = Ok gd1 s1 -> rnd_seed s1 = None ->
    at_most s1 (worth Y (length (log s)) 1 0 0) (ga_loop fuel (Z.to_nat (num_generations gd1 - 1)) c gd1) K) ->
  at_most s (worth Y (length (log s)) 1 0 0) (ga_optimize fuel cf false g Hyperbola (SelTournament (cf_tournament_size cf)) ck mk false) K.
Proof.
  intros fuel cf g ck mk s Y K Hs Kp Hl.
  assert (Pre : forall {A B} (x : M A) (h : A -> M B) s1, treelike x -> fuelless x -> rnd_seed s1 = None ->
    (forall a s2, arises x s1 (Ok a s2) -> rnd_seed s2 = None -> at_most s2 (worth Y (length (log s)) 1 0 0) (h a) K) -> at_most s1 (worth Y (length (log s)) 1 0 0) (bind x h) K).
  { intros A B x h s1 Tx Fx Hs1 Hh. apply (am_bind s1 _ _ _ (fun _ _ => K)).
    - apply tree_bound; auto. intros o Ho. destruct o; cbn [worth]; [apply Qle_refl|exact Kp|exact Kp].
    - intros a s2 Ho. apply Hh; auto. eapply arises_seedless; eauto. }
  unfold ga_optimize.
  apply Pre; auto; [apply tr_do_seed|apply fl_do_seed|]. intros u s1 A1 H1. destruct u.
  apply Pre; auto; [apply tr_lift|apply fl_lift|]. intros p s2 A2 H2.
  apply Pre; auto; [apply tr_lift|apply fl_lift|]. intros fc s3 A3 H3.
  apply Pre; auto; [apply tr_lift|apply fl_lift|]. intros m0 s4 A4 H4.
  apply Pre; auto; [apply tr_lift|apply fl_lift|]. intros ng s5 A5 H5.
  apply Pre; auto; [apply tr_fill|apply fl_fill|]. intros p' s6 A6 H6.
  cbv zeta. set (gd0 := new_gadata false (cf_num_generations cf) (cf_children_percent cf) (resolved_stop cf) p').
  set (c := mkComps (fst fc) (SelTournament (cf_tournament_size cf)) ck m0 ng).
  assert (La : forall t6 e6, exists t e, launched cf g ck mk (set_source t e s) c gd0 (set_source t6 e6 s6)).
  { intros t6 e6. destruct (A6 t6 e6) as (t5 & e5 & E6). destruct (A5 t5 e5) as (t4 & e4 & E5). destruct (A4 t4 e4) as (t3 & e3 & E4).
    destruct (A3 t3 e3) as (t2 & e2 & E3). destruct (A2 t2 e2) as (t1 & e1 & E2). destruct (A1 t1 e1) as (t0 & e0 & E1). cbn [with_source] in *.
    apply lift_ok in E2. destruct E2 as [Sp X2]. apply lift_ok in E3. destruct E3 as [Nf X3]. apply lift_ok in E4. destruct E4 as [Nm X4]. apply lift_ok in E5. destruct E5 as [Nn X5].
    exists t0, e0, p, (set_source t1 e1 s1), p', (fst fc), (snd fc), m0, ng. split; [exact Sp|]. split; [exact E1|].
    split; [rewrite <- E6; f_equal; congruence|]. split; [rewrite Nf; destruct fc; reflexivity|]. split; [exact Nm|]. split; [exact Nn|]. split; reflexivity. }
  apply (am_bind s6 _ _ _ (fun r s' => unseen Y (length (log s)) s')).
  - apply (am_weaken s6 (worth Y (length (log s)) 1 0 0) _ _ K); [|intros o _; destruct o; cbn [worth]; try apply Qle_refl; apply Qle_lteq; right; ring|apply Qle_refl].
    unfold run_loop.
    apply Pre; auto; [apply tr_fitness_execute|apply fl_fitness_execute|]. intros u s7 A7 H7.
    apply Pre; auto; [apply tr_update|apply fl_update|]. intros gd1 s8 A8 H8.
    destruct (A8 (tape s8) (ent s8)) as (t7 & e7 & E8). destruct (A7 t7 e7) as (t6 & e6 & E7). cbn [with_source] in E7, E8. rewrite source_same in E8.
    destruct (La t6 e6) as (t & e & L). clear La A1 A2 A3 A4 A5 A6 A7 A8.
    assert (F : first_generation (c_fitness c) gd0 (set_source t6 e6 s6) = Ok gd1 s8) by (unfold first_generation, bind; rewrite E7; exact E8).
    exact (Hl t e c gd0 _ gd1 s8 L F H8).
  - intros [c' gd'] s7 A7. cbn [snd]. apply tree_bound.
    + apply tr_bind; [|intros; apply tr_ret]. destruct (cf_is_print cf); [|apply tr_ret]. unfold print_best_solution. destruct (best_solution gd') as [|i0 k0|l0 [k0|]]; try apply tr_raise; try apply tr_ret.
      apply tr_miter. intros a. destruct (phenotype a); [apply tr_ret|apply tr_raise].
    + eapply arises_seedless; [|exact H6|exact A7]. unfold run_loop. apply tr_bind; [apply tr_fitness_execute|]. intros. apply tr_bind; [apply tr_update|]. intros. apply tr_ga_loop.
    + intros o Ho. destruct o as [x s8|x|]; cbn [worth].
      * destruct (Ho (tape s8) (ent s8)) as (t7 & e7 & E7). cbn [with_source] in E7. rewrite source_same in E7. bd E7 u s9 R. apply ret_ok in E7. destruct E7 as [-> ->].
        assert (s9 = set_source t7 e7 s7) as ->. { destruct (cf_is_print cf); [eapply print_ok; eauto|]. apply ret_ok in R. destruct R; auto. }
        apply Qle_lteq. right. change (unseen Y (length (log s)) (set_source t7 e7 s7)) with (unseen Y (length (log s)) s7). ring.
      * apply unseen_bounds.
      * apply unseen_bounds.
Qed.

(** *** Where the loop starts *)
Lemma new_fitness_asks : forall o t d p conds f cl, new_fitness Hyperbola o t d p conds = inr (f, cl) -> obj_function f = o /\ input_data f = d.
Proof.
  intros o t d p conds f cl H. unfold new_fitness in H. cbv zeta in H. destruct p as [|p|]; [inversion H; auto| |discriminate H].
  destruct (_ <=? 1); [inversion H; auto|]. cbn [is_multi_kind] in H. destruct (index_of _ _); [inversion H; auto|discriminate H].
Qed.
Lemma steady_repeatable : forall cf f cl space, repeatable cf space -> new_fitness Hyperbola (cf_objective cf) (cf_obj_value cf) (cf_input_data cf) (cf_penalty cf) (cf_conditions cf) = inr (f, cl) ->
  steady f space.
Proof.
  intros cf f cl space (F & HF) Nf. destruct (new_fitness_asks _ _ _ _ _ _ _ Nf) as [Eo Ei]. intros k k' pt v v' Hp C C'.
  apply called_answers in C. apply called_answers in C'. rewrite Eo, Ei in *. pose proof (HF k pt Hp) as A. pose proof (HF k' pt Hp) as A'.
  assert (U : forall kk w, answers (cf_objective cf) (given (cf_input_data cf)) kk pt (inr w) -> answers (cf_objective cf) (given (cf_input_data cf)) kk pt (inr (F pt)) -> w = F pt).
  { clear. intros kk w H1 H2. inversion H1; subst; inversion H2; congruence. }
  rewrite (U _ _ C A), (U _ _ C' A'). reflexivity.
Qed.
Lemma live_start : forall (fuel : nat) cf a b k s t0 e0 c gd0 s0 gd1 s1 x, in_order cf (GenOrd a b k) Order (new_combi Movement) (GenOrd a b k) (MutCombi Movement x) ->
  repeatable cf (arrangement a b k) -> full_length cf -> launched cf (GenOrd a b k) Order (new_combi Movement) (set_source t0 e0 s) c gd0 s0 ->
  first_generation (c_fitness c) gd0 s0 = Ok gd1 s1 -> rnd_seed s1 = None ->
  num_generations gd1 = cf_num_generations cf /\
  live (fun _ => True) (length (log s)) (cf_tournament_size cf) (children cf) (cf_num_individ cf) x a b k (later_generations cf) c gd1 s1.
Proof.
  intros fuel cf a b k s t0 e0 c gd0 s0 gd1 s1 x IO Rp [Fl1 Fl2] La F H1. pose proof IO as (I1 & I2 & I3 & I4 & I5 & I6 & I7 & I8 & I9). pose proof I1 as ((Ht1 & Ht2) & Hc & Htr & Hl).
  destruct (launched_going fuel cf _ _ _ _ c gd0 s0 _ _ La I1 I2 I3 I4 I5 I6 I7 I8 I9) as (Eg0 & Em0 & Go).
  destruct (Go 0%nat c gd1 s1) as (G & _ & Eg & _); [exists gd1, s1; split; [exact F|apply steps_0]|].
  destruct (launched_first _ _ _ _ _ _ _ _ La) as (_ & _ & St & En & Ec & Eng & Ees & Et & Er & El). pose proof G as (_ & Si & Gs & _).
  destruct (first_ok (fun _ => True) _ _ _ _ _ Qorder Gs (proj1 Si) (started_init _ _ St) F) as (cs & l0 & bst & md & wr & Fi & _).
  destruct (fi_params _ _ _ _ _ _ _ _ _ _ Fi) as (P1 & P2 & P3). destruct (fi_members _ _ _ _ _ _ _ _ _ _ Fi) as [_ Pm]. pose proof (fi_pop _ _ _ _ _ _ _ _ _ _ Fi) as Ep.
  pose proof (fi_best _ _ _ _ _ _ _ _ _ _ Fi) as (_ & Bn).
  destruct La as (p & s2 & p' & f & cl & m & ng & Sp & Ds & Fil & Nf & Nm & Nn & -> & ->). destruct (set_params_ok _ _ _ _ _ _ _ Sp Fil) as (_ & Np & _ & Lm).
  split; [congruence|]. constructor; auto.
  - unfold pairs_of. rewrite P3, Ep, Ec. cbn [num_individ set_sorted set_members] in *. rewrite En. reflexivity.
  - exact (steady_repeatable cf f cl _ Rp Nf).
  - rewrite (fi_log _ _ _ _ _ _ _ _ _ _ Fi), app_length, El. cbn [log set_source set_ent set_tape]. lia.
  - rewrite (Permutation_length Pm). cbn [population new_gadata]. unfold room. lia.
  - rewrite Ep. exact En.
  - rewrite P2, Ees. unfold resolved_stop, later_generations. destruct (cf_early_stop cf) as [e1|]; [specialize (Fl2 e1 eq_refl)|]; eexists; (split; [reflexivity|]); rewrite Bn; lia.
Qed.
(** The level of the mutation. *)
Lemma level_gate : forall l x, new_combi Movement l = inr (MutCombi Movement x) -> (level_chance l == flip_chance x)%Q.
Proof.
  intros l x H. unfold new_combi in H. destruct l as [st|y|]; [| |discriminate H]; cbn [level_chance].
  - destruct (String.eqb st "weak"); [|destruct (String.eqb st "normal"); [|destruct (String.eqb st "strong"); [|discriminate H]]]; inversion H; reflexivity.
  - destruct (out_of_01 y); [discriminate H|]. inversion H. reflexivity.
Qed.
Lemma generation_raise : forall n t m k g g', 3 <= k -> (0 <= g <= g')%Q -> (generation_chance n t m k g <= generation_chance n t m k g')%Q.
Proof.
  intros n t m k g g' Hk [G0 G1]. unfold generation_chance. rewrite !(Qmult_comm (qpow (/ _ * / _) _)). apply Qmult_le_compat_r.
  - rewrite !(Qmult_comm (qpow (cut_luck _) _)). apply Qmult_le_compat_r.
    + assert (F : (0 < falling (Z.to_nat k) 2)%nat) by (apply falling_pos; lia). pose proof (inv_nat_pos _ F). apply qpow_raise; unfold move_luck.
      * apply Qmult_le_0_compat; auto. lra.
      * apply Qmult_le_compat_r; auto. lra.
    + apply qpow_nonneg. unfold cut_luck. assert (F : (0 < falling (Z.to_nat k - 1) 2)%nat) by (apply falling_pos; lia). pose proof (inv_nat_pos _ F). change (/ inject_Z (Z.of_nat 2))%Q with (1 # 2)%Q. lra.
  - apply qpow_nonneg. assert (0 <= / inject_Z (Z.of_nat (room n m ^ Z.to_nat t)))%Q by (apply Qinv_le_0_compat; change 0%Q with (inject_Z 0); rewrite <- Zle_Qle; lia). apply Qmult_le_0_compat; auto.
Qed.
Lemma generation_positive : forall n t m k g, 1 <= n \/ 0 <= m -> 3 <= k -> (0 < g)%Q -> (0 < generation_chance n t m k g)%Q.
Proof.
  intros n t m k g Hn Hk Hg. unfold generation_chance. apply Qmult_lt_0_compat; [|apply Qmult_lt_0_compat]; apply qpow_positive.
  - assert (Bp : (0 < room n m ^ Z.to_nat t)%nat) by (apply Nat.neq_0_lt_0, Nat.pow_nonzero; unfold room; lia). pose proof (inv_nat_pos _ Bp). apply Qmult_lt_0_compat; lra.
  - unfold cut_luck. assert (F : (0 < falling (Z.to_nat k - 1) 2)%nat) by (apply falling_pos; lia). pose proof (inv_nat_pos _ F). change (/ inject_Z (Z.of_nat 2))%Q with (1 # 2)%Q. lra.
  - unfold move_luck. assert (F : (0 < falling (Z.to_nat k) 2)%nat) by (apply falling_pos; lia). pose proof (inv_nat_pos _ F). apply Qmult_lt_0_compat; lra.
Qed.

(** *** The theorems *)
(** For any [g] that mutation does not fall below. *)
Lemma tour_missed : forall fuel cf a b k s z Y g, (0 < fuel)%nat -> valid_shape cf -> many_children cf -> 3 <= k -> k = b - a + 1 ->
  level_named (cf_mutation_lvl cf) \/ level_number (cf_mutation_lvl cf) -> (0 <= g <= level_chance (cf_mutation_lvl cf))%Q ->
  Forall (arrangement a b k) (cf_input_population cf) -> task cf (arrangement a b k) -> repeatable cf (arrangement a b k) -> full_length cf -> rnd_seed s = None ->
  arrangement a b k z -> Y z = true ->
  exists p, probability (combinatory_ga fuel cf a b k) s (returns_without s Y) p /\
    (p <= qpow (1 - qpow (generation_chance (cf_num_individ cf) (cf_tournament_size cf) (children cf) k g) (path_length k)) (later_generations cf / path_length k))%Q.
Proof.
  intros [|fuel] cf a b k s z Y g Hf V Mc Hk Ek Hl [Hg0 Hg] Hin Ta Rp Fl Hs Az HY; [lia|].
  destruct (combinatory_order cf a b k V) as (x & IO); auto; [lia|]. pose proof IO as (_ & _ & _ & Em & _).
  rewrite (level_gate _ _ Em) in Hg. pose proof V as ((Ht1 & Ht2) & Hc & _ & _). unfold many_children in Mc.
  assert (Hlen : forall y, in_domain (GenOrd a b k) y -> length y = Z.to_nat k) by (intros y (zs & -> & Lz & _); rewrite map_length; lia).
  assert (Hhop : forall y, in_domain (GenOrd a b k) y -> hops (Z.to_nat k) (2 * Z.to_nat k) y z) by (intros y Dy; apply (full_tours a b k y z Ek ltac:(lia) Dy Az)).
  assert (G1 : (g <= @gate Qops x)%Q) by (eapply Qle_trans; [exact Hg|apply Q.le_min_l]). assert (G2 : (g <= 1 - @gate Qops x)%Q) by (eapply Qle_trans; [exact Hg|apply Q.le_min_r]).
  set (w := generation_chance _ _ _ _ _).
  assert (Wr : (0 <= w <= 1)%Q) by (apply (w_range (cf_tournament_size cf) (children cf) (cf_num_individ cf) (x : @num Qops) g k); auto; lia).
  assert (Q1 : (0 <= 1 - qpow w (path_length k))%Q) by (pose proof (qpow_le_one w (path_length k) (proj1 Wr) (proj2 Wr)); lra).
  eapply am_weaken; [apply (optimize_bound (S fuel) cf (GenOrd a b k) Order (new_combi Movement) s Y (qpow (1 - qpow w (path_length k)) (later_generations cf / path_length k)) Hs)| |apply Qle_refl].
  - apply qpow_nonneg. exact Q1.
  - intros t0 e0 c gd0 s0 gd1 s1 La F H1. destruct (live_start fuel cf a b k s t0 e0 c gd0 s0 gd1 s1 x IO Rp Fl La F H1) as [Eng Lv]. rewrite Eng. fold (later_generations cf).
    pose proof (blocks (fun _ => True) Qorder Y (length (log s)) (cf_tournament_size cf) (children cf) (cf_num_individ cf) (x : @num Qops) g a b k z ltac:(lia) Hg0 G1 G2 Hk Hlen Hhop HY fuel
      (later_generations cf / path_length k) (later_generations cf mod path_length k)) as Bl.
    rewrite (Nat.mul_comm _ (path_length k)), <- Nat.div_mod in Bl by discriminate. exact (Bl c gd1 s1 Lv).
  - intros o _. destruct o as [r s'|e|]; cbn [returns_without worth indicator]; [|apply Qle_refl|apply Qle_refl].
    unfold unseen, seen, new_calls. apply Qle_lteq. right. ring.
Qed.
(** C86.  A run of CombinatoryGA on the full tours a..b that returns has evaluated the
    given tour except with probability (1 - d)^((N - 1) / T) where N is the number of
    generations, T = 2k + 1 and d = tour_chance > 0 (for levels strictly between 0 and
    0.999).  The objective may be any, penalised or not, as long as it answers the same tour
    alike. *)
Theorem C86_combinatory : forall fuel cf a b k s z Y, (0 < fuel)%nat -> valid_shape cf -> many_children cf -> 3 <= k -> k = b - a + 1 ->
  level_named (cf_mutation_lvl cf) \/ level_number (cf_mutation_lvl cf) ->
  Forall (arrangement a b k) (cf_input_population cf) -> task cf (arrangement a b k) -> repeatable cf (arrangement a b k) -> full_length cf -> rnd_seed s = None ->
  arrangement a b k z -> Y z = true ->
  exists p, probability (combinatory_ga fuel cf a b k) s (returns_without s Y) p /\ (p <= qpow (1 - tour_chance cf k) (later_generations cf / path_length k))%Q.
Proof.
  intros fuel cf a b k s z Y Hf V Mc Hk Ek Hl Hin Ta Rp Fl Hs Az HY. apply (tour_missed fuel cf a b k s z Y); auto. split; [|apply Qle_refl].
  unfold level_chance. destruct (cf_mutation_lvl cf); [|exact (proj1 (flip_range _))|discriminate]. destruct (String.eqb _ _); [exact (proj1 (flip_range _))|]. destruct (String.eqb _ _); exact (proj1 (flip_range _)).
Qed.
(** The chance is positive, and bounded below by the sizes alone. *)
Lemma level_positive : forall l, level_named l \/ match l with LFloat x => between x | _ => False end -> (1 # 1000 <= level_chance l)%Q.
Proof.
  intros l H. unfold level_chance. destruct l as [st|x|]; cbn in H; [|apply flip_positive; tauto|tauto].
  destruct (String.eqb _ _); [apply flip_positive; split; [discriminate|reflexivity]|]. destruct (String.eqb _ _); apply flip_positive; split; (discriminate || reflexivity).
Qed.
Theorem C86_chance_positive : forall cf k, valid_shape cf -> 3 <= k -> level_named (cf_mutation_lvl cf) \/ match cf_mutation_lvl cf with LFloat x => between x | _ => False end ->
  (0 < tour_chance cf k)%Q.
Proof.
  intros cf k ((Ht1 & Ht2) & _) Hk Hl. pose proof (level_positive _ Hl) as L. apply qpow_positive. apply generation_positive; [left; lia|exact Hk|]. eapply Qlt_le_trans; [|exact L]. reflexivity.
Qed.

(** With transfer "random", or with at least as many children as individuals, so does the
    whole run: the searches for second parents come to an end. *)
Lemma two_events : forall {A} s (m : M A) (E1 E2 E : outcome A -> bool) q1 q2, treelike m -> rnd_seed s = None ->
  (forall t e o, E1 (with_source t e o) = E1 o) -> (forall t e o, E2 (with_source t e o) = E2 o) -> (forall o, arises m s o -> E o = true -> E1 o = true \/ E2 o = true) ->
  (exists p, probability m s E1 p /\ p <= q1)%Q -> (exists p, probability m s E2 p /\ p <= q2)%Q -> exists p, (probability m s E p /\ p <= q1 + q2)%Q.
Proof.
  intros A s m E1 E2 E q1 q2 Tr Hs U1 U2 Imp (p1 & X1 & L1) (p2 & X2 & L2).
  destruct (plain_plus s (fun o => indicator (E1 o)) (fun o => indicator (E2 o)) m (proj1 (Tr s Hs))) as (p1' & p2' & Y1 & Y2 & Y3).
  assert (e1 : (p1' == p1)%Q) by (eapply expects_unique; [|exact Y1|exact X1]; intros t e o; rewrite U1; apply Qeq_refl).
  assert (e2 : (p2' == p2)%Q) by (eapply expects_unique; [|exact Y2|exact X2]; intros t e o; rewrite U2; apply Qeq_refl).
  eapply am_weaken; [exists (p1' + p2')%Q; split; [exact Y3|apply Qle_refl]| |lra].
  intros o Ho. specialize (Imp o Ho). destruct (E o); [|destruct (E1 o), (E2 o); discriminate]. destruct (Imp eq_refl) as [-> | ->]; [destruct (E2 o); discriminate|destruct (E1 o); discriminate].
Qed.
Theorem C86_combinatory_ends : forall fuel cf a b k s z Y, (0 < fuel)%nat -> valid_shape cf -> many_children cf -> 3 <= k -> k = b - a + 1 ->
  level_named (cf_mutation_lvl cf) \/ level_number (cf_mutation_lvl cf) ->
  Forall (arrangement a b k) (cf_input_population cf) -> task cf (arrangement a b k) -> repeatable cf (arrangement a b k) -> full_length cf -> no_twins cf -> rnd_seed s = None ->
  arrangement a b k z -> Y z = true ->
  exists p, probability (combinatory_ga fuel cf a b k) s (fails s Y) p /\ (p <= qpow (1 - tour_chance cf k) (later_generations cf / path_length k) + patience cf fuel)%Q.
Proof.
  intros fuel cf a b k s z Y Hf V Mc Hk Ek Hl Hin Ta Rp Fl NT Hs Az HY.
  apply (two_events s _ (returns_without s Y) unfinished); auto.
  - apply tr_optimize.
  - intros t e o. destruct o; reflexivity.
  - intros t e o. destruct o; reflexivity.
  - intros o _. destruct o; cbn [fails returns_without unfinished]; auto.
  - apply (C86_combinatory fuel cf a b k s z Y); auto.
  - apply C83_combinatory; auto. lia.
Qed.

(** So is the best that is reported as good as any tour, up to this risk. *)
Lemma measures_repeatable : forall cf f space, measures cf f space -> repeatable cf space.
Proof. intros cf f space H. exists (fun pt => OScalar (f pt : @num Qops)). exact H. Qed.
Lemma combinatory_seen : forall fuel cf a b k s z f, Forall (arrangement a b k) (cf_input_population cf) -> cf_penalty cf = PNone -> measures cf f (arrangement a b k) ->
  forall r s', arises (combinatory_ga fuel cf a b k) s (Ok r s') -> existsb (fun call => Qeq_bool (f (fst call)) (f z)) (new_calls s s') = true -> reports_worse (cf_obj_value cf) (f z) (Ok r s') = false.
Proof.
  intros fuel cf a b k s z f Hin Pn Me [gd' cl] s' Ho Ex. destruct (Ho (tape s') (ent s')) as (t & e & E). cbn [with_source] in E. rewrite source_same in E.
  refine (best_seen fuel cf (GenOrd a b k) Order (new_combi Movement) (set_source t e s) gd' cl s' f (arrangement a b k) z Pn Me E _ Ex).
  destruct (C44_combinatory _ _ _ _ _ _ _ _ _ Hin E) as (calls & El & F). exists calls. split; auto.
Qed.
Theorem C86_combinatory_best : forall fuel cf a b k s z f, (0 < fuel)%nat -> valid_shape cf -> many_children cf -> 3 <= k -> k = b - a + 1 ->
  level_named (cf_mutation_lvl cf) \/ level_number (cf_mutation_lvl cf) -> Forall (arrangement a b k) (cf_input_population cf) ->
  cf_penalty cf = PNone -> match cf_obj_value cf with TL _ => False | _ => True end -> measures cf f (arrangement a b k) -> full_length cf -> rnd_seed s = None -> arrangement a b k z ->
  (exists p, probability (combinatory_ga fuel cf a b k) s (reports_worse (cf_obj_value cf) (f z)) p /\ (p <= qpow (1 - tour_chance cf k) (later_generations cf / path_length k))%Q) /\
  (no_twins cf -> exists p, probability (combinatory_ga fuel cf a b k) s (worse_or_lost (cf_obj_value cf) (f z)) p /\
    (p <= qpow (1 - tour_chance cf k) (later_generations cf / path_length k) + patience cf fuel)%Q).
Proof.
  intros fuel cf a b k s z f Hf V Mc Hk Ek Hl Hin Pn Ov Me Fl Hs Az.
  assert (Ta : task cf (arrangement a b k)) by (left; split; [exact Pn|split; [exact Ov|]]; intros j pt Hp; exists (f pt); apply Me; auto).
  set (Y := fun pt => Qeq_bool (f pt) (f z)). assert (HY : Y z = true) by (apply Qeq_bool_iff; reflexivity).
  pose proof (combinatory_seen fuel cf a b k s z f Hin Pn Me) as Imp. pose proof (measures_repeatable _ _ _ Me) as Rp. split.
  - eapply am_weaken; [apply (C86_combinatory fuel cf a b k s z Y); auto| |apply Qle_refl].
    intros o Ho. destruct o as [r s'|x|]; cbn [returns_without]; [|apply Qle_refl|apply Qle_refl]. specialize (Imp r s' Ho). unfold Y.
    destruct (existsb _ (new_calls s s')); [rewrite Imp by auto; apply Qle_refl|]. apply indicator_bounds.
  - intros NT. eapply am_weaken; [apply (C86_combinatory_ends fuel cf a b k s z Y); auto| |apply Qle_refl].
    intros o Ho. destruct o as [r s'|x|]; cbn [fails worse_or_lost]; [|apply Qle_refl|apply Qle_refl]. specialize (Imp r s' Ho). unfold Y.
    destruct (existsb _ (new_calls s s')); [rewrite Imp by auto; apply Qle_refl|]. apply indicator_bounds.
Qed.

(** In the limit: how many generations are enough depends on the four sizes alone. *)
Lemma enough_blocks : forall N T k, (0 < T)%nat -> (N * T <= k)%nat -> (N <= k / T)%nat.
Proof. intros N T k HT H. apply Nat.div_le_lower_bound; lia. Qed.
Theorem C86_combinatory_limit : forall n t m k eps, 3 <= k -> (0 < eps)%Q ->
  exists N, forall cf a b s z f, cf_num_individ cf = n -> cf_tournament_size cf = t -> children cf = m -> k = b - a + 1 -> N <= cf_num_generations cf ->
    valid_shape cf -> many_children cf -> level_named (cf_mutation_lvl cf) \/ match cf_mutation_lvl cf with LFloat x => between x | _ => False end ->
    Forall (arrangement a b k) (cf_input_population cf) -> cf_penalty cf = PNone -> match cf_obj_value cf with TL _ => False | _ => True end ->
    measures cf f (arrangement a b k) -> full_length cf -> rnd_seed s = None -> arrangement a b k z ->
    (forall fuel, (0 < fuel)%nat -> exists p, probability (combinatory_ga fuel cf a b k) s (reports_worse (cf_obj_value cf) (f z)) p /\ (p < eps)%Q) /\
    (no_twins cf -> exists enough, forall fuel, (enough <= fuel)%nat ->
      exists p, probability (combinatory_ga fuel cf a b k) s (worse_or_lost (cf_obj_value cf) (f z)) p /\ (p < eps)%Q).
Proof.
  intros n t m k eps Hk He. destruct (Z_lt_le_dec n 1) as [Neg|Hn].
  { exists 0. intros cf a b s z f En Et _ _ _ ((Ht1 & Ht2) & _). lia. }
  set (d := qpow (generation_chance n t m k (1 # 1000)) (path_length k)). assert (Dp : (0 < d)%Q) by (apply qpow_positive, generation_positive; auto; reflexivity).
  destruct (misses_vanish d (eps * (1 # 2)) Dp) as (N & HN); [lra|]. exists (Z.of_nat (N * path_length k) + 1).
  intros cf a b s z f En Et Em Ek LN V Mc Ml Hin Pn Ov Me Fl Hs Az. pose proof V as ((Ht1 & Ht2) & _).
  assert (Hl : level_named (cf_mutation_lvl cf) \/ level_number (cf_mutation_lvl cf)).
  { clear - Ml. destruct (cf_mutation_lvl cf) as [st|x|]; cbn in *; [left; tauto|right; destruct Ml as [[]|Ml]; destruct Ml; split; lra|tauto]. }
  pose proof (level_positive _ Ml) as Lp.
  assert (Bd : (qpow (1 - tour_chance cf k) (later_generations cf / path_length k) < eps * (1 # 2))%Q).
  { apply HN.
    - unfold d, tour_chance. rewrite En, Et, Em. apply qpow_raise; [apply Qlt_le_weak, generation_positive; auto; reflexivity|apply generation_raise; auto; split; [discriminate|exact Lp]].
    - unfold tour_chance. destruct (combinatory_order cf a b k V ltac:(lia) Hl Hin) as (x & IO).
      { left; split; [exact Pn|split; [exact Ov|]]; intros j pt Hp; exists (f pt); apply Me; auto. }
      pose proof IO as (_ & _ & _ & Enc & _). pose proof (level_gate _ _ Enc) as Lg. unfold many_children in Mc.
      assert (W : (0 <= generation_chance (cf_num_individ cf) (cf_tournament_size cf) (children cf) k (level_chance (cf_mutation_lvl cf)) <= 1)%Q).
      { apply (w_range (cf_tournament_size cf) (children cf) (cf_num_individ cf) (x : @num Qops) (level_chance (cf_mutation_lvl cf)) k); auto; try lia.
        - lra.
        - rewrite Lg. apply Q.le_min_l.
        - rewrite Lg. apply Q.le_min_r. }
      apply qpow_le_one; tauto.
    - apply enough_blocks; [unfold path_length; lia|]. unfold later_generations. lia. }
  split.
  - intros fuel Hf. destruct (C86_combinatory_best fuel cf a b k s z f Hf V Mc Hk Ek Hl Hin Pn Ov Me Fl Hs Az) as ((p & Pp & Lq) & _). exists p. split; auto. lra.
  - intros NT. destruct (patience_vanishes cf (eps * (1 # 2)) V) as (f0 & Hf0); [lra|]. exists (S f0). intros fuel Lf. specialize (Hf0 fuel ltac:(lia)).
    destruct (C86_combinatory_best fuel cf a b k s z f ltac:(lia) V Mc Hk Ek Hl Hin Pn Ov Me Fl Hs Az) as (_ & K). destruct (K NT) as (p & Pp & Lq). exists p. split; auto. lra.
Qed.

(** *** Examples *)
(** The problem on which one child per generation is not enough (C84), from the same three
    tours, with two children. *)
Definition escape_cf (N : Z) : config :=
  mkCfg N 3 (Obj1 (fun _ x => inr (OScalar (trap_value x : @num Qops)))) TNone None PNone None (3#4 : @num Qops)%Q None trap_home 2 (LStr "strong") "best" false.
Lemma escape_shape : forall N, valid_shape (escape_cf N).
Proof. intros N. split; [cbn; lia|]. split; [vm_compute; discriminate|]. split; [left; reflexivity|]. cbn. lia. Qed.
Example C86_escape : forall eps, (0 < eps)%Q -> exists N0, forall N fuel s, N0 <= N -> 1 <= N -> (0 < fuel)%nat -> rnd_seed s = None ->
  exists p, probability (combinatory_ga fuel (escape_cf N) 0 5 6) s (reports_worse TNone (trap_value trap_best)) p /\ (p < eps)%Q.
Proof.
  intros eps He. destruct (C86_combinatory_limit 3 2 2 6 eps ltac:(lia) He) as (N0 & K). exists N0. intros N fuel s LN HN Hf Hs. destruct trap_tours as (A & _ & B).
  destruct (K (escape_cf N) 0 5 s trap_best trap_value) as (R & _); auto.
  - apply escape_shape.
  - vm_compute. discriminate.
  - left. right. right. reflexivity.
  - exact I.
  - intros k pt _. cbn [cf_objective cf_input_data escape_cf given]. exact (answer_1 (fun _ x => inr (OScalar (trap_value x : @num Qops))) k pt).
  - split; [exact HN|intros e E; discriminate E].
Qed.
(** The chance of one lucky generation there. *)
Example C86_chance_case : Qeq_bool (generation_chance 3 2 2 6 (level_chance (LStr "strong"))) (qpow (1 # 256) 2 * (qpow (1 # 40) 2 * qpow ((301 # 1000) * (1 # 30)) 2)) = true.
Proof. vm_compute. reflexivity. Qed.
(** A penalised task: any tour of 0, 1, 2, 3 is tried. *)
Example C86_penalised_case : forall N fuel s z Y, 1 <= N -> (0 < fuel)%nat -> rnd_seed s = None -> arrangement 0 3 4 z -> Y z = true ->
  exists p, probability (combinatory_ga fuel (with_generations N (cond_cf dynamic ["<="; "optimize"; "!="] (LStr "normal"))) 0 3 4) s (returns_without s Y) p /\
    (p <= qpow (1 - tour_chance (cond_cf dynamic ["<="; "optimize"; "!="] (LStr "normal")) 4) (Z.to_nat (N - 1) / 9))%Q.
Proof.
  intros N fuel s z Y HN Hf Hs Az HY. apply (C86_combinatory fuel (with_generations N (cond_cf dynamic ["<="; "optimize"; "!="] (LStr "normal"))) 0 3 4 s z Y); auto.
  - split; [cbn; lia|]. split; [vm_compute; discriminate|]. split; [left; reflexivity|]. cbn. lia.
  - vm_compute. discriminate.
  - lia.
  - left. right. left. reflexivity.
  - constructor.
  - right. exact (C67_task (LStr "normal") dynamic (arrangement 0 3 4) (or_introl eq_refl)).
  - eexists. intros k pt _. exact (answer_1 (fun _ genes => inr (OTuple [(number_of (nth 0 genes (GInt 0)) - 1)%Q; fold_left (fun acc g => (acc + number_of g * number_of g)%Q) genes 0%Q;
      (number_of (nth 0 genes (GInt 0)) - number_of (nth 1 genes (GInt 0)))%Q])) k pt).
  - split; [exact HN|intros e E; discriminate E].
Qed.
(** A run on it: 38 calls, and the reported tour. *)
Example C86_run : observe (fun r s => (length (log s), match best_solution (fst r) with BSingle i _ => (obj_score i, genotype i) | _ => (SVNone, []) end))
    (combinatory_ga 50 (with_generations 12 (cond_cf dynamic ["<="; "optimize"; "!="] (LStr "normal"))) 0 3 4 fresh_world) = Some (38%nat, (SV1 14%Q, ints [0; 2; 3; 1])).
Proof. run. Qed.

Print Assumptions C86_combinatory.
Print Assumptions C86_combinatory_ends.
Print Assumptions C86_combinatory_best.
Print Assumptions C86_combinatory_limit.
Print Assumptions C86_chance_positive.
