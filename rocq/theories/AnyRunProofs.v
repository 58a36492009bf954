(** Complete runs and their probabilities for every number type whose [<] is a strict weak
    order on the scores that occur: what PropReach.v, PropConverge.v and PropTour.v say of
    exact rationals, ready for doubles (C87). *)
From Coq Require Import String.
From Coq Require Import ZArith QArith Qminmax List Bool Lia Lqa Permutation.
From Verif Require Import AssessProofs Spec Num State Binary Population GaData Crossover Mutation Selection Penalty Fitness NewGeneration Driver
  ListLemmas Rnd Exec Laws PopulationProofs CrossoverProofs MutationProofs SelectionProofs
  NewGenProofs UpdateProofs FitnessProofs StepProofs RunProofs Runs PropRun PropBest PropFitness DomainProofs SafetyProofs
  OptimizeProofs ReachProofs PropReach Fuelless SeedProofs Chance ChanceProofs SelChanceProofs PropMutChance PropSelChance
  ChanceRun ChanceRunProofs ConvergeProofs PropConverge LuckProofs TourLuck TourSteps TourPaths TourRun.
Import ListNotations.
Open Scope string_scope.
Open Scope list_scope.
Open Scope Z_scope.

Section Any.
  Context {NO : NumOps} (ok : num -> Prop) (NL : NumOrder NO ok) (N0 : neqb (nofZ 0) nzero = true).

  (** Children of a generation. *)
  Definition offspring (cf : config) : Z := match ntrunc (nmul (cf_children_percent cf) (nofZ (cf_num_individ cf))) with Some x => x | None => 0 end.
  (** A configuration whose runs raise nothing: see [optimize_safe_any]. *)
  Definition fits (cf : config) (g : gspec) (ck : crossover_kind) (mk : lvl -> exn + mutation) (g' : gspec) (m : mutation) : Prop :=
    valid_any cf /\ prepare g = inr g' /\
    Forall (fun x => exists geno, input_genotype g' x = inr geno /\ in_domain g' geno) (cf_input_population cf) /\
    mk (cf_mutation_lvl cf) = inr m /\ belongs ck m g' /\ mut_spec_ok m g' /\
    (forall x, in_domain g' x -> (min_len ck <= length x)%nat /\ mut_pre m g' x /\ Forall (gene_ok (ok := ok)) x) /\
    (forall x, in_domain g' x -> match g' with GenBinary gray gens bp => exists ph, decode_genotype gray gens bp x = inr ph | _ => True end) /\
    evaluates cf (domain_point g') /\
    (forall f cl, new_fitness Hyperbola (cf_objective cf) (cf_obj_value cf) (cf_input_data cf) (cf_penalty cf) (cf_conditions cf) = inr (f, cl) -> good_scores ok f).
  Definition all_generations (cf : config) : Prop :=
    1 <= cf_num_generations cf /\ forall e, cf_early_stop cf = Some e -> cf_num_generations cf - 1 <= e.
  Definition no_copies (cf : config) : Prop := cf_transfer cf = "random" \/ cf_num_individ cf <= offspring cf.
  Definition after_first (cf : config) : nat := Z.to_nat (cf_num_generations cf - 1).
  Definition searching (cf : config) (fuel : nat) : Q :=
    (inject_Z (Z.of_nat (after_first cf)) * (inject_Z (offspring cf) * qpow (inject_Z (cf_tournament_size cf) / inject_Z (cf_num_individ cf)) fuel))%Q.

  Lemma offspring_some : forall cf, valid_any cf -> ntrunc (nmul (cf_children_percent cf) (nofZ (cf_num_individ cf))) = Some (offspring cf) /\ 1 <= offspring cf.
  Proof. intros cf (_ & (x & Ex & Hx) & _). unfold offspring. rewrite Ex. auto. Qed.

  Lemma any_first : forall cf g ck mk s c gd0 s0, launched cf g ck mk s c gd0 s0 ->
    started gd0 s0 /\ num_individ (population gd0) = cf_num_individ cf /\ children_percent gd0 = cf_children_percent cf /\
     num_generations gd0 = cf_num_generations cf /\ early_stop gd0 = resolved_stop cf /\ c_selection c = SelTournament (cf_tournament_size cf) /\
     (cf_transfer cf = "random" -> ng_transfer (c_newgen c) = TRandom) /\ log s0 = log s.
  Proof.
    intros cf g ck mk s c gd0 s0 (p & s1 & p' & f & cl & m & ng & Sp & Ds & Fi & Nf & Nm & Nn & -> & ->).
    split; [exists (cf_num_individ cf), g, (cf_input_population cf), p, s1, p', (cf_num_generations cf), (cf_children_percent cf), (resolved_stop cf); auto|].
    destruct (set_params_ok _ _ _ _ _ _ _ Sp Fi) as (Pg' & Np & _ & Lm). split; auto. split; auto. split; auto. split; auto. split; auto. split.
    - intros Et. unfold new_newgen in Nn. rewrite Et in Nn. cbn in Nn. inversion Nn. reflexivity.
    - apply extends_do_seed in Ds. destruct Ds as ((_ & L1 & _) & _). apply fill_ok in Fi. destruct Fi as (g'' & _ & K). cbv zeta in K. destruct K as (_ & _ & (_ & L2 & _) & _). congruence.
  Qed.
  Lemma any_going : forall cf g ck mk s c gd0 s0 g' m gd1 s1, launched cf g ck mk s c gd0 s0 -> fits cf g ck mk g' m ->
    first_generation (c_fitness c) gd0 s0 = Ok gd1 s1 ->
    going ok c gd1 s1 /\ c_mutation c = m /\ gspec_of (population gd1) = g' /\ gspec_of (population gd0) = g'.
  Proof.
    intros cf g ck mk s c gd0 s0 g' m gd1 s1 (p & s2 & p' & f & cl & m0 & ng & Sp & Ds & Fi & Nf & Nm & Nn & -> & ->) (V & Pg & Hin & Hm & Bel & Ms & Hx & Hd & (f' & cl' & Nf' & Fk & Te) & Gs) F.
    rewrite Nf in Nf'. inversion Nf'; subst f' cl'. clear Nf'. rewrite Hm in Nm. inversion Nm; subst m0. clear Nm. pose proof V as ((Ht1 & Ht2) & (pc & Hx0 & Hc) & Htr & Hl).
    destruct (set_params_ok _ _ _ _ _ _ _ Sp Fi) as (Pg' & Np & _ & Lm). assert (g' = gspec_of p') by congruence. subst g'.
    set (gd0 := new_gadata false (cf_num_generations cf) (cf_children_percent cf) (resolved_stop cf) p') in *.
    set (c := mkComps f (SelTournament (cf_tournament_size cf)) ck m ng) in *.
    assert (St : started gd0 s0) by (exists (cf_num_individ cf), g, (cf_input_population cf), p, s2, p', (cf_num_generations cf), (cf_children_percent cf), (resolved_stop cf); auto).
    assert (Si : single c).
    { split; [|split]; auto; [|exact I]. cbn. unfold new_newgen in Nn. destruct (String.eqb _ _); [inversion Nn; reflexivity|]. destruct (String.eqb _ _); inversion Nn; reflexivity. }
    assert (Rdy : ready ok c gd0).
    { constructor; auto.
      - exists (cf_tournament_size cf). split; auto. cbn. rewrite Np. lia.
      - exists pc. split; auto. cbn. rewrite Np. exact Hx0. }
    assert (Pi : pop_in gd0 s0).
    { eapply fill_in; [exact N0|exact Sp|exact Fi|]. intros x geno Ix E. rewrite Forall_forall in Hin. destruct (Hin x Ix) as (geno' & E' & D). congruence. }
    specialize (Gs _ _ Nf).
    assert (G : going ok c gd1 s1).
    { eapply (first_going ok c gd0 s0); eauto.
      - apply started_init. auto.
      - cbn. rewrite Np, Lm. lia.
      - unfold gd0. cbn. unfold resolved_stop. destruct (cf_early_stop cf); eauto. }
    destruct (first_ok ok _ _ _ _ _ NL Gs Fk (started_init _ _ St) F) as (cs & l0 & bst & md & w & Fi1 & _).
    pose proof (fi_pop _ _ _ _ _ _ _ _ _ _ Fi1) as Ep. split; auto. split; auto. split; auto. rewrite Ep. reflexivity.
  Qed.

  (** *** A bound for the loop is one for the run *)
  Lemma any_print : forall gd s u s', print_best_solution gd s = Ok u s' -> s' = s.
  Proof.
    intros gd s u s' H. unfold print_best_solution in H. destruct (best_solution gd) as [|i k|l [k|]]; try discriminate; [apply ret_ok in H; destruct H; auto|].
    induction l as [|x l IH]; cbn [miter] in H; [apply ret_ok in H; destruct H; auto|]. destruct (phenotype x); [|discriminate].
    bd H v s1 R. apply ret_ok in R. destruct R as [_ ->]. auto.
  Qed.
  Lemma any_bound : forall fuel cf g ck mk s Y w K, rnd_seed s = None -> (0 <= K)%Q -> (0 <= w)%Q ->
    (forall t e c gd0 s0 gd1 s1, launched cf g ck mk (set_source t e s) c gd0 s0 -> first_generation (c_fitness c) gd0 s0 = Ok gd1 s1 -> rnd_seed s1 = None ->
      at_most s1 (worth Y (length (log s)) 1 0 w) (ga_loop fuel (Z.to_nat (num_generations gd1 - 1)) c gd1) K) ->
    at_most s (worth Y (length (log s)) 1 0 w) (ga_optimize fuel cf false g Hyperbola (SelTournament (cf_tournament_size cf)) ck mk false) K.
  Proof.
    intros fuel cf g ck mk s Y w K Hs Kp Hw Hl.
    assert (Pre : forall {A B} (x : M A) (h : A -> M B) s1, treelike x -> fuelless x -> rnd_seed s1 = None ->
      (forall a s2, arises x s1 (Ok a s2) -> rnd_seed s2 = None -> at_most s2 (worth Y (length (log s)) 1 0 w) (h a) K) -> at_most s1 (worth Y (length (log s)) 1 0 w) (bind x h) K).
    { intros A B x h s1 Tx Fx Hs1 Hh. apply (am_bind s1 _ _ _ (fun _ _ => K)).
      - apply tree_bound; auto. intros o Ho. destruct o; cbn [worth]; [apply Qle_refl|exact Kp|exfalso; exact (arises_fuel _ _ Fx Ho)].
      - intros a s2 Ho. apply Hh; auto. eapply arises_seedless; eauto. }
    unfold ga_optimize.
    apply Pre; auto; [apply tr_do_seed|apply fl_do_seed|]. intros u s1 A1 H1. destruct u.
    apply Pre; auto; [apply tr_lift|apply fl_lift|]. intros p s2 A2 H2.
    apply Pre; auto; [apply tr_lift|apply fl_lift|]. intros fc s3 A3 H3.
    apply Pre; auto; [apply tr_lift|apply fl_lift|]. intros m0 s4 A4 H4.
    apply Pre; auto; [apply tr_lift|apply fl_lift|]. intros ng s5 A5 H5.
    apply Pre; auto; [apply tr_fill|apply fl_fill|]. intros p' s6 A6 H6.
    cbv zeta. set (gd0 := new_gadata false (cf_num_generations cf) (cf_children_percent cf) (resolved_stop cf) p').
    set (c := mkComps (fst fc) (SelTournament (cf_tournament_size cf)) ck m0 ng).
    assert (La : forall t6 e6, exists t e, launched cf g ck mk (set_source t e s) c gd0 (set_source t6 e6 s6)).
    { intros t6 e6. destruct (A6 t6 e6) as (t5 & e5 & E6). destruct (A5 t5 e5) as (t4 & e4 & E5). destruct (A4 t4 e4) as (t3 & e3 & E4).
      destruct (A3 t3 e3) as (t2 & e2 & E3). destruct (A2 t2 e2) as (t1 & e1 & E2). destruct (A1 t1 e1) as (t0 & e0 & E1). cbn [with_source] in *.
      apply lift_ok in E2. destruct E2 as [Sp X2]. apply lift_ok in E3. destruct E3 as [Nf X3]. apply lift_ok in E4. destruct E4 as [Nm X4]. apply lift_ok in E5. destruct E5 as [Nn X5].
      exists t0, e0, p, (set_source t1 e1 s1), p', (fst fc), (snd fc), m0, ng. split; [exact Sp|]. split; [exact E1|].
      split; [rewrite <- E6; f_equal; congruence|]. split; [rewrite Nf; destruct fc; reflexivity|]. split; [exact Nm|]. split; [exact Nn|]. split; reflexivity. }
    apply (am_bind s6 _ _ _ (fun r s' => unseen Y (length (log s)) s')).
    - apply (am_weaken s6 (worth Y (length (log s)) 1 0 w) _ _ K); [|intros o _; destruct o; cbn [worth]; try apply Qle_refl; apply Qle_lteq; right; ring|apply Qle_refl].
      unfold run_loop.
      apply Pre; auto; [apply tr_fitness_execute|apply fl_fitness_execute|]. intros u s7 A7 H7.
      apply Pre; auto; [apply tr_update|apply fl_update|]. intros gd1 s8 A8 H8.
      destruct (A8 (tape s8) (ent s8)) as (t7 & e7 & E8). destruct (A7 t7 e7) as (t6 & e6 & E7). cbn [with_source] in E7, E8. rewrite source_same in E8.
      destruct (La t6 e6) as (t & e & L). clear La A1 A2 A3 A4 A5 A6 A7 A8.
      assert (F : first_generation (c_fitness c) gd0 (set_source t6 e6 s6) = Ok gd1 s8) by (unfold first_generation, bind; rewrite E7; exact E8).
      exact (Hl t e c gd0 _ gd1 s8 L F H8).
    - intros [c' gd'] s7 A7. cbn [snd]. apply tree_bound.
      + apply tr_bind; [|intros; apply tr_ret]. destruct (cf_is_print cf); [|apply tr_ret]. unfold print_best_solution. destruct (best_solution gd') as [|i0 k0|l0 [k0|]]; try apply tr_raise; try apply tr_ret.
        apply tr_miter. intros a. destruct (phenotype a); [apply tr_ret|apply tr_raise].
      + eapply arises_seedless; [|exact H6|exact A7]. unfold run_loop. apply tr_bind; [apply tr_fitness_execute|]. intros. apply tr_bind; [apply tr_update|]. intros. apply tr_ga_loop.
      + intros o Ho. destruct o as [x s8|x|]; cbn [worth].
        * destruct (Ho (tape s8) (ent s8)) as (t7 & e7 & E7). cbn [with_source] in E7. rewrite source_same in E7. bd E7 u s9 R. apply ret_ok in E7. destruct E7 as [-> ->].
          assert (s9 = set_source t7 e7 s7) as ->. { destruct (cf_is_print cf); [eapply any_print; eauto|]. apply ret_ok in R. destruct R; auto. }
          apply Qle_lteq. right. change (unseen Y (length (log s)) (set_source t7 e7 s7)) with (unseen Y (length (log s)) s7). ring.
        * apply unseen_bounds.
        * exfalso. refine (arises_fuel _ _ _ Ho). apply fl_bind; [|intros; apply fl_ret]. destruct (cf_is_print cf); [|apply fl_ret]. unfold print_best_solution. destruct (best_solution gd') as [|i0 k0|l0 [k0|]]; try apply fl_raise; try apply fl_ret.
          apply fl_miter. intros a. destruct (phenotype a); [apply fl_ret|apply fl_raise].
  Qed.

  (** *** Mutations that may hit *)
  Lemma any_worth : forall fuel cf g ck mk s g' m T Y q w eta Inv, fits cf g ck mk g' m -> all_generations cf -> rnd_seed s = None ->
    may_hit T Y m g' q -> (0 <= q)%Q -> (0 <= w)%Q -> (0 <= eta)%Q -> bounded_wait Inv ok fuel w eta ->
    (forall t e c gd0 s0 gd1 s1, launched cf g ck mk (set_source t e s) c gd0 s0 -> first_generation (c_fitness c) gd0 s0 = Ok gd1 s1 -> Inv c gd1 s1) ->
    at_most s (worth Y (length (log s)) 1 0 w) (ga_optimize fuel cf false g Hyperbola (SelTournament (cf_tournament_size cf)) ck mk false)
      (qpow q (after_first cf) + inject_Z (Z.of_nat (after_first cf)) * eta).
  Proof.
    intros fuel cf g ck mk s g' m T Y q w eta Inv Fi [Hng Hes] Hs MH Hq Hw He BW HI. set (k := after_first cf).
    assert (Qk : (0 <= qpow q k)%Q) by (apply qpow_nonneg; auto). assert (Ke : (0 <= inject_Z (Z.of_nat k) * eta)%Q) by (apply Qmult_le_0_compat; auto; unfold Qle; cbn; lia).
    apply any_bound; auto; [lra|]. intros t e c gd0 s0 gd1 s1 L F H1.
    destruct (any_going _ _ _ _ _ _ _ _ _ _ _ _ L Fi F) as (G & Em & Eg & _). destruct (any_first _ _ _ _ _ _ _ _ L) as (St & _ & _ & Eng & Ees & _ & _ & El).
    pose proof G as (_ & Si & Gs & _).
    destruct (first_ok ok _ _ _ _ _ NL Gs (proj1 Si) (started_init _ _ St) F) as (cs & l0 & bst & md & wr & Fi1 & _).
    destruct (fi_params _ _ _ _ _ _ _ _ _ _ Fi1) as (P1 & P2 & P3). pose proof (fi_best _ _ _ _ _ _ _ _ _ _ Fi1) as (_ & Bn).
    assert (Es : exists e, early_stop gd1 = Some e /\ Z.max 0 (no_improve gd1) + Z.of_nat k <= e).
    { rewrite P2, Ees. unfold resolved_stop, k, after_first. destruct (cf_early_stop cf) as [e1|]; [specialize (Hes e1 eq_refl)|]; eexists; (split; [reflexivity|]); rewrite Bn; lia. }
    destruct Es as (es & Es & Hn). rewrite P1, Eng. fold (after_first cf). fold k.
    eapply am_weaken; [eapply (loop_worth T Y (length (log s)) Inv ok fuel w q eta NL Hq He BW k c gd1 s1 es G H1); eauto| |].
    - rewrite Em, Eg. exact MH.
    - rewrite (fi_log _ _ _ _ _ _ _ _ _ _ Fi1), app_length, El. cbn [log set_source set_ent set_tape]. lia.
    - intros o _. apply Qle_refl.
    - destruct (unseen_bounds Y (length (log s)) s1) as [U0 U1].
      assert (qpow q k * unseen Y (length (log s)) s1 <= qpow q k * 1)%Q by (rewrite !(Qmult_comm (qpow q k)); apply Qmult_le_compat_r; auto). lra.
  Qed.
  Lemma any_returns_without : forall fuel cf g ck mk s g' m T Y q, fits cf g ck mk g' m -> all_generations cf -> rnd_seed s = None -> may_hit T Y m g' q -> (0 <= q)%Q ->
    exists p, probability (ga_optimize fuel cf false g Hyperbola (SelTournament (cf_tournament_size cf)) ck mk false) s (returns_without s Y) p /\ (p <= qpow q (after_first cf))%Q.
  Proof.
    intros fuel cf g ck mk s g' m T Y q Fi Fl Hs MH Hq.
    eapply am_weaken; [eapply (any_worth fuel cf g ck mk s g' m T Y q 0 0 (fun _ _ _ => True)); eauto; [apply Qle_refl|apply Qle_refl|apply waits_any]| |].
    - intros o _. destruct o as [x s'|x|]; cbn [returns_without worth indicator]; [|apply Qle_refl|apply Qle_refl].
      unfold unseen, seen, new_calls. apply Qle_lteq. right. ring.
    - apply Qle_lteq. right. ring.
  Qed.
  Lemma any_apart : forall cf g ck mk s g' m t e c gd0 s0 gd1 s1, fits cf g ck mk g' m -> no_copies cf ->
    launched cf g ck mk (set_source t e s) c gd0 s0 -> first_generation (c_fitness c) gd0 s0 = Ok gd1 s1 -> apart (cf_tournament_size cf) (cf_num_individ cf) (offspring cf) c gd1 s1.
  Proof.
    intros cf g ck mk s g' m t e c gd0 s0 gd1 s1 Fi NT L F. destruct (any_going _ _ _ _ _ _ _ _ _ _ _ _ L Fi F) as ((_ & Si & Gs & _) & _).
    destruct (any_first _ _ _ _ _ _ _ _ L) as (St & En & Ec & _ & _ & Et & Er & _). destruct Fi as (V & _). destruct (offspring_some cf V) as [Eo _].
    destruct (first_ok ok _ _ _ _ _ NL Gs (proj1 Si) (started_init _ _ St) F) as (cs & l0 & bst & md & wr & Fi1 & _).
    destruct (fi_params _ _ _ _ _ _ _ _ _ _ Fi1) as (_ & _ & P3). destruct (fi_members _ _ _ _ _ _ _ _ _ _ Fi1) as [_ Pm]. pose proof (fi_pop _ _ _ _ _ _ _ _ _ _ Fi1) as Ep.
    split; [apply (Permutation_NoDup (Permutation_sym Pm)), (in_nodup _ _ (started_init _ _ St))|]. split; [exact Et|]. split; [destruct NT as [NT|NT]; auto|].
    split; [rewrite Ep; exact En|]. rewrite P3, Ec. exact Eo.
  Qed.
  Lemma any_fails : forall fuel cf g ck mk s g' m T Y q, fits cf g ck mk g' m -> all_generations cf -> no_copies cf -> rnd_seed s = None -> may_hit T Y m g' q -> (0 <= q)%Q ->
    (forall s' e, ga_optimize fuel cf false g Hyperbola (SelTournament (cf_tournament_size cf)) ck mk false s' <> Err e) ->
    exists p, probability (ga_optimize fuel cf false g Hyperbola (SelTournament (cf_tournament_size cf)) ck mk false) s (fails s Y) p /\ (p <= qpow q (after_first cf) + searching cf fuel)%Q.
  Proof.
    intros fuel cf g ck mk s g' m T Y q Fi Fl NT Hs MH Hq Safe. pose proof Fi as (V & _). destruct (offspring_some cf V) as [_ Ho]. pose proof V as ((Ht1 & Ht2) & _).
    set (t := cf_tournament_size cf) in *. set (n := cf_num_individ cf) in *. set (k := offspring cf) in *.
    assert (Qp : (0 <= qpow (inject_Z t / inject_Z n) fuel)%Q).
    { apply qpow_nonneg. apply Qmult_le_0_compat; [|apply Qinv_le_0_compat]; unfold Qle; cbn; lia. }
    eapply am_weaken; [eapply (any_worth fuel cf g ck mk s g' m T Y q 1 (inject_Z k * qpow (inject_Z t / inject_Z n) fuel) (apart t n k)); eauto| |].
    - unfold Qle; cbn; lia.
    - apply Qmult_le_0_compat; auto. unfold Qle; cbn; lia.
    - apply waits_apart; [exact NL|lia].
    - intros t0 e0 c gd0 s0 gd1 s1 L F. eapply any_apart; eauto.
    - intros o Ha. destruct o as [x s'|x|]; cbn [fails worth indicator]; [unfold unseen, seen, new_calls; apply Qle_lteq; right; ring| |apply Qle_refl].
      exfalso. destruct (Ha (tape s) (ent s)) as (t1 & e1 & E). exact (Safe _ _ E).
    - apply Qle_refl.
  Qed.

  (** *** The searches come to an end *)
  Lemma searching_vanishes : forall cf eps, valid_any cf -> (0 < eps)%Q -> exists f0, forall fuel, (f0 <= fuel)%nat -> (searching cf fuel < eps)%Q.
  Proof.
    intros cf eps V He. destruct (offspring_some cf V) as [_ Hc]. destruct V as ((Ht1 & Ht2) & _). unfold searching. set (t := cf_tournament_size cf) in *. set (n := cf_num_individ cf) in *. set (m := offspring cf) in *.
    set (a := inject_Z (Z.of_nat (after_first cf))). set (b := inject_Z m). set (p := (inject_Z t / inject_Z n)%Q).
    assert (A : (0 <= a)%Q) by (unfold a, Qle; cbn; lia). assert (B : (1 <= b)%Q) by (unfold b; change 1%Q with (inject_Z 1); rewrite <- Zle_Qle; exact Hc).
    assert (P0 : (0 <= p)%Q) by (apply Qmult_le_0_compat; [|apply Qinv_le_0_compat]; unfold Qle; cbn; lia).
    assert (P1 : (p < 1)%Q) by (apply Qlt_shift_div_r; [unfold Qlt; cbn; lia|]; rewrite Qmult_1_l, <- Zlt_Qlt; lia).
    assert (AB : (0 <= a * b)%Q) by (apply Qmult_le_0_compat; lra). assert (K : (0 < a * b + 1)%Q) by lra.
    destruct (qpow_vanishes p (eps / (a * b + 1)) P0 P1) as (f0 & Hf).
    { apply Qlt_shift_div_l; [exact K|]. lra. }
    exists f0. intros fuel L. assert (Q1 : (qpow p fuel <= qpow p f0)%Q) by (apply qpow_lower; auto; split; auto; lra). pose proof (qpow_nonneg p fuel P0) as Q0.
    assert (Q2 : (qpow p fuel * (a * b + 1) < eps)%Q).
    { eapply Qle_lt_trans; [apply Qmult_le_compat_r; [exact Q1|lra]|]. apply (Qmult_lt_compat_r _ _ (a * b + 1)) in Hf; auto. eapply Qlt_le_trans; [exact Hf|]. apply Qle_lteq. right. field. intros C. rewrite C in K. discriminate K. }
    assert (E : (a * (b * qpow p fuel) == qpow p fuel * (a * b + 1) - qpow p fuel)%Q) by ring. rewrite E. lra.
  Qed.

  (** Whether a run ends at all: the searches for second parents are all that takes fuel. *)
  Lemma any_step_spent : forall fuel c gd s eta, rnd_seed s = None -> (0 <= eta)%Q -> at_most s (spent 1) (selection_execute fuel (c_selection c) gd) eta ->
    at_most s (spent 1) (ga_step fuel c gd) eta.
  Proof.
    intros fuel c gd s eta Hs He Hsel. unfold ga_step. apply (am_bind s _ _ _ (fun _ _ => 0%Q)).
    - eapply am_weaken; [exact Hsel|intros o _; destruct o; apply Qle_refl|apply Qle_refl].
    - intros gd1 s1 A1. pose proof (arises_seedless _ _ _ _ (tr_selection_execute _ _ _) Hs A1) as Hs1. apply spent_fuelless; [| |exact Hs1|apply Qle_refl].
      + repeat (apply tr_bind; [|intros ?]); [apply tr_crossover_execute|apply tr_mutation_execute|apply tr_newgen|apply tr_fitness_execute|apply tr_update|apply tr_ret].
      + repeat (apply fl_bind; [|intros ?]); [apply fl_crossover_execute|apply fl_mutation_execute|apply fl_newgen|apply fl_fitness_execute|apply fl_update|apply fl_ret].
  Qed.
  Lemma any_loop_spent : forall Inv fuel eta, (0 <= eta)%Q -> bounded_wait Inv ok fuel 1 eta ->
    forall k c gd s, going ok c gd s -> rnd_seed s = None -> Inv c gd s ->
    at_most s (spent 1) (ga_loop fuel k c gd) (inject_Z (Z.of_nat k) * eta).
  Proof.
    intros Inv fuel eta He (W1 & W2 & W3) k. induction k as [|k IH]; intros c gd s G Hs HI; cbn [ga_loop].
    - apply spent_fuelless; auto; [apply tr_ret|apply fl_ret|]. change (inject_Z (Z.of_nat 0)) with 0%Q. lra.
    - assert (Kp : (0 <= inject_Z (Z.of_nat k) * eta)%Q) by (apply Qmult_le_0_compat; auto; unfold Qle; cbn; lia).
      apply (am_bind s _ _ _ (fun _ _ => inject_Z (Z.of_nat k) * eta)%Q).
      + eapply (am_affine s (spent 1) _ _ eta 1 (inject_Z (Z.of_nat k) * eta)); [lra|apply any_step_spent; auto| |].
        * intros o _. destruct o; cbn [spent]; lra.
        * rewrite Nat2Z.inj_succ. unfold Z.succ. rewrite inject_Z_plus. change (inject_Z 1) with 1%Q. lra.
      + intros [c' gd'] s' A. destruct (A (tape s') (ent s')) as (t & e0 & R). cbn [with_source] in R. rewrite source_same in R.
        pose proof (going_source _ _ _ _ t e0 G) as Gx. pose proof (going_step _ _ _ _ _ _ _ _ NL Gx R) as G'.
        assert (Hs' : rnd_seed s' = None) by (eapply arises_seedless; [apply tr_ga_step|exact Hs|exact A]).
        assert (HI' : Inv c' gd' s') by (eapply W2; [exact Gx|apply W3; exact HI|exact R]). cbn [fst snd].
        apply fuelless_bind; auto; [unfold should_stop; destruct (early_stop gd'); [apply tr_ret|apply tr_raise]|unfold should_stop; destruct (early_stop gd'); [apply fl_ret|apply fl_raise]|].
        intros b s2 A2. assert (Es : exists t2 e2, s2 = set_source t2 e2 s').
        { destruct (A2 (tape s2) (ent s2)) as (t2 & e2 & E). cbn [with_source] in E. rewrite source_same in E. unfold should_stop in E.
          destruct (early_stop gd'); [|discriminate E]. apply ret_ok in E. destruct E as [_ ->]. eauto. }
        destruct Es as (t2 & e2 & ->). destruct b; [apply spent_fuelless; auto; [apply tr_ret|apply fl_ret]|].
        apply IH; auto. apply going_source. exact G'.
  Qed.
  Definition lost {A} (o : outcome A) : bool := match o with Ok _ _ => false | _ => true end.
  Lemma any_ends : forall fuel cf g ck mk s g' m, fits cf g ck mk g' m -> no_copies cf -> rnd_seed s = None ->
    (forall s' e, ga_optimize fuel cf false g Hyperbola (SelTournament (cf_tournament_size cf)) ck mk false s' <> Err e) ->
    exists p, probability (ga_optimize fuel cf false g Hyperbola (SelTournament (cf_tournament_size cf)) ck mk false) s lost p /\ (p <= searching cf fuel)%Q.
  Proof.
    intros fuel cf g ck mk s g' m IO NT Hs Safe. pose proof IO as (V & _). destruct (offspring_some cf V) as [_ Ho]. pose proof V as ((Ht1 & Ht2) & _).
    set (t := cf_tournament_size cf) in *. set (n := cf_num_individ cf) in *. set (k := offspring cf) in *.
    assert (Qp : (0 <= qpow (inject_Z t / inject_Z n) fuel)%Q).
    { apply qpow_nonneg. apply Qmult_le_0_compat; [|apply Qinv_le_0_compat]; unfold Qle; cbn; lia. }
    set (eta := (inject_Z k * qpow (inject_Z t / inject_Z n) fuel)%Q). assert (He : (0 <= eta)%Q) by (apply Qmult_le_0_compat; auto; unfold Qle; cbn; lia).
    assert (Kp : (0 <= searching cf fuel)%Q) by (unfold searching; fold t n k eta; apply Qmult_le_0_compat; auto; unfold Qle; cbn; lia).
    assert (B : at_most s (spent 1) (ga_optimize fuel cf false g Hyperbola (SelTournament t) ck mk false) (searching cf fuel)).
    { unfold ga_optimize.
      apply fuelless_bind; auto; [apply tr_do_seed|apply fl_do_seed|]. intros u s1 A1. pose proof (arises_seedless _ _ _ _ tr_do_seed Hs A1) as H1.
      apply fuelless_bind; auto; [apply tr_lift|apply fl_lift|]. intros p s2 A2. pose proof (arises_seedless _ _ _ _ (tr_lift _) H1 A2) as H2.
      apply fuelless_bind; auto; [apply tr_lift|apply fl_lift|]. intros fc s3 A3. pose proof (arises_seedless _ _ _ _ (tr_lift _) H2 A3) as H3.
      apply fuelless_bind; auto; [apply tr_lift|apply fl_lift|]. intros m0 s4 A4. pose proof (arises_seedless _ _ _ _ (tr_lift _) H3 A4) as H4.
      apply fuelless_bind; auto; [apply tr_lift|apply fl_lift|]. intros ng s5 A5. pose proof (arises_seedless _ _ _ _ (tr_lift _) H4 A5) as H5.
      apply fuelless_bind; auto; [apply tr_fill|apply fl_fill|]. intros p' s6 A6. pose proof (arises_seedless _ _ _ _ (tr_fill _) H5 A6) as H6.
      cbv zeta. set (gd0 := new_gadata false (cf_num_generations cf) (cf_children_percent cf) (resolved_stop cf) p').
      set (c := mkComps (fst fc) (SelTournament (cf_tournament_size cf)) ck m0 ng).
      assert (La : forall t6 e6, exists t e, launched cf g ck mk (set_source t e s) c gd0 (set_source t6 e6 s6)).
      { intros t6 e6. destruct (A6 t6 e6) as (t5 & e5 & E6). destruct (A5 t5 e5) as (t4 & e4 & E5). destruct (A4 t4 e4) as (t3 & e3 & E4).
        destruct (A3 t3 e3) as (t2 & e2 & E3). destruct (A2 t2 e2) as (t1 & e1 & E2). destruct (A1 t1 e1) as (t0 & e0 & E1). cbn [with_source] in *.
        apply lift_ok in E2. destruct E2 as [Sp X2]. apply lift_ok in E3. destruct E3 as [Nf X3]. apply lift_ok in E4. destruct E4 as [Nm X4]. apply lift_ok in E5. destruct E5 as [Nn X5].
        destruct u. exists t0, e0, p, (set_source t1 e1 s1), p', (fst fc), (snd fc), m0, ng. split; [exact Sp|]. split; [exact E1|].
        split; [rewrite <- E6; f_equal; congruence|]. split; [rewrite Nf; destruct fc; reflexivity|]. split; [exact Nm|]. split; [exact Nn|]. split; reflexivity. }
      apply (am_bind s6 _ _ _ (fun _ _ => 0%Q)).
      - apply (am_weaken s6 (spent 1) _ _ (searching cf fuel)); [|intros o _; destruct o; apply Qle_refl|apply Qle_refl]. unfold run_loop.
        apply fuelless_bind; auto; [apply tr_fitness_execute|apply fl_fitness_execute|]. intros u7 s7 A7. pose proof (arises_seedless _ _ _ _ (tr_fitness_execute _ _) H6 A7) as H7.
        apply fuelless_bind; auto; [apply tr_update|apply fl_update|]. intros gd1 s8 A8. pose proof (arises_seedless _ _ _ _ (tr_update _) H7 A8) as H8.
        destruct (A8 (tape s8) (ent s8)) as (t7 & e7 & E8). destruct (A7 t7 e7) as (t6 & e6 & E7). cbn [with_source] in E7, E8. rewrite source_same in E8.
        destruct (La t6 e6) as (t' & e' & L). clear La A1 A2 A3 A4 A5 A6 A7 A8.
        assert (F : first_generation (c_fitness c) gd0 (set_source t6 e6 s6) = Ok gd1 s8) by (unfold first_generation, bind; destruct u7; change (c_fitness c) with (fst fc); cbn [c_fitness] in E7; rewrite E7; exact E8).
        destruct (any_going _ _ _ _ _ _ _ _ _ _ _ _ L IO F) as (G & _).
        destruct (any_first _ _ _ _ _ _ _ _ L) as (St & _ & _ & Eng & _). pose proof G as (_ & Si & Gs & _).
        destruct (first_ok ok _ _ _ _ _ NL Gs (proj1 Si) (started_init _ _ St) F) as (cs & l0 & bst & md & wr & Fi & _). destruct (fi_params _ _ _ _ _ _ _ _ _ _ Fi) as (P1 & _).
        rewrite P1, Eng. apply (any_loop_spent (apart t n k) fuel eta He (waits_apart ok NL fuel t n k ltac:(lia)) _ c gd1 s8 G H8).
        eapply any_apart; eauto.
      - intros [c' gd'] s7 A7. cbn [snd]. apply spent_fuelless; [| | |apply Qle_refl].
        + apply tr_bind; [|intros; apply tr_ret]. destruct (cf_is_print cf); [|apply tr_ret]. unfold print_best_solution. destruct (best_solution gd') as [|i0 k0|l0 [k0|]]; try apply tr_raise; try apply tr_ret.
          apply tr_miter. intros a. destruct (phenotype a); [apply tr_ret|apply tr_raise].
        + apply fl_bind; [|intros; apply fl_ret]. destruct (cf_is_print cf); [|apply fl_ret]. unfold print_best_solution. destruct (best_solution gd') as [|i0 k0|l0 [k0|]]; try apply fl_raise; try apply fl_ret.
          apply fl_miter. intros a. destruct (phenotype a); [apply fl_ret|apply fl_raise].
        + eapply arises_seedless; [|exact H6|exact A7]. unfold run_loop. apply tr_bind; [apply tr_fitness_execute|]. intros. apply tr_bind; [apply tr_update|]. intros. apply tr_ga_loop. }
    eapply am_weaken; [exact B| |apply Qle_refl]. intros o Oo. destruct o as [x s'|x|]; cbn [lost spent indicator]; try apply Qle_refl.
    exfalso. destruct (Oo (tape s) (ent s)) as (t1 & e1 & E). exact (Safe _ _ E).
  Qed.

  (** *** The gate *)
  (** The smaller of the chances to mutate a gene and not to. *)
  Definition either_way (level : num) : Q := Qmin (gate level) (1 - gate level).
  Lemma any_gate_range : forall level : num, (0 <= gate level <= 1)%Q.
  Proof.
    intros level. unfold gate. set (l := filter _ _). assert (L : (length l <= 1000)%nat).
    { unfold l. etransitivity; [apply filter_le|]. rewrite zrange_length. apply Nat.leb_le. reflexivity. }
    split; [apply Qle_shift_div_l|apply Qle_shift_div_r]; try reflexivity.
    - rewrite Qmult_0_l. unfold Qle. cbn. lia.
    - rewrite Qmult_1_l, <- Zle_Qle. lia.
  Qed.
  Lemma either_range : forall level : num, (0 <= either_way level <= 1)%Q.
  Proof. intros level. unfold either_way. destruct (any_gate_range level) as [G0 G1]. apply Q.min_case; [intros x y E H; rewrite <- E; exact H| |]; lra. Qed.
  Lemma filter_all_or : forall {A} (f : A -> bool) l x, In x l -> f x = false -> (length (filter f l) < length l)%nat.
  Proof.
    intros A f l. induction l as [|a l IH]; intros x I E; [destruct I|]. cbn [filter length]. destruct I as [->|I].
    - rewrite E. pose proof (filter_le f l). lia.
    - specialize (IH x I E). destruct (f a); cbn [length]; lia.
  Qed.
  Lemma either_positive : forall level : num, undecided level -> (1 # 1000 <= either_way level)%Q.
  Proof.
    intros level [(k1 & R1 & F1) (k2 & R2 & F2)]. unfold either_way, gate. set (l := filter _ _). unfold fires in F1, F2.
    assert (L0 : (0 < length l)%nat).
    { assert (I : In k1 l) by (apply filter_In; split; [apply in_zrange; lia|exact F1]). destruct l; [destruct I|cbn; lia]. }
    assert (L1 : (length l < 1000)%nat).
    { unfold l. pose proof (filter_all_or (fun k => nleb (nofZ k) (nmul level (nofZ 1000))) (zrange 0 1000) k2) as H. rewrite zrange_length in H.
      change (Z.to_nat (1000 - 0)) with (Z.to_nat 1000) in H. assert (In k2 (zrange 0 1000)) by (apply in_zrange; lia). specialize (H H0 F2). lia. }
    set (z := Z.of_nat (length l)). assert (Z0 : 1 <= z <= 999) by (unfold z; lia).
    assert (A : (1 <= inject_Z z <= 999)%Q) by (split; [change 1%Q with (inject_Z 1)|change 999%Q with (inject_Z 999)]; rewrite <- Zle_Qle; lia).
    change (inject_Z 1000) with 1000%Q.
    apply Q.min_case; [intros x y X H; rewrite <- X; exact H| |].
    - apply Qle_shift_div_l; [reflexivity|]. setoid_replace ((1 # 1000) * 1000)%Q with 1%Q by reflexivity. lra.
    - assert (inject_Z z / 1000 <= 999 # 1000)%Q; [|lra]. apply Qle_shift_div_r; [reflexivity|]. setoid_replace ((999 # 1000) * 1000)%Q with 999%Q by reflexivity. lra.
  Qed.

  Lemma any_complement : forall (f : M (list gv)) (T : list gv -> bool) s p, draws_only f s -> averages s (on_value (fun g => indicator (T g))) f p ->
    averages s (misses T) f (1 - p)%Q.
  Proof.
    intros f T s p D H. apply (averages_scale s _ (-1)) in H.
    assert (H' : averages s (on_value (fun g => -1 * indicator (T g))%Q) f (-1 * p)%Q).
    { eapply averages_ext; [exact H|]. intros o _. destruct o; cbn [on_value]; ring. }
    apply (averages_value_const s f 1) in H'; auto.
    eapply averages_ext; [eapply averages_eq; [|exact H']; ring|]. intros o _. destruct o as [x s'|x|]; cbn [misses on_value]; try reflexivity. destruct (T x); cbn; ring.
  Qed.
  Lemma any_bits_miss : forall (level : num) bs cs s, length cs = length bs ->
    exists p, averages s (misses (bits_eqb cs)) (bin_mutation level (map GBit bs)) p /\ (p <= 1 - qpow (either_way level) (length bs))%Q.
  Proof.
    intros level bs cs s L. eexists. split.
    - apply any_complement; [apply draws_mmap; intros; apply bin_gene_draws|]. eapply averages_ext; [apply (C76_bits level bs cs s L)|]. intros o _. destruct o; reflexivity.
    - set (l := map _ _). assert (E : length l = length bs) by (unfold l; rewrite map_length, combine_length; lia). rewrite <- E.
      assert (K : (qpow (either_way level) (length l) <= qprod l)%Q); [|lra]. apply qprod_at_least; [apply either_range|].
      apply Forall_forall. intros x Hx. apply in_map_iff in Hx. destruct Hx as ([b c] & <- & _). unfold either_way. destruct (xorb _ _); [apply Q.le_min_l|apply Q.le_min_r].
  Qed.
  Lemma any_bits_eq : forall cs g, bits_eqb cs g = true -> g = map GBit cs.
  Proof.
    induction cs as [|c cs IH]; intros [|y g] H; try discriminate; auto. cbn [bits_eqb] in H. destruct y; try discriminate. apply andb_true_iff in H. destruct H as [H1 H2].
    apply Bool.eqb_prop in H1. subst. cbn [map]. f_equal. auto.
  Qed.
  (** Categories: the chance of a given value of the pool. *)
  Definition either_value (level : num) (p : cgen) : Q := Qmin (1 - gate level) (gate level / inject_Z (Z.of_nat (length (pool_values p)))).
  Lemma value_range : forall level p, (0 <= either_value level p <= 1)%Q.
  Proof.
    intros level p. destruct (any_gate_range level) as [G0 G1]. unfold either_value. split.
    - apply Q.min_case; [intros x y E H; rewrite <- E; exact H|lra|]. apply Qmult_le_0_compat; [lra|]. apply Qinv_le_0_compat. unfold Qle. cbn. lia.
    - eapply Qle_trans; [apply Q.le_min_l|]. lra.
  Qed.
  Lemma value_positive : forall level p, undecided level -> pool_values p <> [] -> (0 < either_value level p)%Q.
  Proof.
    intros level p B N. pose proof (either_positive level B) as F. unfold either_way in F. pose proof (Q.le_min_l (gate level) (1 - gate level)). pose proof (Q.le_min_r (gate level) (1 - gate level)).
    unfold either_value. apply Q.min_case; [intros x y E K; rewrite <- E; exact K|lra|]. apply Qlt_shift_div_l; [|lra].
    destruct (pool_values p); [contradiction|]. unfold Qlt. cbn. lia.
  Qed.
  Lemma any_gene_hit : forall (level : num) p x y s, pool_ok p x -> In x (pool_values p) -> In y (pool_values p) -> gene_ok (ok := ok) x -> gene_ok (ok := ok) y ->
    exists e, averages s (on_value (fun z => indicator (gv_eqb z y))) (cat_gene level p x) e /\ (either_value level p <= e)%Q.
  Proof.
    intros level p x y s [Hp Hx] Ix Iy Ox Oy. destruct (any_gate_range level) as [G0 G1]. set (w := fun z => indicator (gv_eqb z y)).
    assert (Eyy : gv_eqb y y = true) by (apply (gv_eqb_refl NL), Oy).
    destruct (le_lt_dec (length (pool_values p)) 1) as [L|L].
    - exists 1%Q. split; [|eapply Qle_trans; [apply value_range|apply Qle_refl]].
      assert (Exy : x = y). { destruct (pool_values p) as [|a [|b l]]; cbn in *; [contradiction| |lia]. destruct Ix as [<-|[]], Iy as [<-|[]]. reflexivity. }
      unfold cat_gene. apply averages_then with (r := fun _ : bool => 1%Q); [exact (draws_even _ _ s (gate_even level))| |].
      + assert (R : averages s (on_value w) (ret x) 1%Q) by (eapply averages_eq; [|apply (averages_ret s (on_value w) x)]; unfold w; cbn [on_value]; rewrite Exy, Eyy; reflexivity).
        intros b u _. destruct b; [|exact R]. destruct p as [lo hi stp|l|]; [| |contradiction].
        * destruct (Z.eqb_spec stp 0); [contradiction|]. cbv zeta. cbn [pool_values] in L. unfold zlen. destruct (Z.ltb_spec 1 (Z.of_nat (length (map GInt (py_range lo (hi + 1) stp))))); [lia|exact R].
        * cbn [pool_values] in L. unfold zlen. destruct (Z.ltb_spec 1 (Z.of_nat (length l))); [lia|exact R].
      + eapply averages_eq; [|eapply averages_ext; [apply (gate_mean level s 1 1)|]]; [ring|]. intros o _. destruct o as [[|]| |]; reflexivity.
    - destruct Hx as [Hx|(z & Iz & Nz)]; [lia|]. set (others := filter (fun y => negb (gv_eqb y x)) (pool_values p)).
      assert (No : others <> []). { intros C. assert (I : In z others) by (apply filter_In; rewrite Nz; auto). rewrite C in I. destruct I. }
      exists (gate level * mean (map w others) + (1 - gate level) * w x)%Q. split.
      { apply C76_category; auto. }
      assert (Mp : (0 <= mean (map w others))%Q).
      { unfold w. rewrite mean_indicator. apply Qmult_le_0_compat; [|apply Qinv_le_0_compat]; unfold Qle; cbn; lia. }
      unfold w at 2. destruct (gv_eqb x y) eqn:Exy; cbn [indicator].
      + eapply Qle_trans; [apply Q.le_min_l|]. assert (0 <= gate level * mean (map w others))%Q by (apply Qmult_le_0_compat; auto). lra.
      + eapply Qle_trans; [apply Q.le_min_r|].
        assert (Io : In y others). { apply filter_In. split; auto. destruct (gv_eqb y x) eqn:E; auto. apply (gv_eqb_sym NL) in E; auto. congruence. }
        assert (Lo : (length others <= length (pool_values p))%nat) by apply filter_le.
        assert (Lp : (0 < length others)%nat) by (destruct others; [contradiction|cbn; lia]).
        assert (M : (/ inject_Z (Z.of_nat (length (pool_values p))) <= mean (map w others))%Q).
        { unfold w. rewrite mean_indicator. apply Qle_shift_div_l; [unfold Qlt; cbn; lia|].
          assert (F : (0 < length (filter (fun a => gv_eqb a y) others))%nat).
          { assert (In y (filter (fun a => gv_eqb a y) others)) by (apply filter_In; auto). destruct (filter _ others); [contradiction|cbn; lia]. }
          apply Qle_trans with 1%Q.
          - rewrite Qmult_comm. apply Qle_shift_div_r; [unfold Qlt; cbn; lia|]. rewrite Qmult_1_l, <- Zle_Qle. lia.
          - change 1%Q with (inject_Z 1). rewrite <- Zle_Qle. lia. }
        unfold Qdiv. apply Qle_trans with (gate level * mean (map w others))%Q; [|lra]. rewrite !(Qmult_comm (gate level)). apply Qmult_le_compat_r; auto.
  Qed.
  Lemma any_cat_hit : forall (level : num) ps x y s, Forall2 (fun p a => pool_ok p a /\ In a (pool_values p) /\ gene_ok (ok := ok) a) ps x ->
    Forall2 (fun p a => In a (pool_values p) /\ gene_ok (ok := ok) a) ps y ->
    draws_only (cat_mutation level ps x) s /\
    exists e, averages s (on_value (fun z => indicator (gvs_eqb z y))) (cat_mutation level ps x) e /\ (qprod (map (either_value level) ps) <= e)%Q.
  Proof.
    intros level ps x y s H. revert y. induction H as [|p a ps x (Pa & Ia & Oa) H IH]; intros y Hy.
    - inversion Hy; subst. cbn [cat_mutation map qprod]. split; [apply draws_ret|]. exists 1%Q. split; [|apply Qle_refl]. apply (averages_ret s (on_value (fun z => indicator (gvs_eqb z []))) []).
    - inversion Hy as [|? b ? y0 [Ib Ob] Hy0]; subst. destruct (IH y0 Hy0) as [D (e & Ae & Le)]. destruct (any_gene_hit level p a b s Pa Ia Ib Oa Ob) as (e1 & A1 & L1).
      assert (D1 : draws_only (cat_gene level p a) s).
      { intros t. destruct (proj1 (cat_gene_possible level p a Pa) (set_tape t s)) as (y' & t' & Ey & _). exists y', t'. rewrite Ey, set_tape_set. reflexivity. }
      cbn [cat_mutation]. split; [apply draws_bind; [exact D1|]; intros c; apply draws_bind; [exact D|]; intros; apply draws_ret|].
      exists (e1 * e)%Q. split.
      + apply averages_then with (r := fun c => (e * indicator (gv_eqb c b))%Q); [exact D1| |].
        * intros c u _. apply averages_then with (r := fun r => (indicator (gv_eqb c b) * indicator (gvs_eqb r y0))%Q); [exact D| |].
          -- intros r u' _. eapply averages_eq; [|apply (averages_ret s (on_value (fun z => indicator (gvs_eqb z (b :: y0)))) (c :: r))].
             cbn [on_value gvs_eqb]. destruct (gv_eqb c b), (gvs_eqb r y0); reflexivity.
          -- apply (averages_scale s _ (indicator (gv_eqb c b))) in Ae. eapply averages_ext; [eapply averages_eq; [|exact Ae]; ring|]. intros o _. destruct o; cbn [on_value]; ring.
        * apply (averages_scale s _ e) in A1. eapply averages_ext; [eapply averages_eq; [|exact A1]; ring|]. intros o _. destruct o; cbn [on_value]; ring.
      + cbn [map qprod]. assert (P0 : (0 <= qprod (map (either_value level) ps))%Q).
        { clear. induction ps as [|p ps IH]; cbn [map qprod]; [discriminate|]. apply Qmult_le_0_compat; auto. apply value_range. }
        apply Qle_trans with (e1 * qprod (map (either_value level) ps))%Q; [apply Qmult_le_compat_r; auto|]. rewrite !(Qmult_comm e1). apply Qmult_le_compat_r; auto.
        eapply Qle_trans; [|exact L1]. apply value_range.
  Qed.
  Lemma values_range : forall level ps, (0 <= qprod (map (either_value level) ps) <= 1)%Q.
  Proof.
    intros level ps. induction ps as [|p ps [I0 I1]]; cbn [map qprod]; [split; discriminate|]. destruct (value_range level p) as [P0 P1]. split; [apply Qmult_le_0_compat; auto|].
    apply Qle_trans with (1 * qprod (map (either_value level) ps))%Q; [apply Qmult_le_compat_r; auto|lra].
  Qed.

  (** *** Either of two events *)
  Lemma any_plus : forall {A} s (f g : outcome A -> Q) m, plain s m -> exists p q, expects s f m p /\ expects s g m q /\ expects s (fun o => f o + g o)%Q m (p + q)%Q.
  Proof.
    intros A s f g m H. induction H as [m o Hm|m k mk Hk Hm Hr IH|m mn Hm H IH].
    - exists (f o), (g o). split; [|split]; (eapply ex_done; [exact Hm|reflexivity]).
    - destruct (finite_choice (below k) (fun d p => exists q, expects s f (mk d) p /\ expects s g (mk d) q /\ expects s (fun o => f o + g o)%Q (mk d) (p + q)%Q)) as (r1 & R1).
      { intros d Hd. apply below_in in Hd. destruct (IH d Hd) as (p & q & X). eauto. }
      destruct (finite_choice (below k) (fun d q => expects s f (mk d) (r1 d) /\ expects s g (mk d) q /\ expects s (fun o => f o + g o)%Q (mk d) (r1 d + q)%Q)) as (r2 & R2); [exact R1|].
      exists (mean (map r1 (below k))), (mean (map r2 (below k))).
      assert (R : forall d, 0 <= d < k -> expects s f (mk d) (r1 d) /\ expects s g (mk d) (r2 d) /\ expects s (fun o => f o + g o)%Q (mk d) (r1 d + r2 d)%Q) by (intros d Hd; apply R2, below_in, Hd).
      split; [|split].
      + apply (ex_draw s f m k mk r1); auto; [intros d Hd; apply R; auto|reflexivity].
      + apply (ex_draw s g m k mk r2); auto; [intros d Hd; apply R; auto|reflexivity].
      + apply (ex_draw s _ m k mk (fun d => r1 d + r2 d)%Q); auto; [intros d Hd; apply R; auto|]. symmetry. unfold mean. rewrite !map_length, qsum_plus. unfold Qdiv. ring.
    - destruct IH as (p & q & A1 & A2 & A3). exists p, q. split; [|split]; (eapply ex_seed; [exact Hm|assumption]).
  Qed.
  Lemma any_either : forall {A} s (m : M A) (E1 E2 E : outcome A -> bool) q1 q2, treelike m -> rnd_seed s = None ->
    (forall t e o, E1 (with_source t e o) = E1 o) -> (forall t e o, E2 (with_source t e o) = E2 o) -> (forall o, arises m s o -> E o = true -> E1 o = true \/ E2 o = true) ->
    (exists p, probability m s E1 p /\ p <= q1)%Q -> (exists p, probability m s E2 p /\ p <= q2)%Q -> exists p, (probability m s E p /\ p <= q1 + q2)%Q.
  Proof.
    intros A s m E1 E2 E q1 q2 Tr Hs U1 U2 Imp (p1 & X1 & L1) (p2 & X2 & L2).
    destruct (any_plus s (fun o => indicator (E1 o)) (fun o => indicator (E2 o)) m (proj1 (Tr s Hs))) as (p1' & p2' & Y1 & Y2 & Y3).
    assert (e1 : (p1' == p1)%Q) by (eapply expects_unique; [|exact Y1|exact X1]; intros t e o; rewrite U1; apply Qeq_refl).
    assert (e2 : (p2' == p2)%Q) by (eapply expects_unique; [|exact Y2|exact X2]; intros t e o; rewrite U2; apply Qeq_refl).
    eapply am_weaken; [exists (p1' + p2')%Q; split; [exact Y3|apply Qle_refl]| |lra].
    intros o Ho. specialize (Imp o Ho). destruct (E o); [|destruct (E1 o), (E2 o); discriminate]. destruct (Imp eq_refl) as [-> | ->]; [destruct (E2 o); discriminate|destruct (E1 o); discriminate].
  Qed.
  Lemma any_treelike : forall fuel cf g sel ck mk, treelike (ga_optimize fuel cf false g Hyperbola sel ck mk false).
  Proof.
    intros. unfold ga_optimize. apply tr_bind; [apply tr_do_seed|intros ?]. do 4 (apply tr_bind; [apply tr_lift|intros ?]). apply tr_bind; [apply tr_fill|intros ?]. cbv zeta.
    apply tr_bind; [unfold run_loop; apply tr_bind; [apply tr_fitness_execute|]; intros; apply tr_bind; [apply tr_update|]; intros; apply tr_ga_loop|intros [c gd]].
    apply tr_bind; [|intros; apply tr_ret]. destruct (cf_is_print cf); [|apply tr_ret]. unfold print_best_solution. cbn [snd]. destruct (best_solution gd) as [|i0 k0|l0 [k0|]]; try apply tr_raise; try apply tr_ret.
    apply tr_miter. intros x. destruct (phenotype x); [apply tr_ret|apply tr_raise].
  Qed.

  (** *** Tours *)
  Definition answers_alike (cf : config) (space : list gv -> Prop) : Prop :=
    exists F, forall k pt, space pt -> answers (cf_objective cf) (given (cf_input_data cf)) k pt (inr (F pt)).
  Lemma any_asks : forall o t d p conds f cl, new_fitness Hyperbola o t d p conds = inr (f, cl) -> obj_function f = o /\ input_data f = d.
  Proof.
    intros o t d p conds f cl H. unfold new_fitness in H. cbv zeta in H. destruct p as [|p|]; [inversion H; auto| |discriminate H].
    destruct (_ <=? 1); [inversion H; auto|]. cbn [is_multi_kind] in H. destruct (index_of _ _); [inversion H; auto|discriminate H].
  Qed.
  Lemma any_steady : forall cf f cl space, answers_alike cf space -> new_fitness Hyperbola (cf_objective cf) (cf_obj_value cf) (cf_input_data cf) (cf_penalty cf) (cf_conditions cf) = inr (f, cl) ->
    steady f space.
  Proof.
    intros cf f cl space (F & HF) Nf. destruct (any_asks _ _ _ _ _ _ _ Nf) as [Eo Ei]. intros k k' pt v v' Hp C C'.
    apply called_answers in C. apply called_answers in C'. rewrite Eo, Ei in *. pose proof (HF k pt Hp) as A. pose proof (HF k' pt Hp) as A'.
    assert (U : forall kk w, answers (cf_objective cf) (given (cf_input_data cf)) kk pt (inr w) -> answers (cf_objective cf) (given (cf_input_data cf)) kk pt (inr (F pt)) -> w = F pt).
    { clear. intros kk w H1 H2. inversion H1; subst; inversion H2; congruence. }
    rewrite (U _ _ C A), (U _ _ C' A'). reflexivity.
  Qed.
  Lemma any_live : forall cf a b k s t0 e0 c gd0 s0 gd1 s1 x, fits cf (GenOrd a b k) Order (new_combi Movement) (GenOrd a b k) (MutCombi Movement x) ->
    answers_alike cf (arrangement a b k) -> all_generations cf -> launched cf (GenOrd a b k) Order (new_combi Movement) (set_source t0 e0 s) c gd0 s0 ->
    first_generation (c_fitness c) gd0 s0 = Ok gd1 s1 -> rnd_seed s1 = None ->
    num_generations gd1 = cf_num_generations cf /\
    live ok (length (log s)) (cf_tournament_size cf) (offspring cf) (cf_num_individ cf) x a b k (after_first cf) c gd1 s1.
  Proof.
    intros cf a b k s t0 e0 c gd0 s0 gd1 s1 x IO Rp [Fl1 Fl2] La F H1. destruct (any_going _ _ _ _ _ _ _ _ _ _ _ _ La IO F) as (G & Em & Eg & _).
    pose proof IO as (V & _). destruct (offspring_some cf V) as [Eo _]. pose proof V as ((Ht1 & Ht2) & _).
    destruct (any_first _ _ _ _ _ _ _ _ La) as (St & En & Ec & Eng & Ees & Et & Er & El). pose proof G as (_ & Si & Gs & _).
    destruct (first_ok ok _ _ _ _ _ NL Gs (proj1 Si) (started_init _ _ St) F) as (cs & l0 & bst & md & wr & Fi & _).
    destruct (fi_params _ _ _ _ _ _ _ _ _ _ Fi) as (P1 & P2 & P3). destruct (fi_members _ _ _ _ _ _ _ _ _ _ Fi) as [_ Pm]. pose proof (fi_pop _ _ _ _ _ _ _ _ _ _ Fi) as Ep.
    pose proof (fi_best _ _ _ _ _ _ _ _ _ _ Fi) as (_ & Bn).
    destruct La as (p & s2 & p' & f & cl & m & ng & Sp & Ds & Fil & Nf & Nm & Nn & -> & ->). destruct (set_params_ok _ _ _ _ _ _ _ Sp Fil) as (_ & Np & _ & Lm).
    split; [congruence|]. constructor; auto.
    - unfold pairs_of. rewrite P3, Ep, Ec. cbn [num_individ set_sorted set_members] in *. rewrite En. exact Eo.
    - exact (any_steady cf f cl _ Rp Nf).
    - rewrite (fi_log _ _ _ _ _ _ _ _ _ _ Fi), app_length, El. cbn [log set_source set_ent set_tape]. lia.
    - rewrite (Permutation_length Pm). cbn [population new_gadata]. unfold room. lia.
    - rewrite Ep. exact En.
    - rewrite P2, Ees. unfold resolved_stop, after_first. destruct (cf_early_stop cf) as [e1|]; [specialize (Fl2 e1 eq_refl)|]; eexists; (split; [reflexivity|]); rewrite Bn; lia.
  Qed.
  Lemma any_tour : forall fuel cf a b k s z Y g x, (0 < fuel)%nat -> fits cf (GenOrd a b k) Order (new_combi Movement) (GenOrd a b k) (MutCombi Movement x) ->
    cf_tournament_size cf <= offspring cf -> 3 <= k -> k = b - a + 1 -> (0 <= g <= either_way x)%Q ->
    answers_alike cf (arrangement a b k) -> all_generations cf -> rnd_seed s = None -> arrangement a b k z -> Y z = true ->
    exists p, probability (combinatory_ga fuel cf a b k) s (returns_without s Y) p /\
      (p <= qpow (1 - qpow (generation_chance (cf_num_individ cf) (cf_tournament_size cf) (offspring cf) k g) (path_length k)) (after_first cf / path_length k))%Q.
  Proof.
    intros [|fuel] cf a b k s z Y g x Hf IO Mc Hk Ek [Hg0 Hg] Rp Fl Hs Az HY; [lia|]. pose proof IO as (V & _). pose proof V as ((Ht1 & Ht2) & _).
    assert (Hlen : forall y, in_domain (GenOrd a b k) y -> length y = Z.to_nat k) by (intros y (zs & -> & Lz & _); rewrite map_length; lia).
    assert (Hhop : forall y, in_domain (GenOrd a b k) y -> hops (Z.to_nat k) (2 * Z.to_nat k) y z) by (intros y Dy; apply (full_tours a b k y z Ek ltac:(lia) Dy Az)).
    assert (G1 : (g <= gate x)%Q) by (eapply Qle_trans; [exact Hg|apply Q.le_min_l]). assert (G2 : (g <= 1 - gate x)%Q) by (eapply Qle_trans; [exact Hg|apply Q.le_min_r]).
    set (w := generation_chance _ _ _ _ _).
    assert (Wr : (0 <= w <= 1)%Q) by (apply (w_range (cf_tournament_size cf) (offspring cf) (cf_num_individ cf) x g k); auto; lia).
    assert (Q1 : (0 <= 1 - qpow w (path_length k))%Q) by (pose proof (qpow_le_one w (path_length k) (proj1 Wr) (proj2 Wr)); lra).
    eapply am_weaken; [apply (any_bound (S fuel) cf (GenOrd a b k) Order (new_combi Movement) s Y 0 (qpow (1 - qpow w (path_length k)) (after_first cf / path_length k)) Hs)| |apply Qle_refl].
    - apply qpow_nonneg. exact Q1.
    - apply Qle_refl.
    - intros t0 e0 c gd0 s0 gd1 s1 La F H1. destruct (any_live cf a b k s t0 e0 c gd0 s0 gd1 s1 x IO Rp Fl La F H1) as [Eng Lv]. rewrite Eng. fold (after_first cf).
      pose proof (blocks ok NL Y (length (log s)) (cf_tournament_size cf) (offspring cf) (cf_num_individ cf) x g a b k z ltac:(lia) Hg0 G1 G2 Hk Hlen Hhop HY fuel
        (after_first cf / path_length k) (after_first cf mod path_length k)) as Bl.
      rewrite (Nat.mul_comm _ (path_length k)), <- Nat.div_mod in Bl by discriminate. exact (Bl c gd1 s1 Lv).
    - intros o _. destruct o as [r s'|e|]; cbn [returns_without worth indicator]; [|apply Qle_refl|apply Qle_refl].
      unfold unseen, seen, new_calls. apply Qle_lteq. right. ring.
  Qed.
End Any.
