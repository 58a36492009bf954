(** C98: a CollectorGA assembled from the parts of a ready-made class makes the same run,
    and printing does not influence the result. *)
From Coq Require Import String.
From Coq Require Import ZArith QArith List Bool Lia Permutation.
From Verif Require Import Spec Num State Binary Population GaData Crossover Mutation Selection Penalty Fitness NewGeneration Driver Report
  ListLemmas Rnd Exec Laws PopulationProofs NewGenProofs FitnessProofs MultiProofs StepProofs Runs PropRun PropPareto PropSeed PropBookkeeping PropReport Demo.
Import ListNotations.
Open Scope list_scope.
Open Scope Z_scope.

Section Assemble.
  Context {NO : NumOps}.

  (** What a user of CollectorGA writes: set_population, then optimize. *)
  Definition assembled (fuel : nat) (c : comps) (multi : bool) (n num_gen : Z) (g : gspec) (inp : list (list gv)) (cp : num) (es : option Z) : M gadata :=
    gd <- collector_set_population multi n num_gen g inp cp es ;;
    r <- collector_optimize fuel c gd ;;
    ret (snd r).
  Definition silent (cf : config) : config := mkCfg (cf_num_generations cf) (cf_num_individ cf) (cf_objective cf) (cf_obj_value cf) (cf_input_data cf) (cf_penalty cf)
    (cf_conditions cf) (cf_children_percent cf) (cf_early_stop cf) (cf_input_population cf) (cf_tournament_size cf) (cf_mutation_lvl cf) (cf_transfer cf) false.
  Definition printing (cf : config) : config := mkCfg (cf_num_generations cf) (cf_num_individ cf) (cf_objective cf) (cf_obj_value cf) (cf_input_data cf) (cf_penalty cf)
    (cf_conditions cf) (cf_children_percent cf) (cf_early_stop cf) (cf_input_population cf) (cf_tournament_size cf) (cf_mutation_lvl cf) (cf_transfer cf) true.
  (** The parts a class with configuration [cf] creates. *)
  Definition parts_of (cf : config) (fk : fitness_kind) (sel : selection) (ck : crossover_kind) (mk : lvl -> exn + mutation) (ngm : bool) (c : comps) (cl : option (list string)) : Prop :=
    new_fitness fk (cf_objective cf) (cf_obj_value cf) (cf_input_data cf) (cf_penalty cf) (cf_conditions cf) = inr (c_fitness c, cl) /\
    mk (cf_mutation_lvl cf) = inr (c_mutation c) /\ new_newgen ngm (cf_transfer cf) = inr (c_newgen c) /\ c_selection c = sel /\ c_crossover c = ck.

  (** The same outcome in every case: result, final state with all draws and calls,
      exception, or an unbounded search for a second parent.  [optimize] ends with the
      collector's data. *)
  Theorem C98_same : forall fuel cf multi g fk sel ck mk ngm c cl s, parts_of cf fk sel ck mk ngm c cl -> cf_is_print cf = true ->
    ga_optimize fuel cf multi g fk sel ck mk ngm s =
    match assembled fuel c multi (cf_num_individ cf) (cf_num_generations cf) g (cf_input_population cf) (cf_children_percent cf) (resolved_stop cf) s with
    | Ok gd s' => Ok (gd, cl) s'
    | Err e => Err e
    | NoFuel => NoFuel
    end.
  Proof.
    intros fuel cf multi g fk sel ck mk ngm c cl s (N1 & N2 & N3 & <- & <-) P. unfold ga_optimize, assembled, collector_set_population, collector_optimize. rewrite N1, N2, N3, P.
    destruct c as [f se cr m ng]. cbn [c_fitness c_selection c_crossover c_mutation c_newgen fst snd].
    unfold bind. destruct (do_seed s) as [u s1|e|]; auto. destruct (lift (set_params (cf_num_individ cf) g (cf_input_population cf)) s1) as [p s2|e|]; auto.
    unfold lift, ret. destruct (fill p s2) as [p' s3|e|]; auto. destruct (run_loop fuel _ _ s3) as [r s4|e|]; auto. destruct (print_best_solution (snd r) s4) as [v s5|e|]; auto.
  Qed.

  (** *** Printing. *)
  (** The kind of record a run leaves: there always is one, for generation zero is
      assessed whatever num_generations says. *)
  Definition recorded_kind (gd : gadata) : Prop :=
    match best_solution gd with BNone => False | BSingle _ _ => is_multi gd = false | BPareto _ _ => is_multi gd = true end.
  Lemma kind_update : forall gd s gd' s', update gd s = Ok gd' s' -> recorded_kind gd'.
  Proof.
    intros gd s gd' s' H. unfold update in H. destruct (is_multi gd) eqn:Em.
    - unfold update_multi in H. bd H l s1 R1. bd H refs s2 R2. bd H set s3 R3. bd H r s4 R4. destruct r as [old g]. apply ret_ok in H. destruct H as [-> _].
      unfold recorded_kind. cbn. destruct (inds_eqb old set); exact Em.
    - unfold update_single in H. bd H l s1 R1. bd H b s2 R2. bd H md s3 R3. bd H w s4 R4. bd H r s5 R5. apply ret_ok in H. destruct H as [-> _].
      unfold recorded_kind. cbn. destruct (best_solution gd) as [|i g|set g]; [| |discriminate].
      + apply ret_ok in R5. destruct R5 as [-> _]. exact Em.
      + bd R5 less s6 R6. apply ret_ok in R5. destruct R5 as [-> _]. destruct less; exact Em.
  Qed.
  Lemma kind_loop : forall fuel k c gd s c' gd' s', recorded_kind gd -> ga_loop fuel k c gd s = Ok (c', gd') s' -> recorded_kind gd'.
  Proof.
    intros fuel k. induction k as [|k IH]; intros c gd s c' gd' s' K H; cbn [ga_loop] in H.
    - apply ret_ok in H. destruct H as [E _]. inversion E; subst; auto.
    - bd H r s1 R1. destruct r as [c1 g1]. bd H stop s2 R2. cbn [fst snd] in *.
      assert (K1 : recorded_kind g1).
      { unfold ga_step in R1. bd R1 h1 t1 Q1. bd R1 h2 t2 Q2. bd R1 m t3 Q3. bd R1 h3 t4 Q4. bd R1 u t5 Q5. bd R1 h4 t6 Q6. apply ret_ok in R1. destruct R1 as [E _].
        inversion E; subst g1. eapply kind_update; exact Q6. }
      destruct stop; [apply ret_ok in H; destruct H as [E _]; inversion E; subst; auto|]. eapply IH; [|exact H]; auto.
  Qed.
  Lemma kind_run : forall fuel c gd s c' gd' s', run_loop fuel c gd s = Ok (c', gd') s' -> recorded_kind gd' /\ is_multi gd' = is_multi gd.
  Proof.
    intros fuel c gd s c' gd' s' H. unfold run_loop in H. bd H u s1 R1. bd H g1 s2 R2. split.
    - eapply kind_loop; [|exact H]. eapply kind_update; exact R2.
    - apply C79_update in R2. apply C79_loop in H. destruct R2 as (S1 & _). destruct H as (S2 & _). unfold settings_kept in *. intuition congruence.
  Qed.
  Lemma kind_right : forall gd, recorded_kind gd -> right_record gd.
  Proof. intros gd. unfold recorded_kind, right_record. destruct (best_solution gd); auto. Qed.

  (** A printing run is the silent run followed by the report: same draws, calls and
      data, the same exception; it fails in addition only where the report does. *)
  Theorem C98_quiet : forall fuel cf multi g fk sel ck mk ngm s,
    ga_optimize fuel (printing cf) multi g fk sel ck mk ngm s =
    match ga_optimize fuel (silent cf) multi g fk sel ck mk ngm s with
    | Ok (gd, cl) s' => match snd (report gd) with None => Ok (gd, cl) s' | Some e => Err e end
    | Err e => Err e
    | NoFuel => NoFuel
    end.
  Proof.
    intros fuel cf multi g fk sel ck mk ngm s. unfold ga_optimize, printing, silent. cbn [cf_num_generations cf_num_individ cf_objective cf_obj_value cf_input_data cf_penalty cf_conditions cf_children_percent cf_input_population cf_mutation_lvl cf_transfer cf_is_print].
    unfold resolved_stop. cbn [cf_early_stop cf_num_generations].
    unfold bind. destruct (do_seed s) as [u s1|e|]; auto. destruct (lift (set_params _ _ _) s1) as [p s2|e|]; auto.
    destruct (lift (new_fitness _ _ _ _ _ _) s2) as [fc s3|e|]; auto. destruct (lift (mk _) s3) as [m s4|e|]; auto. destruct (lift (new_newgen _ _) s4) as [ng s5|e|]; auto.
    destruct (fill p s5) as [p' s6|e|]; auto.
    match goal with |- context [run_loop fuel ?c ?gd s6] => destruct (run_loop fuel c gd s6) as [[c' gd'] s7|e|] eqn:R end; auto.
    apply kind_run in R. destruct R as [K _]. apply kind_right in K. cbn [snd]. rewrite (C97_exception _ s7 K). unfold ret. destruct (snd (report gd')); reflexivity.
  Qed.

  (** With one objective printing makes no difference. *)
  Theorem C98_single : forall fuel cf g fk sel ck mk ngm s,
    ga_optimize fuel (printing cf) false g fk sel ck mk ngm s = ga_optimize fuel (silent cf) false g fk sel ck mk ngm s.
  Proof.
    intros fuel cf g fk sel ck mk ngm s. rewrite C98_quiet. destruct (ga_optimize fuel (silent cf) false g fk sel ck mk ngm s) as [[gd cl] s'|e|] eqn:H; auto.
    assert (K : recorded_kind gd /\ is_multi gd = false).
    { unfold ga_optimize in H. bd H u s1 R1. bd H p s2 R2. bd H fc s3 R3. bd H m s4 R4. bd H ng s5 R5. bd H p' s6 R6. bd H r s7 R7. bd H v s8 R8. apply ret_ok in H. destruct H as [E _]. inversion E; subst.
      destruct r as [c' gd']. apply kind_run in R7. destruct R7 as [K I]. cbn in *. auto. }
    destruct K as [K I]. unfold recorded_kind in K. unfold report. rewrite I in *. unfold report_single. destruct (best_solution gd) as [|i n|set n]; [destruct K| |discriminate]. destruct (phenotype i); reflexivity.
  Qed.

  (** With several objectives the only addition is a KeyError, and it comes exactly when
      no front was ever recorded or a member of the front has no phenotype. *)
  Theorem C98_multi : forall fuel cf g fk sel ck mk ngm s gd cl s',
    ga_optimize fuel (silent cf) true g fk sel ck mk ngm s = Ok (gd, cl) s' ->
    exists set found, best_solution gd = BPareto set found /\
    ga_optimize fuel (printing cf) true g fk sel ck mk ngm s = (if match found with None => true | Some _ => existsb (fun i => match phenotype i with None => true | Some _ => false end) set end then Err KeyError else Ok (gd, cl) s').
  Proof.
    intros fuel cf g fk sel ck mk ngm s gd cl s' H. pose proof (C98_quiet fuel cf true g fk sel ck mk ngm s) as L. rewrite H in L.
    assert (K : recorded_kind gd /\ is_multi gd = true).
    { unfold ga_optimize in H. bd H u s1 R1. bd H p s2 R2. bd H fc s3 R3. bd H m s4 R4. bd H ng s5 R5. bd H p' s6 R6. bd H r s7 R7. bd H v s8 R8. apply ret_ok in H. destruct H as [E _]. inversion E; subst.
      destruct r as [c' gd']. apply kind_run in R7. destruct R7 as [K I]. cbn in *. auto. }
    destruct K as [K I]. pose proof (kind_right _ K) as Rr. unfold recorded_kind in K. rewrite I in K.
    pose proof (C97_exception gd s' Rr) as X.
    destruct (best_solution gd) as [|i n|set found] eqn:Eb; [destruct K|discriminate|]. exists set, found. split; auto. rewrite L. clear L.
    unfold print_best_solution in X. rewrite Eb in X. destruct found as [n|].
    - revert X. generalize (snd (report gd)). intros o X. clear - X. induction set as [|i l IH]; cbn [miter existsb] in *.
      + destruct o; [discriminate|reflexivity].
      + unfold bind in X. destruct (phenotype i); cbn [orb]; [apply IH; exact X|]. cbn in X. destruct o; inversion X; reflexivity.
    - unfold raise in X. destruct (snd (report gd)); inversion X; reflexivity.
  Qed.

  (** *** VEGA and FFGA. *)
  Definition shown_in_full (set : list individ) : Prop := Forall (fun i => phenotype i <> None) set.
  (** The recorded set against the history of fronts. *)
  Definition fronts (gd : gadata) : Prop :=
    match best_solution gd with
    | BNone => hist_pareto gd = []
    | BSingle _ _ => False
    | BPareto set None => set = [] /\ Forall (fun f => f = []) (hist_pareto gd)
    | BPareto set (Some _) => shown_in_full set /\ Exists (fun f => f <> []) (hist_pareto gd)
    end.
  Lemma phenotypes_ready : forall f gd s u s', is_phenotype (gspec_of (population gd)) = true -> fitness_execute f gd s = Ok u s' ->
    forall r, In r (members (population gd)) -> phenotype (heap s' r) <> None.
  Proof.
    intros f gd s u s' Ip H. assert (B : exists s0, base_fitness_execute f gd s0 = Ok u s').
    { unfold fitness_execute in H. destruct (is_multi_kind (fkind f)); [|eauto]. rewrite Ip in H. bd H v s1 R1. bd H w s2 R2. eauto. }
    destruct B as (s0 & B). unfold base_fitness_execute in B. rewrite Ip in B. bd B v s1 R1. bd B w s2 R2. apply swap_ok in B. destruct B as (_ & _ & Ph & Hh).
    intros r I. destruct (Ph r I) as (ph & E). rewrite Hh. destruct (Nat.odd _); [|congruence]. unfold swap_ind. rewrite E. discriminate.
  Qed.
  Lemma fronts_update : forall gd s gd' s', is_multi gd = true -> fronts gd -> (forall r, In r (members (population gd)) -> phenotype (heap s r) <> None) ->
    update gd s = Ok gd' s' -> fronts gd'.
  Proof.
    intros gd s gd' s' Im Fr Ph H. unfold update in H. rewrite Im in H. unfold update_multi in H. bd H l s1 R1.
    assert (Es : s1 = s) by (destruct (is_sorted (population gd)); [apply ret_ok in R1; tauto|apply sort_ok in R1; tauto]). subst s1.
    apply sorted_perm in R1. bd H refs s2 R2. apply rank1_prefix_incl in R2. destruct R2 as (-> & rest & El). bd H set s3 R3. rewrite mmap_get in R3. inversion R3; subst set s3. clear R3.
    assert (Sh : shown_in_full (map (heap s) refs)).
    { apply Forall_forall. intros i Hi. apply in_map_iff in Hi. destruct Hi as (r & <- & Ir). apply Ph. eapply Permutation_in; [exact R1|]. rewrite El. apply in_or_app. auto. }
    bd H og s4 R4. destruct og as [old g]. apply ret_ok in H. destruct H as [-> _]. unfold fronts in *. cbn [best_solution hist_pareto].
    destruct (best_solution gd) as [|i n|set [n|]].
    - apply ret_ok in R4. destruct R4 as [E _]. inversion E; subst old g. rewrite Fr. destruct refs as [|r refs]; cbn [map inds_eqb app].
      + split; auto.
      + split; auto. constructor. discriminate.
    - destruct Fr.
    - apply ret_ok in R4. destruct R4 as [E _]. inversion E; subst old g. destruct Fr as [F1 F2]. destruct (inds_eqb set (map (heap s) refs)); split; auto; apply Exists_app; auto.
    - apply ret_ok in R4. destruct R4 as [E _]. inversion E; subst old g. destruct Fr as [-> F2]. destruct refs as [|r refs]; cbn [map inds_eqb].
      + split; auto. apply Forall_app. auto.
      + split; auto. apply Exists_app. right. constructor. discriminate.
  Qed.
  Lemma fronts_kept : forall gd gd', records_kept gd gd' -> fronts gd -> fronts gd'.
  Proof. intros gd gd' (_ & _ & _ & _ & _ & H & B). unfold fronts. rewrite H, B. auto. Qed.
  Lemma fronts_step : forall fuel c gd s c' gd' s', is_multi gd = true -> is_phenotype (gspec_of (population gd)) = true -> fronts gd -> ga_step fuel c gd s = Ok (c', gd') s' -> fronts gd'.
  Proof.
    intros fuel c gd s c' gd' s' Im Ip Fr H. unfold ga_step in H. bd H g1 s1 R1. bd H g2 s2 R2. bd H m s3 R3. bd H g3 s4 R4. bd H u s5 R5. bd H g4 s6 R6. apply ret_ok in H. destruct H as [E _].
    inversion E; subst c' gd'. clear E R3. apply C79_selection in R1. apply C79_crossover in R2. apply C79_new_generation in R4.
    destruct R1 as (S1 & K1 & _). destruct R2 as (S2 & K2 & _). destruct R4 as (S3 & K3 & _).
    assert (Im3 : is_multi g3 = true) by (unfold settings_kept in *; intuition congruence).
    assert (Ip3 : is_phenotype (gspec_of (population g3)) = true).
    { replace (gspec_of (population g3)) with (gspec_of (population gd)); auto. unfold settings_kept in *. intuition congruence. }
    eapply fronts_update; [exact Im3| |exact (phenotypes_ready _ _ _ _ _ Ip3 R5)|exact R6].
    eapply fronts_kept; [exact K3|]. eapply fronts_kept; [exact K2|]. eapply fronts_kept; [exact K1|]. exact Fr.
  Qed.
  Lemma fronts_loop : forall fuel k c gd s c' gd' s', is_multi gd = true -> is_phenotype (gspec_of (population gd)) = true -> fronts gd ->
    ga_loop fuel k c gd s = Ok (c', gd') s' -> fronts gd'.
  Proof.
    intros fuel k. induction k as [|k IH]; intros c gd s c' gd' s' Im Ip Fr H; cbn [ga_loop] in H.
    - apply ret_ok in H. destruct H as [E _]. inversion E; subst; auto.
    - bd H r s1 R1. destruct r as [c1 g1]. pose proof (fronts_step _ _ _ _ _ _ _ Im Ip Fr R1) as F1. apply C79_step in R1. destruct R1 as (S1 & _). bd H stop s2 R2. cbn [fst snd] in *.
      destruct stop; [apply ret_ok in H; destruct H as [E _]; inversion E; subst; auto|]. destruct S1 as (M1 & _ & _ & _ & _ & G1 & _). eapply IH; [| | |exact H]; congruence.
  Qed.
  Lemma fronts_run : forall fuel c multi ng cp es p s c' gd' s', multi = true -> is_phenotype (gspec_of p) = true ->
    run_loop fuel c (new_gadata multi ng cp es p) s = Ok (c', gd') s' -> fronts gd'.
  Proof.
    intros fuel c multi ng cp es p s c' gd' s' -> Ip H. unfold run_loop in H. bd H u s1 R1. bd H g1 s2 R2.
    pose proof (fronts_update (new_gadata true ng cp es p) _ _ _ eq_refl (eq_refl : fronts (new_gadata true ng cp es p)) (phenotypes_ready _ (new_gadata true ng cp es p) _ _ _ Ip R1) R2) as F1.
    apply C79_update in R2. destruct R2 as ((M1 & _ & _ & _ & _ & G1 & _) & _). eapply fronts_loop; [| |exact F1|exact H]; [exact M1|rewrite G1; exact Ip].
  Qed.

  (** On a binary population the printing run returns what the silent run returns, unless
      every front of the run was empty. *)
  Theorem C98_fronts : forall fuel cf gray gens fk sel ck mk ngm s gd cl s', let g := GenBinary gray gens bparams0 in
    ga_optimize fuel (silent cf) true g fk sel ck mk ngm s = Ok (gd, cl) s' ->
    (Exists (fun f => f <> []) (hist_pareto gd) -> ga_optimize fuel (printing cf) true g fk sel ck mk ngm s = Ok (gd, cl) s') /\
    (Forall (fun f => f = []) (hist_pareto gd) -> ga_optimize fuel (printing cf) true g fk sel ck mk ngm s = Err KeyError).
  Proof.
    intros fuel cf gray gens fk sel ck mk ngm s gd cl s' g H. destruct (C98_multi _ _ _ _ _ _ _ _ _ _ _ _ H) as (set & found & Eb & ->).
    assert (Fr : fronts gd).
    { unfold ga_optimize in H. bd H u s1 R1. bd H p s2 R2. bd H fc s3 R3. bd H m s4 R4. bd H ng s5 R5. bd H p' s6 R6. bd H r s7 R7. bd H v s8 R8. apply ret_ok in H. destruct H as [E _]. inversion E; subst gd.
      destruct r as [c' gd']. eapply fronts_run; [reflexivity| |exact R7].
      apply lift_ok in R2. destruct R2 as [R2 _]. apply set_params_inv in R2. destruct R2 as [_ ->]. apply fill_ok in R6. destruct R6 as (g' & Pg & Q). cbv zeta in Q. destruct Q as (-> & _). cbn. cbn in Pg.
      destruct (get_gens_params gens) as [e|bp]; [discriminate|]. inversion Pg. reflexivity. }
    unfold fronts in Fr. rewrite Eb in Fr. destruct found as [n|].
    - destruct Fr as [Sh Ex]. replace (existsb _ set) with false; [|symmetry; apply not_true_is_false; intros X; apply existsb_exists in X; destruct X as (i & Ii & X); eapply Forall_forall in Sh; [|exact Ii]; destruct (phenotype i); [discriminate|exact (Sh eq_refl)]].
      split; auto. intros Al. exfalso. apply Exists_exists in Ex. destruct Ex as (f & If & Nf). eapply Forall_forall in Al; [|exact If]. auto.
    - destruct Fr as [_ Al]. split; auto. intros Ex. exfalso. apply Exists_exists in Ex. destruct Ex as (f & If & Nf). eapply Forall_forall in Al; [|exact If]. auto.
  Qed.

  (** The ready-made classes. *)
  Theorem C98_optimize : forall fuel cf a s,
    optimize fuel (printing cf) a s =
    match a, optimize fuel (silent cf) a s with
    | VEGA _ _, Ok (gd, cl) s' | FFGA _ _, Ok (gd, cl) s' => match snd (report gd) with None => Ok (gd, cl) s' | Some e => Err e end
    | _, o => o
    end.
  Proof.
    intros fuel cf a s. destruct a as [gray gens|x y k|gens|gray gens|gray gens]; cbn [optimize].
    - unfold binary_ga. exact (C98_single fuel cf (GenBinary gray gens bparams0) Hyperbola (SelTournament (cf_tournament_size cf)) OnePoint new_bin false s).
    - unfold combinatory_ga. exact (C98_single fuel cf (GenOrd x y k) Hyperbola (SelTournament (cf_tournament_size cf)) Order (new_combi Movement) false s).
    - unfold categorical_ga. exact (C98_single fuel cf (GenCat gens) Hyperbola (SelTournament (cf_tournament_size cf)) Uniform new_cat false s).
    - unfold vega. cbn [printing silent cf_conditions cf_objective]. unfold bind.
      destruct (match cf_conditions cf with Some l => ret (count_optimize l) | None => _ end s) as [m s1|e|]; auto. rewrite C98_quiet. destruct (ga_optimize fuel (silent cf) _ _ _ _ _ _ _ s1) as [[gd cl] s2|e|]; reflexivity.
    - unfold ffga. rewrite C98_quiet. destruct (ga_optimize fuel (silent cf) _ _ _ _ _ _ _ s) as [[gd cl] s2|e|]; reflexivity.
  Qed.
End Assemble.

Local Existing Instance Qops.
(** CategoricalGA and the collector with the same parts: the same last population, best
    solution and number of calls. *)
Definition view (gd : gadata) (s : st) := (idx_generation gd, members (population gd), best_solution gd, hist_best gd, List.length (log s)).
Definition cat_cf : config := printing (demo_cf (LFloat (1#2)) 5 6 None).
Definition cat_comps : comps := mkComps (mkFit Hyperbola demo_obj TNone None None ["optimize"%string] false []) (SelTournament (cf_tournament_size cat_cf)) Uniform (MutCat (1#2)) (mkNG false TBest).
Example C98_parts : parts_of cat_cf Hyperbola (SelTournament (cf_tournament_size cat_cf)) Uniform new_cat false cat_comps None /\ cf_is_print cat_cf = true.
Proof. split; [|reflexivity]. split; [reflexivity|]. split; [reflexivity|]. split; [reflexivity|]. split; reflexivity. Qed.
Definition cat_best : best_sol := BSingle (mkInd (ints [2; 0; 1]) None (q (-1)) (q 1) true None None) 3.
Example C98_case :
  observe view (assembled 50 cat_comps false 5 6 (GenCat pools) [] (cf_children_percent cat_cf) (resolved_stop cat_cf) fresh_world) =
    Some (6, [48; 49; 47; 2; 38; 31]%nat, cat_best, map q [-(4); -(4); -(4); -(1); -(1); -(1)]%Q, 20%nat) /\
  observe (fun r => view (fst r)) (categorical_ga 50 cat_cf pools fresh_world) =
    Some (6, [48; 49; 47; 2; 38; 31]%nat, cat_best, map q [-(4); -(4); -(4); -(1); -(1); -(1)]%Q, 20%nat).
Proof. split; run. Qed.
(** FFGA with is_print: a run on two genes returns with and without; both reasons for the
    additional KeyError occur, an empty population (in FFGA itself) and one individual
    without phenotype (in a collector over categories: nothing is compared with it). *)
Definition tiny (n G : Z) : config := mkCfg G n trade_obj TNone None PNone None (8#10) None [] 2 (LFloat (1#4)) "best" false.
Definition front_size (r : outcome (gadata * option (list string))) : option exn + nat :=
  match r with Ok r _ => match best_solution (fst r) with BPareto set _ => inr (List.length set) | _ => inl None end | Err e => inl (Some e) | NoFuel => inl None end.
Example C98_fronts_case :
  front_size (ffga 50 (silent (tiny 6 5)) true two_genes wide_world) = inr 5%nat /\ front_size (ffga 50 (printing (tiny 6 5)) true two_genes wide_world) = inr 5%nat /\
  front_size (ffga 50 (silent (tiny 0 1)) true two_genes wide_world) = inr 0%nat /\ front_size (ffga 50 (printing (tiny 0 1)) true two_genes wide_world) = inl (Some KeyError).
Proof. split; [run|split; [run|split; run]]. Qed.
Definition one_category (cf : config) := ga_optimize 50 cf true (GenCat pools) Ffga SelBalanced Uniform new_cat true wide_world.
Example C98_no_phenotype : front_size (one_category (silent (tiny 1 1))) = inr 1%nat /\ front_size (one_category (printing (tiny 1 1))) = inl (Some KeyError).
Proof. split; run. Qed.

Print Assumptions C98_same.
Print Assumptions C98_quiet.
Print Assumptions C98_single.
Print Assumptions C98_multi.
Print Assumptions C98_fronts.
Print Assumptions C98_optimize.
