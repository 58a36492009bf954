(** A run uses its fitness object only through the evaluations of its own generations: two
    fitness objects that evaluate alike in generations 0 .. N-1 give the same run. *)
From Coq Require Import String.
From Coq Require Import ZArith List Bool Lia.
From Verif Require Import Num State Binary Population GaData Crossover Mutation Selection Penalty Fitness NewGeneration Driver
  ListLemmas Rnd Exec.
Import ListNotations.
Open Scope list_scope.
Open Scope Z_scope.

Section Agree.
  Context {NO : NumOps}.

  Definition same_clock (gd gd' : gadata) : Prop := idx_generation gd' = idx_generation gd /\ num_generations gd' = num_generations gd.
  Lemma clock_refl : forall gd, same_clock gd gd. Proof. split; reflexivity. Qed.
  Lemma clock_trans : forall a b c, same_clock a b -> same_clock b c -> same_clock a c.
  Proof. intros a b c [H1 H2] [H3 H4]. split; congruence. Qed.
  Lemma mfold_clock : forall {A} (f : gadata -> A -> M gadata) l gd s gd' s',
    (forall g x s1 g' s2, f g x s1 = Ok g' s2 -> same_clock g g') -> mfold f l gd s = Ok gd' s' -> same_clock gd gd'.
  Proof.
    intros A f l. induction l as [|x l IH]; intros gd s gd' s' Hf H; cbn [mfold] in H.
    - apply ret_ok in H. destruct H as [-> _]. apply clock_refl.
    - bd H g1 s1 H1. eapply clock_trans; [eapply Hf; eauto|eapply IH; eauto].
  Qed.
  Lemma base_clock : forall gd s gd' s', base_execute gd s = Ok gd' s' -> same_clock gd gd'.
  Proof. intros gd s gd' s' H. unfold base_execute in H. bd H u s1 H1. bd H l s2 H2. apply ret_ok in H. destruct H as [-> _]. split; reflexivity. Qed.
  Lemma tournament_clock : forall f m idx t gd s gd' s', tournament f m idx t gd s = Ok gd' s' -> same_clock gd gd'.
  Proof. intros f m idx t gd s gd' s' H. unfold tournament in H. bd H u s1 H1. bd H l s2 H2. apply ret_ok in H. destruct H as [-> _]. split; reflexivity. Qed.
  Lemma pass_clock : forall f rk m idx gd s gd' s', balanced_pass f rk m idx gd s = Ok gd' s' -> same_clock gd gd'.
  Proof.
    intros f rk m idx gd s gd' s' H. unfold balanced_pass in H. bd H gd1 s1 H1. cbv zeta in H. bd H u s2 H2. bd H sc s3 H3.
    unfold balanced_selection in H. bd H t s4 H4. bd H ps s5 H5. apply ret_ok in H. destruct H as [-> _]. apply base_clock in H1. exact H1.
  Qed.
  Lemma selection_clock : forall fuel sel gd s gd' s', selection_execute fuel sel gd s = Ok gd' s' -> same_clock gd gd'.
  Proof.
    intros fuel sel gd s gd' s' H. destruct sel; cbn [selection_execute] in H; try (eapply pass_clock; exact H).
    all: try (refine (mfold_clock _ _ _ _ _ _ _ H); intros g x sa g' sb Hx; exact (pass_clock _ _ _ _ _ _ _ _ Hx)).
    all: bd H u s1 H1.
    - bd H g1 s2 H2. eapply clock_trans; [eapply base_clock; eauto|eapply tournament_clock; eauto].
    - bd H g1 s2 H2. eapply clock_trans; [eapply base_clock; eauto|]. refine (mfold_clock _ _ _ _ _ _ _ H); intros g x sa g' sb Hx; exact (tournament_clock _ _ _ _ _ _ _ _ Hx).
    - refine (mfold_clock _ _ _ _ _ _ _ H); intros g x sa g' sb Hx; exact (pass_clock _ _ _ _ _ _ _ _ Hx).
  Qed.
  Lemma crossover_clock : forall k gd s gd' s', crossover_execute k gd s = Ok gd' s' -> same_clock gd gd'.
  Proof.
    intros k gd s gd' s' H. unfold crossover_execute in H. destruct (members (population gd)); [discriminate H|]. bd H i s1 H1. cbv zeta in H. bd H u s2 H2. bd H cs s3 H3.
    apply ret_ok in H. destruct H as [-> _]. split; reflexivity.
  Qed.
  Lemma newgen_clock : forall ng gd s gd' s', newgen_execute ng gd s = Ok gd' s' -> same_clock gd gd'.
  Proof.
    intros ng gd s gd' s' H. unfold newgen_execute in H. cbv zeta in H. destruct (ng_multi ng).
    - bd H u s1 H1. bd H l s2 H2. apply ret_ok in H. destruct H as [-> _]. split; reflexivity.
    - bd H u s1 H1. bd H l s2 H2. apply ret_ok in H. destruct H as [-> _]. split; reflexivity.
  Qed.
  Lemma update_clock : forall gd s gd' s', update gd s = Ok gd' s' -> idx_generation gd' = idx_generation gd + 1 /\ num_generations gd' = num_generations gd.
  Proof.
    intros gd s gd' s' H. unfold update in H. destruct (is_multi gd).
    - unfold update_multi in H. cbv zeta in H. bd H l s1 H1. bd H refs s2 H2. bd H set s3 H3. bd H r s4 H4. destruct r as [old g]. apply ret_ok in H. destruct H as [-> _]. split; reflexivity.
    - unfold update_single in H. cbv zeta in H. inv_run; split; reflexivity.
  Qed.

  (** *** Two fitness objects *)
  Definition alike (N : Z) (f f' : fitness) : Prop := fkind f' = fkind f /\ obj_function f' = obj_function f /\
    forall gen best r s, 0 <= gen < N -> evaluate f' gen best r s = evaluate f gen best r s.
  Lemma bind_same : forall {A B} (m m' : M A) (k k' : A -> M B) s, m' s = m s -> (forall a s1, m s = Ok a s1 -> k' a s1 = k a s1) -> bind m' k' s = bind m k s.
  Proof. intros A B m m' k k' s E K. unfold bind. rewrite E. destruct (m s) eqn:Em; auto. Qed.
  Lemma miter_same : forall {A} (f f' : A -> M unit) l s, (forall x s1, f' x s1 = f x s1) -> miter f' l s = miter f l s.
  Proof. intros A f f' l. induction l as [|x l IH]; intros s E; [reflexivity|]. cbn [miter]. apply bind_same; [apply E|]. intros; apply IH; auto. Qed.
  Lemma fitness_alike : forall N f f' gd s, alike N f f' -> 0 <= idx_generation gd < N -> fitness_execute f' gd s = fitness_execute f gd s.
  Proof.
    intros N f f' gd s (Ek & Eo & Ee) Hg.
    assert (B : forall s0, base_fitness_execute f' gd s0 = base_fitness_execute f gd s0).
    { intros s0. unfold base_fitness_execute. apply bind_same; [reflexivity|]. intros u s1 _. apply bind_same; [|reflexivity]. apply miter_same. intros r s2. apply Ee. exact Hg. }
    unfold fitness_execute. rewrite Ek, Eo. destruct (is_multi_kind (fkind f)); [|apply B].
    apply bind_same; [reflexivity|]. intros u s1 _. apply bind_same; [reflexivity|]. intros u2 s2 _. apply B.
  Qed.
  Definition set_fitness (f : fitness) (c : comps) : comps := mkComps f (c_selection c) (c_crossover c) (c_mutation c) (c_newgen c).
  (** The same outcome, but for the fitness object among the components. *)
  Definition refit (f : fitness) (o : outcome (comps * gadata)) : outcome (comps * gadata) :=
    match o with Ok r s => Ok (set_fitness f (fst r), snd r) s | Err e => Err e | NoFuel => NoFuel end.
  Lemma refit_bind : forall {A} (m : M A) f (k k' : A -> M (comps * gadata)) s, (forall a s1, m s = Ok a s1 -> k' a s1 = refit f (k a s1)) -> bind m k' s = refit f (bind m k s).
  Proof. intros A m f k k' s K. unfold bind. destruct (m s) eqn:Em; cbn; auto. Qed.
  Lemma step_alike : forall N fuel c f' gd s, alike N (c_fitness c) f' -> 0 <= idx_generation gd < N ->
    ga_step fuel (set_fitness f' c) gd s = refit f' (ga_step fuel c gd s).
  Proof.
    intros N fuel c f' gd s A Hg. unfold ga_step. cbn [c_selection c_crossover c_mutation c_newgen c_fitness set_fitness].
    apply refit_bind. intros gd1 s1 R1. apply selection_clock in R1. apply refit_bind. intros gd2 s2 R2. apply crossover_clock in R2.
    apply refit_bind. intros m' s3 R3. apply refit_bind. intros gd3 s4 R4. apply newgen_clock in R4.
    pose proof (clock_trans _ _ _ (clock_trans _ _ _ R1 R2) R4) as [C _].
    unfold bind at 1. rewrite (fitness_alike N (c_fitness c) f' gd3 s4 A) by lia. unfold bind at 2. destruct (fitness_execute (c_fitness c) gd3 s4) as [u s5| |]; auto.
    apply refit_bind. intros gd4 s6 R6. reflexivity.
  Qed.
  Lemma step_clock : forall fuel c gd s c' gd' s', ga_step fuel c gd s = Ok (c', gd') s' ->
    idx_generation gd' = idx_generation gd + 1 /\ num_generations gd' = num_generations gd /\ c_fitness c' = c_fitness c.
  Proof.
    intros fuel c gd s c' gd' s' H. unfold ga_step in H. bd H gd1 s1 R1. bd H gd2 s2 R2. bd H m' s3 R3. bd H gd3 s4 R4. bd H u s5 R5. bd H gd4 s6 R6.
    apply ret_ok in H. destruct H as [E _]. inversion E; subst c' gd'. apply selection_clock in R1. apply crossover_clock in R2. apply newgen_clock in R4. apply update_clock in R6.
    pose proof (clock_trans _ _ _ (clock_trans _ _ _ R1 R2) R4) as [C C']. destruct R6. split; [lia|]. split; [congruence|reflexivity].
  Qed.
  Lemma loop_alike : forall N fuel k c f' gd s, alike N (c_fitness c) f' -> 0 <= idx_generation gd -> (k = O \/ idx_generation gd + Z.of_nat k <= N) ->
    ga_loop fuel k (set_fitness f' c) gd s = refit f' (ga_loop fuel k c gd s).
  Proof.
    intros N fuel k. induction k as [|k IH]; intros c f' gd s A H0 Hk; [reflexivity|]. cbn [ga_loop]. destruct Hk as [Hk|Hk]; [discriminate Hk|].
    unfold bind at 1. rewrite (step_alike N) by (auto; lia). unfold bind at 2. destruct (ga_step fuel c gd s) as [[c1 gd1] s1| |] eqn:R; auto. cbn [refit fst snd].
    apply step_clock in R. destruct R as (E1 & _ & E2). apply refit_bind. intros b s2 _. destruct b; [reflexivity|]. apply IH; [rewrite E2; auto|lia|right; lia].
  Qed.
  Lemma run_alike : forall N fuel c f' gd s, alike N (c_fitness c) f' -> idx_generation gd = 0 -> 1 <= N -> num_generations gd <= N ->
    run_loop fuel (set_fitness f' c) gd s = refit f' (run_loop fuel c gd s).
  Proof.
    intros N fuel c f' gd s A H0 H1 HN. unfold run_loop. cbn [c_fitness set_fitness]. unfold bind at 1. rewrite (fitness_alike N (c_fitness c) f' gd s A) by lia.
    unfold bind at 2. destruct (fitness_execute (c_fitness c) gd s) as [u s1| |]; auto. apply refit_bind. intros gd1 s2 R. apply update_clock in R. destruct R as [E1 E2].
    rewrite E2. apply (loop_alike N); auto; [lia|]. destruct (Z.to_nat (num_generations gd - 1)) eqn:E; [left; auto|right; lia].
  Qed.
  (** The whole of optimize with another penalty argument. *)
  Definition with_penalty (p : penalty_arg) (cf : config) : config :=
    mkCfg (cf_num_generations cf) (cf_num_individ cf) (cf_objective cf) (cf_obj_value cf) (cf_input_data cf) p (cf_conditions cf)
          (cf_children_percent cf) (cf_early_stop cf) (cf_input_population cf) (cf_tournament_size cf) (cf_mutation_lvl cf) (cf_transfer cf) (cf_is_print cf).
  Definition agree (N : Z) (p p' : penalty) : Prop := forall conds values gen best, 0 <= gen < N ->
    penalty_execute p' conds values gen best = penalty_execute p conds values gen best.
  Definition new_alike (N : Z) (o o' : exn + (fitness * option (list string))) : Prop :=
    match o, o' with
    | inl e, inl e' => e = e'
    | inr (f, cl), inr (f', cl') => cl = cl' /\ alike N f f'
    | _, _ => False
    end.
  Lemma evaluate_agree : forall N k o t d p p' cl b idx, agree N p p' -> alike N (mkFit k o t d (Some p) cl b idx) (mkFit k o t d (Some p') cl b idx).
  Proof.
    intros N k o t d p p' cl b idx A. split; [reflexivity|]. split; [reflexivity|]. intros gen best r s Hg. unfold evaluate. cbn [is_conditional fpenalty conditions].
    apply bind_same; [reflexivity|]. intros i s1 _. destruct (is_none (score i)); [|reflexivity]. apply bind_same; [reflexivity|]. intros v s2 _. destruct b; [|reflexivity].
    destruct v as [x|l|]; try reflexivity. apply bind_same; [reflexivity|]. intros ov s3 _. apply bind_same; [reflexivity|]. intros u s4 _. apply bind_same; [reflexivity|]. intros bad s5 _.
    apply bind_same; [reflexivity|]. intros u2 s6 _. apply bind_same; [unfold lift; rewrite A by auto; reflexivity|]. intros pen s7 _. apply bind_same; [reflexivity|]. intros i' s8 _. reflexivity.
  Qed.
  Lemma new_agree : forall N k o t d p p' cl, agree N p p' -> new_alike N (new_fitness k o t d (PPen p) cl) (new_fitness k o t d (PPen p') cl).
  Proof.
    intros N k o t d p p' cl A. cbn [new_fitness]. set (l := match cl with None => _ | Some _ => _ end). destruct (_ <=? 1); [split; auto; apply evaluate_agree; auto|].
    destruct (is_multi_kind k); [split; auto; apply evaluate_agree; auto|]. destruct (index_of _ l); [|reflexivity]. split; auto. apply evaluate_agree; auto.
  Qed.
  Lemma optimize_agree : forall N fuel cf p p' multi g fk sel ck mk ngm s, cf_penalty cf = PPen p -> agree N p p' -> 1 <= N -> cf_num_generations cf <= N ->
    ga_optimize fuel (with_penalty (PPen p') cf) multi g fk sel ck mk ngm s = ga_optimize fuel cf multi g fk sel ck mk ngm s.
  Proof.
    intros N fuel cf p p' multi g fk sel ck mk ngm s Ep A H1 HN. unfold ga_optimize.
    cbn [cf_num_individ cf_input_population cf_objective cf_obj_value cf_input_data cf_penalty cf_conditions cf_mutation_lvl cf_transfer cf_is_print cf_num_generations cf_children_percent with_penalty].
    change (resolved_stop (with_penalty (PPen p') cf)) with (resolved_stop cf). rewrite Ep.
    apply bind_same; [reflexivity|]. intros u s1 _. apply bind_same; [reflexivity|]. intros q s2 _.
    pose proof (new_agree N fk (cf_objective cf) (cf_obj_value cf) (cf_input_data cf) p p' (cf_conditions cf) A) as Na.
    destruct (new_fitness fk (cf_objective cf) (cf_obj_value cf) (cf_input_data cf) (PPen p) (cf_conditions cf)) as [e|[f cl]];
      destruct (new_fitness fk (cf_objective cf) (cf_obj_value cf) (cf_input_data cf) (PPen p') (cf_conditions cf)) as [e'|[f' cl']]; try contradiction.
    - cbn in Na. subst e'. reflexivity.
    - destruct Na as [Ec Al]. subst cl'.
      assert (L : forall {A B} (a : A) (k : A -> M B) s0, bind (lift (inr a)) k s0 = k a s0) by reflexivity. rewrite !L. cbn [fst snd]. clear L.
      apply bind_same; [reflexivity|]. intros m s3 _. apply bind_same; [reflexivity|]. intros ng s4 _. apply bind_same; [reflexivity|]. intros pp s5 _. cbv zeta.
      change (mkComps f' sel ck m ng) with (set_fitness f' (mkComps f sel ck m ng)).
      set (gd0 := new_gadata multi (cf_num_generations cf) (cf_children_percent cf) (resolved_stop cf) pp).
      assert (E : run_loop fuel (set_fitness f' (mkComps f sel ck m ng)) gd0 s5 = refit f' (run_loop fuel (mkComps f sel ck m ng) gd0 s5)) by (apply (run_alike N); auto).
      unfold bind at 1. rewrite E. clear E. unfold bind at 2. destruct (run_loop fuel (mkComps f sel ck m ng) gd0 s5) as [[c1 gd1] s6| |]; reflexivity.
  Qed.
End Agree.
