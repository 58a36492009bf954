(** Property C69: VEGA and FFGA stay in the search space. *)
From Coq Require Import String.
From Coq Require Import ZArith QArith List Bool Lia Lqa Permutation.
From Verif Require Import Spec Num State Binary Population GaData Crossover Mutation Selection Penalty Fitness NewGeneration Driver
  ListLemmas Rnd Exec Laws CodingProofs PopulationProofs CrossoverProofs VegaProofs
  FitnessProofs StepProofs DomainProofs RankingProofs MultiProofs MultiRuns MultiSafetyProofs
  RunProofs Runs PropCoding PropFitness PropMulti PropPareto OptimizeProofs PropDomain PropConditional PropMultiSafe Demo.
Import ListNotations.
Open Scope string_scope.
Open Scope list_scope.
Open Scope Z_scope.

(** *** Any arithmetic, any composition of the multi-objective classes *)
(** As C44, for the multi-objective loop: the calls made for ranking and for
    evaluating are on points of the space. *)
Theorem C69_run : forall {NO : NumOps} (ok : num -> Prop), NumOrder NO ok -> counting ok -> forall F m fuel c gd0 s0,
  multi_objective ok c F m -> multi_started gd0 s0 ->
  let g := gspec_of (population gd0) in
  belongs (c_crossover c) (c_mutation c) g ->
  (forall r, In r (members (population gd0)) -> in_domain g (genotype (heap s0 r))) ->
  forall k c' gd' s', at_generation fuel c gd0 s0 k c' gd' s' ->
    (forall r, In r (members (population gd')) -> in_domain g (genotype (heap s' r))) /\
    exists calls, log s' = calls ++ log s0 /\
      Forall (fun x => exists geno, in_domain g geno /\ spec_point g geno (fst x)) calls.
Proof.
  intros NO ok NL Ct F m fuel c gd0 s0 Mo St g B I k c' gd' s' (gd & s & Hf & Hs). pose proof (multi_started_init _ _ St) as I0.
  pose (Inv := fun (c : comps) (gd : gadata) (s : st) => gspec_of (population gd) = g /\ belongs (c_crossover c) (c_mutation c) g /\ pop_in gd s /\
     exists calls, log s = calls ++ log s0 /\ Forall (fun x => domain_point g (fst x)) calls).
  destruct (multi_run_inv ok NL Ct F m fuel Inv c gd0 s0 gd s Mo I0 Hf) with (k := k) (c' := c') (gd' := gd') (s' := s') as (_ & _ & Eg & _ & Pi & calls & El & Fc); auto.
  - intros h2 rc cs front Ff M. destruct (mfirst_in _ _ _ _ _ _ _ _ _ _ Ff I0 I) as (P & F1 & F2). split; [rewrite (mf_pop _ _ _ _ _ _ _ _ _ _ Ff); reflexivity|].
    split; auto. split; auto. exists (rev cs ++ rev rc). rewrite (mf_log _ _ _ _ _ _ _ _ _ _ Ff), app_assoc. split; auto. apply Forall_app. split; apply Forall_rev; auto.
  - intros c1 gd1 s1 c2 gd2 s2 kids els h1 h2 rc cs front Sc M1 (E1 & E2 & E3 & calls & E4 & E5) Ms M2.
    destruct (mstep_in _ _ _ _ _ _ _ _ _ _ _ _ _ _ Ms M1) as (_ & P & F1 & F2); [rewrite E1; auto|auto|]. rewrite E1 in F1, F2.
    split; [rewrite (ms_pop _ _ _ _ _ _ _ _ _ _ _ _ _ _ Ms); exact E1|]. split; [|split; [exact P|]].
    + destruct (ms_comps _ _ _ _ _ _ _ _ _ _ _ _ _ _ Ms) as (m' & -> & Em). cbn [c_crossover c_mutation set_mutation]. eapply belongs_sort; [|exact E2].
      destruct (c_mutation c1); cbn; try exact Em. destruct Em as (x & ->). exact Logic.I.
    + exists (rev cs ++ rev rc ++ calls). rewrite (ms_log _ _ _ _ _ _ _ _ _ _ _ _ _ _ Ms), E4, <- !app_assoc. split; auto.
      apply Forall_app. split; [apply Forall_rev; auto|]. apply Forall_app. split; [apply Forall_rev; auto|auto].
  - split; [|eauto]. intros r Hr. specialize (Pi r Hr). rewrite Eg in Pi. exact Pi.
Qed.

(** *** VEGA and FFGA in exact arithmetic *)
Local Existing Instance Qops.
Lemma multi_optimize_domain : forall fuel cf gray gens fk sel ngm F m s gd' cl s', Forall legal gens ->
  is_multi_kind fk = true -> objectives_ok sel -> steady (cf_objective cf) F -> sized (fun _ => True) F m ->
  ga_optimize fuel cf true (GenBinary gray (gens : list bgene) bparams0) fk sel OnePoint new_bin ngm s = Ok (gd', cl) s' ->
  exists calls, log s' = calls ++ log s /\ Forall (fun x => in_box gens (fst x) /\ in_grid gens (fst x)) calls.
Proof.
  intros fuel cf gray gens fk sel ngm F m s gd' cl s' Lg Mk Ho Sy Sz H. destruct (box_prepared gray gens Lg) as (bp & _ & Pg). unfold ga_optimize in H.
  bd H u s1 R1. destruct u. bd H p sx R2. apply lift_ok in R2. destruct R2 as [Sp ->].
  bd H fc sy R3. apply lift_ok in R3. destruct R3 as [Nf ->]. bd H mt sz R4. apply lift_ok in R4. destruct R4 as [Nm ->].
  bd H ng sw R5. apply lift_ok in R5. destruct R5 as [Nn ->]. bd H p' s2 R6. cbv zeta in H. bd H r s3 R7. destruct r as [c' gd1].
  bd H u1 s4 R8. apply ret_ok in H. destruct H as [E ->]. inversion E; subst gd1 cl. clear E. destruct fc as [f cl].
  cbn [fst snd] in *.
  assert (s4 = s3).
  { destruct (cf_is_print cf); [|apply ret_ok in R8; destruct R8; auto]. unfold print_best_solution in R8.
    destruct (best_solution gd') as [|i k|l [k|]]; try discriminate; [apply ret_ok in R8; destruct R8; auto|].
    clear - R8. induction l as [|x l IH]; cbn [miter] in R8; [apply ret_ok in R8; destruct R8; auto|]. destruct (phenotype x); [|discriminate].
    bd R8 u s1 R. apply ret_ok in R. destruct R as [_ ->]. auto. }
  subst s4. apply run_ends in R7. destruct R7 as (k & At).
  assert (A : fkind f = fk /\ obj_function f = cf_objective cf).
  { unfold new_fitness in Nf. destruct (cf_penalty cf); [inversion Nf; auto| |discriminate]. destruct (_ <=? 1); [inversion Nf; auto|].
    destruct (is_multi_kind fk); [|destruct (index_of "optimize" _)]; inversion Nf; auto. }
  destruct A as (A1 & A2). destruct (set_params_ok _ _ _ _ _ _ _ Sp R6) as (Pg' & _). assert (Eg : gspec_of p' = GenBinary gray (gens : list bgene) bp) by congruence.
  assert (L : log s2 = log s).
  { pose proof R1 as R1'. apply extends_do_seed in R1'. destruct R1' as ((_ & L1 & _ & _) & _).
    pose proof R6 as R6'. apply fill_ok in R6'. destruct R6' as (g' & _ & K). cbv zeta in K. destruct K as (_ & _ & (_ & L2 & _ & _) & _). congruence. }
  assert (St : multi_started (new_gadata true (cf_num_generations cf) (cf_children_percent cf) (resolved_stop cf) p') s2).
  { unfold multi_started. repeat eexists; eauto. }
  edestruct (C69_run (fun _ : @num Qops => True) Qorder counting_exact F m fuel) with (2 := St) (5 := At) as (_ & calls & El & Fc).
  - split; [cbn; rewrite A1; auto|]. split; [cbn; rewrite A2; auto|]. split; auto.
  - cbn [new_gadata population c_crossover c_mutation]. rewrite Eg. constructor; [discriminate|]. unfold new_bin in Nm.
    destruct (cf_mutation_lvl cf); repeat (destruct (_ || _) in Nm || destruct (out_of_01 _) in Nm); inversion Nm; exact Logic.I.
  - pose proof (fill_in (cf_num_individ cf) _ _ p s1 p' s2 (cf_num_generations cf) (cf_children_percent cf) (resolved_stop cf) eq_refl Sp R6) as X.
    cbn [new_gadata population]. apply X. intros x geno _ E. rewrite Eg in *. eapply box_inputs; eauto.
  - exists calls. split; [rewrite <- L; auto|]. eapply Forall_impl; [|exact Fc]. intros x Hx. cbn [new_gadata population] in Hx. rewrite Eg in Hx. eapply box_points; [exact Lg|exact Pg|exact Hx].
Qed.
(** A deterministic objective with n values: its answers to calls without input data. *)
Definition deterministic (cf : config) (F : list gv -> list Q) (n : nat) : Prop :=
  (forall pt, length (F pt) = n) /\ forall k pt v, answers (cf_objective cf) None k pt (inr (OTuple v)) -> v = F pt.
Lemma deterministic_steady : forall cf F n, deterministic cf F n -> steady (cf_objective cf) (F : list gv -> list (@num Qops)) /\ @sized Qops (fun _ => True) F n.
Proof.
  intros cf F n [L D]. split.
  - intros k pt v H. apply one_arg_answers in H. eapply D; eauto.
  - intros pt. split; [apply L|]. apply Forall_forall. auto.
Qed.
(** C69, FFGA: every call is on a grid point of the declared box. *)
Theorem C69_ffga : forall fuel cf gray gens F n s gd' cl s', Forall legal gens -> deterministic cf F n ->
  ffga fuel cf gray (gens : list bgene) s = Ok (gd', cl) s' ->
  exists calls, log s' = calls ++ log s /\ Forall (fun x => in_box gens (fst x) /\ in_grid gens (fst x)) calls.
Proof.
  intros fuel cf gray gens F n s gd' cl s' Lg D H. destruct (deterministic_steady _ _ _ D) as [Sy Sz]. unfold ffga in H.
  eapply multi_optimize_domain; [exact Lg| | |exact Sy|exact Sz|exact H]; [reflexivity|exact I].
Qed.
(** C69, VEGA: so is every call but the first one, on a list of zeros, made when there
    are no conditions. *)
Theorem C69_vega : forall fuel cf gray gens F n s gd' cl s', Forall legal gens -> deterministic cf F n ->
  vega fuel cf gray (gens : list bgene) s = Ok (gd', cl) s' ->
  exists calls first, log s' = calls ++ first ++ log s /\ Forall (fun x => in_box gens (fst x) /\ in_grid gens (fst x)) calls /\
    match cf_conditions cf with
    | Some _ => first = []
    | None => first = [(map (fun _ => GInt 0) gens, OTuple (F (map (fun _ => GInt 0) gens) : list num))]
    end.
Proof.
  intros fuel cf gray gens F n s gd' cl s' Lg D H. destruct (deterministic_steady _ _ _ D) as [Sy Sz]. unfold vega in H. bd H m s1 R.
  eapply multi_optimize_domain in H; [|exact Lg| | |exact Sy|exact Sz]; [|reflexivity|exact I]. destruct H as (calls & El & Fc). exists calls.
  destruct (cf_conditions cf).
  - apply ret_ok in R. destruct R as [_ ->]. exists []. auto.
  - bd R v s2 R2. apply ret_ok in R. destruct R as [_ ->]. unfold call_list in R2. bd R2 w s3 R3. destruct w as [x|l]; [discriminate|]. apply ret_ok in R2. destruct R2 as [-> ->].
    exists [(map (fun _ : qgene => @GInt Qops 0) gens, OTuple l)]. assert (K : log s3 = (map (fun _ : qgene => @GInt Qops 0) gens, OTuple l) :: log s /\ l = F (map (fun _ : qgene => @GInt Qops 0) gens)).
    { unfold call1 in R3. destruct (cf_objective cf) as [f|f|f f']; try discriminate; unfold call_logged in R3; destruct (f _ _) as [|v'] eqn:E; try discriminate; inversion R3; subst;
        (split; [reflexivity|]); apply (Sy (length (log s))); exact E. }
    destruct K as [K1 K2]. rewrite El, K1. split; auto. split; auto. rewrite <- K2. reflexivity.
Qed.

(** *** Examples *)
(** A box without zero, [2, 9] by 1 in both directions. *)
Definition off_zero : list qgene := [(2%Q, 9%Q, 1%Q); (2%Q, 9%Q, 1%Q)].
Lemma off_zero_legal : Forall legal off_zero.
Proof. repeat constructor; vm_compute; congruence. Qed.
Lemma pareto_deterministic : forall F n num tg p cl tr, (forall pt, length (F pt) = n) -> deterministic (pareto_cf F num tg p cl tr) F n.
Proof. intros F n num tg p cl tr L. split; auto. intros k pt v A. inversion A; subst; reflexivity. Qed.
(** The hypotheses hold, whatever the random draws: VEGA's first call, and only that one,
    is outside this box. *)
Example C69_vega_zero : forall fuel gray s gd' cl s',
  vega fuel (pareto_cf pair_values 6 TNone PNone None "best") gray (off_zero : list bgene) s = Ok (gd', cl) s' ->
  exists calls, log s' = calls ++ [([GInt 0; GInt 0], OTuple ([0%Q; 1%Q] : list num))] ++ log s /\
    Forall (fun x => in_box off_zero (fst x)) calls /\ ~ exists xs, vector [GInt 0; GInt 0] xs /\ Forall2 in_bounds off_zero xs.
Proof.
  intros fuel gray s gd' cl s' H.
  destruct (C69_vega _ _ _ _ _ _ _ _ _ _ off_zero_legal (pareto_deterministic pair_values 2 _ _ _ _ _ (fun _ => eq_refl)) H) as (calls & first & El & Fc & Ef).
  cbn [cf_conditions pareto_cf] in Ef. subst first. exists calls. split; [exact El|]. split; [eapply Forall_impl; [|exact Fc]; intros x [A _]; exact A|].
  intros (xs & V & F). inversion V as [|? x ? ? [E|(z & E & ->)]]; subst; [discriminate|]. inversion E; subst z.
  inversion F as [|? ? ? ? B]; subst. unfold in_bounds in B. cbn in B. unfold inject_Z in B. lra.
Qed.
Example C69_ffga_box : forall fuel gray s gd' cl s',
  ffga fuel (pareto_cf quad_values 8 TNone dyn (Some signs4) "best") gray (off_zero : list bgene) s = Ok (gd', cl) s' ->
  exists calls, log s' = calls ++ log s /\ Forall (fun x => in_box off_zero (fst x) /\ in_grid off_zero (fst x)) calls.
Proof. intros fuel gray s gd' cl s' H. exact (C69_ffga _ _ _ _ _ _ _ _ _ _ off_zero_legal (pareto_deterministic quad_values 4 _ _ _ _ _ (fun _ => eq_refl)) H). Qed.
(** Such runs: the number of calls, how many of them leave the box, and the first one. *)
Definition outside (pt : list gv) : bool := negb (forallb (fun g => Qle_bool 2 (number_of g) && Qle_bool (number_of g) 9) pt).
Definition calls_view (o : outcome (gadata * option (list string))) :=
  observe (fun _ s => (length (log s), length (filter (fun x => outside (fst x)) (log s)), fst (last (log s) ([], OTuple [])))) o.
Example C69_cases :
  calls_view (vega 50 (pareto_cf pair_values 6 TNone PNone None "best") true (off_zero : list bgene) wide_world) = Some (169%nat, 1%nat, [GInt 0; GInt 0]) /\
  calls_view (vega 50 (pareto_cf quad_values 8 (TL [(0%Q : num); 0%Q]) dyn (Some signs4) "random") true (off_zero : list bgene) wide_world) =
    Some (292%nat, 0%nat, [GNum (35 # 7)%Q; GNum (35 # 7)%Q]) /\
  calls_view (ffga 50 (pareto_cf quad_values 4 TNone dyn (Some signs4) "best") true (off_zero : list bgene) wide_world) =
    Some (68%nat, 0%nat, [GNum (35 # 7)%Q; GNum (35 # 7)%Q]).
Proof. repeat split; run. Qed.
Print Assumptions C69_run.
Print Assumptions C69_vega.
Print Assumptions C69_ffga.
