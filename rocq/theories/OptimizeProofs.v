(** The whole of optimize for the single-objective classes, in any arithmetic: the
    points it evaluates (C44) and the absence of exceptions (C45). *)
From Coq Require Import String.
From Coq Require Import ZArith QArith List Bool Lia Permutation.
From Verif Require Import Spec Num State Binary Population GaData Crossover Mutation Selection Penalty Fitness NewGeneration Driver
  ListLemmas Rnd Exec Laws CodingProofs PopulationProofs CrossoverProofs MutationProofs SelectionProofs VegaProofs
  NewGenProofs UpdateProofs FitnessProofs StepProofs RunProofs Runs DomainProofs SafetyProofs PropRun.
Import ListNotations.
Open Scope string_scope.
Open Scope list_scope.
Open Scope Z_scope.

Section Optimize.
Context {NO : NumOps}.
Lemma set_params_ok : forall n g inp p s p' s', set_params n g inp = inr p -> fill p s = Ok p' s' ->
  prepare g = inr (gspec_of p') /\ num_individ p' = n /\ Z.of_nat (length inp) <= Z.max 0 n /\ Z.of_nat (length (members p')) = Z.max 0 n.
Proof.
  intros n g inp p s p' s' Sp Fi. apply set_params_inv in Sp. destruct Sp as [E ->].
  pose proof Fi as Fi'. apply fill_ok in Fi. destruct Fi as (g' & Pg & K). cbv zeta in K. destruct K as (-> & _). cbn in *. split; auto. split; auto. split; auto.
  rewrite seq_length. lia.
Qed.
Lemma optimize_domain_any : forall ok fuel cf g t ck mk s gd' cl s' g',
  NumOrder NO ok -> neqb (nofZ 0) nzero = true ->
  (forall f cl, new_fitness Hyperbola (cf_objective cf) (cf_obj_value cf) (cf_input_data cf) (cf_penalty cf) (cf_conditions cf) = inr (f, cl) -> good_scores ok f) ->
  ga_optimize fuel cf false g Hyperbola (SelTournament t) ck mk false s = Ok (gd', cl) s' ->
  prepare g = inr g' ->
  (forall l m, mk l = inr m -> belongs ck m g') ->
  (forall x geno, In x (cf_input_population cf) -> input_genotype g' x = inr geno -> in_domain g' geno) ->
  exists calls, log s' = calls ++ log s /\ Forall (fun x => domain_point g' (fst x)) calls.
Proof.
  intros ok fuel cf g t ck mk s gd' cl s' g' NL Z0 Gs H Pg Hb Hin. apply optimize_run in H; [|repeat split; auto].
  destruct H as (p & s1 & p' & s2 & f & m & ng & c' & Sp & _ & Fi & Nf & Nm & _ & L & _ & Si & St & R). apply run_ends in R. destruct R as (k & A).
  destruct (set_params_ok _ _ _ _ _ _ _ Sp Fi) as (Pg' & _). assert (g' = gspec_of p') by congruence. subst g'.
  destruct (domain_kept _ NL fuel _ _ _ Si (Gs _ _ Nf) St) with (k := k) (c' := c') (gd' := gd') (s' := s')
    as (_ & _ & _ & _ & calls & El & F); auto.
  - cbn. eapply Hb; eauto.
  - eapply fill_in; [exact Z0|exact Sp|exact Fi|exact Hin].
  - exists calls. split; [rewrite <- L; auto|auto].
Qed.

(** The parameters common to the three classes. *)
Definition valid_any (cf : config) : Prop :=
  2 <= cf_tournament_size cf < cf_num_individ cf /\
  (exists x, ntrunc (nmul (cf_children_percent cf) (nofZ (cf_num_individ cf))) = Some x /\ 1 <= x) /\
  (cf_transfer cf = "best" \/ cf_transfer cf = "random") /\
  Z.of_nat (length (cf_input_population cf)) <= cf_num_individ cf.
(** The fitness object can be made and evaluates every point of the space. *)
Definition evaluates (cf : config) (space : list gv -> Prop) : Prop :=
  exists f cl, new_fitness Hyperbola (cf_objective cf) (cf_obj_value cf) (cf_input_data cf) (cf_penalty cf) (cf_conditions cf) = inr (f, cl) /\
    fkind f = Hyperbola /\
    forall k pt gen best i, space pt -> sane_best gen best -> exists v j, called f k pt = inr v /\ assess f gen best v i = inr j.
(** The whole of optimize, once the pieces are in order. *)
Lemma optimize_safe_any : forall ok fuel cf g t ck mk s g' m,
  NumOrder NO ok -> neqb (nofZ 0) nzero = true -> valid_any cf -> t = cf_tournament_size cf -> prepare g = inr g' -> spec_usable g' ->
  (forall gray gens bp, g' = GenBinary gray gens bp -> exists ps, bp = params_of ps /\ Forall2 (fun g p => gene_params g = inr p) gens ps) ->
  Forall (fun x => exists geno, input_genotype g' x = inr geno /\ in_domain g' geno) (cf_input_population cf) ->
  mk (cf_mutation_lvl cf) = inr m -> belongs ck m g' -> mut_spec_ok m g' ->
  (forall x, in_domain g' x -> (min_len ck <= length x)%nat /\ mut_pre m g' x /\ Forall (gene_ok (ok := ok)) x) ->
  (forall x, in_domain g' x -> match g' with GenBinary gray gens bp => exists ph, decode_genotype gray gens bp x = inr ph | _ => True end) ->
  evaluates cf (domain_point g') ->
  (forall f cl, new_fitness Hyperbola (cf_objective cf) (cf_obj_value cf) (cf_input_data cf) (cf_penalty cf) (cf_conditions cf) = inr (f, cl) -> good_scores ok f) ->
  safe (ga_optimize fuel cf false g Hyperbola (SelTournament t) ck mk false) s.
Proof.
  intros ok fuel cf g t ck mk s g' m NL Z0 V -> Pg Us Hps Hin Hm Bel Ms Hx Hd (f & cl & N & Fk & Te) Gs. pose proof V as ((Ht1 & Ht2) & (pc & Hx0 & Hc) & Htr & Hl).
  assert (Sp : set_params (cf_num_individ cf) g (cf_input_population cf) = inr (mkPop [] false (cf_num_individ cf) g (cf_input_population cf))).
  { apply set_params_fits. lia. }
  assert (Ng : exists ng, new_newgen false (cf_transfer cf) = inr ng /\ ng_multi ng = false) by (destruct Htr as [-> | ->]; cbn; eauto).
  destruct Ng as (ng & Ng & Ngm).
  unfold ga_optimize. apply safe_bind; [apply safe_do_seed|]. intros u s1 R1. rewrite Sp, N, Hm, Ng.
  apply safe_bind; [eapply safe_lift; reflexivity|]. intros p sa Ra. apply lift_ok in Ra. destruct Ra as [Ep ->]. inversion Ep; subst p. clear Ep.
  apply safe_bind; [eapply safe_lift; reflexivity|]. intros fc sb Rb. apply lift_ok in Rb. destruct Rb as [Ep ->]. inversion Ep; subst fc. clear Ep.
  apply safe_bind; [eapply safe_lift; reflexivity|]. intros m0 sc Rc. apply lift_ok in Rc. destruct Rc as [Ep ->]. inversion Ep; subst m0. clear Ep.
  apply safe_bind; [eapply safe_lift; reflexivity|]. intros ng0 sd Rd. apply lift_ok in Rd. destruct Rd as [Ep ->]. inversion Ep; subst ng0. clear Ep.
  apply safe_bind.
  { eapply fill_safe; [exact Pg|exact Us|exact Hps|]. cbn [input_population]. eapply Forall_impl; [|exact Hin]. intros x (geno & A & B). eauto. }
  intros p' s2 R2. cbv zeta. cbn [fst snd].
  destruct (set_params_ok _ _ _ _ _ _ _ Sp R2) as (Pg' & Np & _ & Lm). assert (g' = gspec_of p') by congruence. subst g'.
  set (gd0 := new_gadata false (cf_num_generations cf) (cf_children_percent cf) (resolved_stop cf) p').
  set (c := mkComps f (SelTournament (cf_tournament_size cf)) ck m ng).
  assert (St : started gd0 s2) by (exists (cf_num_individ cf), g, (cf_input_population cf), (mkPop [] false (cf_num_individ cf) g (cf_input_population cf)), s1, p', (cf_num_generations cf), (cf_children_percent cf), (resolved_stop cf); auto).
  assert (Si : single c) by (split; [|split]; auto; exact I).
  assert (Rdy : ready ok c gd0).
  { constructor; auto.
    - exists (cf_tournament_size cf). split; auto. cbn. rewrite Np. lia.
    - exists pc. split; auto. cbn. rewrite Np. exact Hx0. }
  assert (Pi : pop_in gd0 s2).
  { eapply fill_in; [exact Z0|exact Sp|exact R2|]. intros x geno Ix E. rewrite Forall_forall in Hin. destruct (Hin x Ix) as (geno' & E' & D). congruence. }
  assert (Rs : safe (run_loop fuel c gd0) s2).
  { apply (run_safe ok); auto.
    - eapply Gs; eauto.
    - apply started_init. auto.
    - cbn. rewrite Np, Lm. lia.
    - unfold gd0. cbn. unfold resolved_stop. destruct (cf_early_stop cf); eauto. }
  apply safe_bind; [exact Rs|]. intros [c' gd'] s3 R3. cbn [fst snd].
  apply safe_bind; [|intros; apply safe_ret]. destruct (cf_is_print cf); [|apply safe_ret].
  apply run_ends in R3. destruct R3 as (k & A).
  assert (Bs : exists i n, best_solution gd' = BSingle i n).
  { refine (proj2 (proj2 (gen_inv ok NL fuel c gd0 s2 Si (Gs _ _ N) St (fun _ gd _ => exists i n, best_solution gd = BSingle i n) _ _ k c' gd' s3 A))).
    - intros gd s0 cs l0 bst md w F G. destruct (fi_best _ _ _ _ _ _ _ _ _ _ F) as [-> _]. eauto.
    - intros ca ga sa cb gb sb kids els h cs l0 bst md w _ G (i & n & Eb) St' G'.
      pose proof (st_best _ _ _ _ _ _ _ _ _ _ _ _ _ _ St') as B. unfold best_after in B. rewrite Eb in B. destruct (sv_lt _ _); inversion B; eauto. }
  destruct Bs as (i & n & Bs). unfold print_best_solution. rewrite Bs. apply safe_ret.
Qed.

(** The search spaces of CombinatoryGA and CategoricalGA. *)
Definition arrangement (a b k : Z) (x : list gv) : Prop := exists zs, x = map GInt zs /\ Z.of_nat (length zs) = k /\ NoDup zs /\
  Forall (fun z => a <= z <= b) zs.
Definition from_pools (gens : list cgen) (x : list gv) : Prop := Forall2 gene_in gens x.
(** A pool CategoricalGA can mutate: a single value, or at least two different ones;
    a range gives different values. *)
Definition good_pool (p : cgen) : Prop :=
  match p with
  | CList l => (exists x, l = [x]) \/ exists x y, In x l /\ In y l /\ gv_eqb x y = false
  | CRange a b stp => (0 < stp /\ a <= b) \/ (stp < 0 /\ b + 1 < a)
  | COther => False
  end.
Lemma good_pool_usable : forall p, good_pool p -> pool_usable p.
Proof.
  intros [a b stp|l|] H; cbn in *; auto. destruct H as [(x & ->)|(x & y & Hx & _)]; [discriminate|]. intros ->. destruct Hx.
Qed.
(** The values of the pool can be compared. *)
Definition pool_fine (ok : num -> Prop) (p : cgen) : Prop := match p with CList l => Forall (gene_ok (ok := ok)) l | _ => True end.
Lemma pool_gene_ok : forall ok p x, pool_fine ok p -> gene_in p x -> gene_ok (ok := ok) x.
Proof.
  intros ok [a b stp|l|] x H Hx; cbn [pool_fine gene_in] in *; [|rewrite Forall_forall in H; auto|contradiction].
  destruct Hx as (z & i & -> & _). exact I.
Qed.
Lemma good_pool_ok : forall ok, NumOrder NO ok -> forall p x, pool_fine ok p -> good_pool p -> gene_in p x -> pool_ok p x.
Proof.
  intros ok NL [a b stp|l|] x Pf H Hx; cbn [good_pool gene_in pool_fine] in *; [| |contradiction].
  - destruct Hx as (z & i & -> & Hi & Hz & Hb). split; [lia|]. cbn [pool_values].
    destruct (le_lt_dec (Z.to_nat (range_len a (b + 1) stp)) 1) as [L|L]; [left; unfold py_range; rewrite ?map_length, ?seq_length; auto|]. right.
    destruct (Z.eq_dec z a) as [->|Nz].
    + exists (GInt (a + 1 * stp)). split; [apply in_map; apply in_py_range; exists 1; split; [lia|auto]|]. cbn [gv_eqb]. apply Z.eqb_neq. lia.
    + exists (GInt (a + 0 * stp)). split; [apply in_map; apply in_py_range; exists 0; split; [lia|auto]|]. cbn [gv_eqb]. apply Z.eqb_neq. lia.
  - split; auto. cbn [pool_values]. destruct H as [(y & ->)|(y & z & Hy & Hz & E)]; [left; auto|]. right. rewrite Forall_forall in Pf.
    destruct (gv_eqb y x) eqn:Ey; [|eauto]. destruct (gv_eqb z x) eqn:Ez; [|eauto]. exfalso.
    apply (gv_eqb_sym NL) in Ez; auto. assert (C : gv_eqb y z = true) by (apply (gv_eqb_trans NL) with x; auto). congruence.
Qed.
End Optimize.
