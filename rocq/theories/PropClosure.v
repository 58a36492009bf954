(** Property C63: the elements of the tours are those of the initial population. *)
From Coq Require Import String.
From Coq Require Import ZArith QArith List Bool Lia Permutation.
From Verif Require Import Spec Num State Binary Population GaData Crossover Mutation Selection Penalty Fitness NewGeneration Driver
  ListLemmas Rnd Exec Laws PopulationProofs CrossoverProofs MutationProofs SelectionProofs VegaProofs
  NewGenProofs UpdateProofs FitnessProofs StepProofs RunProofs Runs PropCrossover PropRun PropBest PropFitness DomainProofs SafetyProofs OptimizeProofs PropDomain ClosureProofs Demo.
Import ListNotations.
Open Scope list_scope.
Open Scope Z_scope.

(** C63 for any arithmetic, any population class and any crossover: with one of the
    four combinatorial mutations, every gene of every individual of every generation
    is a gene of an individual of the initial population. *)
Theorem C63_run : forall {NO : NumOps} (ok : num -> Prop), NumOrder NO ok -> forall fuel c gd0 s0 kind level,
  single c -> good_scores ok (c_fitness c) -> started gd0 s0 -> c_mutation c = MutCombi kind level ->
  forall k c' gd' s', at_generation fuel c gd0 s0 k c' gd' s' ->
  forall r x, In r (members (population gd')) -> In x (genotype (heap s' r)) ->
    exists r0, In r0 (members (population gd0)) /\ In x (genotype (heap s0 r0)).
Proof.
  intros NO ok NL fuel c gd0 s0 kind level Si Go St Em k c' gd' s' A r x Hr Hx.
  set (pool := flat_map (fun r => genotype (heap s0 r)) (members (population gd0))).
  destruct (closed_kept ok NL fuel c gd0 s0 Si Go St (fun geno => incl geno pool)) with (k := k) (c' := c') (gd' := gd') (s' := s') as (_ & _ & _ & P & _); auto.
  - rewrite Em. apply genes_closed.
  - intros q Hq y Hy. apply in_flat_map. eauto.
  - apply (P r Hr), in_flat_map in Hx. exact Hx.
Qed.

Local Existing Instance Qops.
(** The call log is newest first: the calls for the initial population are at its end. *)
Definition first_points (n : nat) (calls : list (list gv * oval)) : list (list gv) := firstn n (rev (map fst calls)).

(** C63, CombinatoryGA: an element occurs in a tour the objective is called on only if
    it occurs in one of the first [num_individ] tours. *)
Theorem C63_combinatory : forall fuel cf a b k s gd' cl s',
  combinatory_ga fuel cf a b k s = Ok (gd', cl) s' ->
  exists calls, log s' = calls ++ log s /\
    forall tour x, In tour (map fst calls) -> In x tour ->
      exists tour0, In tour0 (first_points (Z.to_nat (cf_num_individ cf)) calls) /\ In x tour0.
Proof.
  intros fuel cf a b k s gd' cl s' H. unfold combinatory_ga in H. apply optimize_run in H; [|repeat split; auto].
  destruct H as (p & s1 & p' & s2 & f & m & ng & c' & Sp & _ & Fi & _ & Nm & _ & L & _ & Si & St & R). apply run_ends in R. destruct R as (n & A).
  destruct (set_params_ok _ _ _ _ _ _ _ Sp Fi) as (Pg & _ & _ & Ln). cbn [prepare] in Pg. inversion Pg as [Pg'].
  assert (Em : exists l, m = MutCombi Movement l) by (unfold new_combi in Nm; destruct (cf_mutation_lvl cf); repeat (destruct (String.eqb _ _) in Nm || destruct (out_of_01 _) in Nm); inversion Nm; eauto).
  destruct Em as (l & ->). set (gd0 := new_gadata _ _ _ _ _) in *. set (c := mkComps _ _ _ _ _) in *.
  set (pool := flat_map (fun r => genotype (heap s2 r)) (members (population gd0))).
  destruct (closed_kept _ Qorder fuel c gd0 s2 Si (good_scores_any _ (proj1 Si)) St (fun geno => incl geno pool)) with (k := n) (c' := c') (gd' := gd') (s' := s')
    as (_ & _ & _ & P & calls & cs & El & Fc & Fp); auto.
  - apply genes_closed.
  - intros q Hq y Hy. apply in_flat_map. eauto.
  - exists (calls ++ rev cs). rewrite El, <- L, app_assoc. split; auto.
    assert (Lc : length cs = Z.to_nat (cf_num_individ cf)).
    { apply Forall2_length in Fc. rewrite <- Fc. cbn [population gd0 new_gadata]. lia. }
    assert (Ef : first_points (Z.to_nat (cf_num_individ cf)) (calls ++ rev cs) = map fst cs).
    { unfold first_points. rewrite map_app, rev_app_distr, map_rev, rev_involutive, firstn_app, <- Lc, <- (map_length fst cs), firstn_all, Nat.sub_diag. cbn. apply app_nil_r. }
    rewrite Ef.
    assert (Fp0 : forall r x, In r (members (population gd0)) -> In x (genotype (heap s2 r)) -> exists t, In t (map fst cs) /\ In x t).
    { intros r x Hr Hx. destruct (F2_in_l _ _ _ _ Fc Hr) as (y & Hy & Sy). cbn [gd0 population new_gadata] in Sy. rewrite <- Pg' in Sy. cbn in Sy.
      exists (fst y). split; [apply in_map; auto|]. rewrite Sy. exact Hx. }
    intros tour x Ht Hx. rewrite map_app in Ht. apply in_app_or in Ht. destruct Ht as [Ht|Ht].
    + apply in_map_iff in Ht. destruct Ht as (y & <- & Hy). rewrite Forall_forall in Fp. destruct (Fp _ Hy) as (geno & Ig & Sg).
      cbn [gd0 population new_gadata] in Sg. rewrite <- Pg' in Sg. cbn in Sg. rewrite Sg in Hx. apply Ig, in_flat_map in Hx. destruct Hx as (r & Hr & Hx). eauto.
    + exists tour. split; auto. rewrite map_rev in Ht. apply in_rev in Ht. auto.
Qed.

(** So a range with more elements than the initial tours have places is never explored
    completely, however long the run. *)
Theorem C63_unexplored : forall fuel cf a b k s gd' cl s',
  Forall (arrangement a b k) (cf_input_population cf) ->
  0 <= k -> 0 <= cf_num_individ cf -> cf_num_individ cf * k < b - a + 1 ->
  combinatory_ga fuel cf a b k s = Ok (gd', cl) s' ->
  exists z calls, a <= z <= b /\ log s' = calls ++ log s /\ forall tour, In tour (map fst calls) -> ~ In (GInt z) tour.
Proof.
  intros fuel cf a b k s gd' cl s' Hin Hk Hn Hl H.
  destruct (C44_combinatory _ _ _ _ _ _ _ _ _ Hin H) as (calls & El & F). destruct (C63_combinatory _ _ _ _ _ _ _ _ _ H) as (calls' & El' & K).
  assert (calls' = calls) by (apply (app_inv_tail (log s)); congruence). subst calls'.
  set (firsts := first_points (Z.to_nat (cf_num_individ cf)) calls) in *.
  assert (Fl : Forall (fun t => Z.of_nat (length t) = k) firsts).
  { apply Forall_forall. intros t Ht. apply in_firstn_, in_rev in Ht. apply in_map_iff in Ht. destruct Ht as (x & <- & Hx). rewrite Forall_forall in F.
    destruct (F x Hx) as (zs & -> & Lz & _). rewrite map_length. auto. }
  assert (Lf : (length firsts <= Z.to_nat (cf_num_individ cf))%nat) by apply firstn_le_length.
  assert (Lc : Z.of_nat (length (concat firsts)) <= cf_num_individ cf * k).
  { assert (Z.of_nat (length (concat firsts)) = Z.of_nat (length firsts) * k).
    { clear - Fl. induction Fl as [|t l Et Fl IH]; cbn [concat length]; [lia|]. rewrite app_length. lia. }
    nia. }
  set (is_int := fun (z : Z) (g : @gv Qops) => match g with GInt w => z =? w | _ => false end) in *.
  destruct (existsb (fun z => negb (existsb (is_int z) (concat firsts))) (zrange a (b + 1))) eqn:E.
  - apply existsb_exists in E. destruct E as (z & Hz & Ez). apply in_zrange in Hz. exists z, calls. split; [lia|]. split; auto.
    intros tour Ht Hx. destruct (K _ _ Ht Hx) as (t0 & Ht0 & Hx0). apply negb_true_iff in Ez.
    assert (C : existsb (is_int z) (concat firsts) = true).
    { apply existsb_exists. exists (GInt z). split; [apply in_concat; eauto|]. cbn. apply Z.eqb_refl. }
    congruence.
  - exfalso. assert (I : incl (map GInt (zrange a (b + 1))) (concat firsts)).
    { intros y Hy. apply in_map_iff in Hy. destruct Hy as (z & <- & Hz). destruct (existsb (is_int z) (concat firsts)) eqn:Ez.
      - apply existsb_exists in Ez. destruct Ez as (w & Hw & Ew). destruct w; cbn in Ew; try discriminate. apply Z.eqb_eq in Ew. subst. exact Hw.
      - assert (C : existsb (fun z => negb (existsb (is_int z) (concat firsts))) (zrange a (b + 1)) = true); [|congruence].
        apply existsb_exists. exists z. split; auto. rewrite Ez. reflexivity. }
    apply NoDup_incl_length in I.
    + rewrite map_length, zrange_length in I. lia.
    + apply FinFun.Injective_map_NoDup; [intros u v Euv; inversion Euv; auto|]. apply zrange_nodup.
Qed.

(** A run of CombinatoryGA: 6 tours of 3 out of 21 elements; the last three calls are on
    tours that were not in the initial population, with elements that were. *)
Definition small_cf : config := demo_cf (LFloat (9#10)) 6 4 None.
Example C63_case : observe (fun _ s => (first_points 6 (log s), map fst (firstn 3 (log s)))) (combinatory_ga 50 small_cf 0 20 3 fresh_world) =
  Some ([ints [7; 10; 1]; ints [13; 4; 12]; ints [10; 14; 18]; ints [19; 16; 17]; ints [19; 13; 11]; ints [10; 4; 1]],
        [ints [10; 1; 4]; ints [4; 10; 7]; ints [4; 10; 1]]).
Proof. run. Qed.
Example C63_meets : Forall (arrangement 0 20 3) (cf_input_population small_cf) /\ cf_num_individ small_cf * 3 < 20 - 0 + 1.
Proof. split; [constructor|reflexivity]. Qed.
(** The categorical mutation does bring in new values: 2 is not among the first six
    points and appears later. *)
Example C63_other_mutation : observe (fun _ s => (existsb (existsb (gv_eqb (GInt 2))) (first_points 6 (log s)), existsb (existsb (gv_eqb (GInt 2))) (map fst (log s))))
  (categorical_ga 50 small_cf [CRange 0 6 1; CRange 0 6 1] fresh_world) = Some (false, true).
Proof. run. Qed.

Print Assumptions C63_run.
Print Assumptions C63_combinatory.
Print Assumptions C63_unexplored.
