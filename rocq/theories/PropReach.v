(** Property C66: from every generation, whatever the population has become, the draws
    of the next one can lead to any point of the search space. *)
From Coq Require Import String.
From Coq Require Import ZArith QArith List Bool Lia Lqa Permutation.
From Verif Require Import Spec Num State Binary Population GaData Crossover Mutation Selection Penalty Fitness NewGeneration Driver
  ListLemmas Rnd Exec Laws CodingProofs PropCoding PopulationProofs CrossoverProofs MutationProofs SelectionProofs VegaProofs
  NewGenProofs UpdateProofs FitnessProofs StepProofs RunProofs Runs PropCrossover PropRun PropBest PropFitness DomainProofs SafetyProofs
  PropSelection OptimizeProofs PropDomain PropConditional PropResume ReachProofs Demo.
Import ListNotations.
Open Scope string_scope.
Open Scope list_scope.
Open Scope Z_scope.

(** What optimize of a ready-made single-objective class hands to its main loop. *)
Definition launched {NO : NumOps} (cf : config) (g : gspec) (ck : crossover_kind) (mk : lvl -> exn + mutation) (s : st)
    (c : comps) (gd0 : gadata) (s0 : st) : Prop :=
  exists p s1 p' f cl m ng,
    set_params (cf_num_individ cf) g (cf_input_population cf) = inr p /\ do_seed s = Ok tt s1 /\ fill p s1 = Ok p' s0 /\
    new_fitness Hyperbola (cf_objective cf) (cf_obj_value cf) (cf_input_data cf) (cf_penalty cf) (cf_conditions cf) = inr (f, cl) /\
    mk (cf_mutation_lvl cf) = inr m /\ new_newgen false (cf_transfer cf) = inr ng /\
    c = mkComps f (SelTournament (cf_tournament_size cf)) ck m ng /\
    gd0 = new_gadata false (cf_num_generations cf) (cf_children_percent cf) (resolved_stop cf) p'.
(** It is indeed what optimize runs. *)
Lemma launched_run : forall {NO : NumOps} fuel cf g ck mk s gd' cl s',
  ga_optimize fuel cf false g Hyperbola (SelTournament (cf_tournament_size cf)) ck mk false s = Ok (gd', cl) s' ->
  exists c gd0 s0 k c', launched cf g ck mk s c gd0 s0 /\ at_generation fuel c gd0 s0 k c' gd' s'.
Proof.
  intros NO fuel cf g ck mk s gd' cl s' H. apply optimize_run in H; [|repeat split; auto].
  destruct H as (p & s1 & p' & s2 & f & m & ng & c' & Sp & Ds & Fi & Nf & Nm & Nn & _ & _ & _ & _ & R). apply run_ends in R. destruct R as (k & A).
  eexists _, _, s2, k, c'. split; [|exact A]. exists p, s1, p', f, cl, m, ng. repeat split; auto.
Qed.

Local Existing Instance Qops.

Lemma launched_going : forall fuel cf g ck mk s c gd0 s0 g' m,
  launched cf g ck mk s c gd0 s0 ->
  valid_shape cf -> prepare g = inr g' ->
  Forall (fun x => exists geno, input_genotype g' x = inr geno /\ in_domain g' geno) (cf_input_population cf) ->
  mk (cf_mutation_lvl cf) = inr m -> belongs ck m g' -> mut_spec_ok m g' ->
  (forall x, in_domain g' x -> (min_len ck <= length x)%nat /\ mut_pre m g' x /\ Forall (gene_ok (ok := fun _ => True)) x) ->
  (forall x, in_domain g' x -> match g' with GenBinary gray gens bp => exists ph, decode_genotype gray gens bp x = inr ph | _ => True end) ->
  evaluates cf (domain_point g') ->
  gspec_of (population gd0) = g' /\ c_mutation c = m /\
  forall k c' gd' s', at_generation fuel c gd0 s0 k c' gd' s' ->
    going (fun _ => True) c' gd' s' /\ rnd_seed s' = rnd_seed s /\ gspec_of (population gd') = g' /\
    level_of (c_mutation c') g' = level_of m g' /\ (gene_by_gene m -> gene_by_gene (c_mutation c')).
Proof.
  intros fuel cf g ck mk s c gd0 s0 g' m (p & s1 & p' & f & cl & m0 & ng & Sp & Ds & Fi & Nf & Nm & Nn & -> & ->) V Pg Hin Hm Bel Ms Hx Hd (f' & cl' & Nf' & Fk & Te).
  rewrite Nf in Nf'. inversion Nf'; subst f' cl'. clear Nf'. rewrite Hm in Nm. inversion Nm; subst m0. clear Nm. pose proof V as ((Ht1 & Ht2) & Hc & Htr & Hl).
  destruct (set_params_ok _ _ _ _ _ _ _ Sp Fi) as (Pg' & Np & _ & Lm). assert (g' = gspec_of p') by congruence. subst g'.
  set (gd0 := new_gadata false (cf_num_generations cf) (cf_children_percent cf) (resolved_stop cf) p').
  set (c := mkComps f (SelTournament (cf_tournament_size cf)) ck m ng).
  assert (St : started gd0 s0) by (exists (cf_num_individ cf), g, (cf_input_population cf), p, s1, p', (cf_num_generations cf), (cf_children_percent cf), (resolved_stop cf); auto).
  assert (Si : single c).
  { split; [|split]; auto; [|exact I]. cbn. unfold new_newgen in Nn. destruct (String.eqb _ _); [inversion Nn; reflexivity|]. destruct (String.eqb _ _); inversion Nn; reflexivity. }
  assert (Rdy : ready (fun _ => True) c gd0).
  { constructor; auto.
    - exists (cf_tournament_size cf). split; auto. cbn. rewrite Np. lia.
    - exists (Qtrunc (cf_children_percent cf * inject_Z (cf_num_individ cf))). split; auto. cbn. rewrite Np. reflexivity. }
  assert (Pi : pop_in gd0 s0).
  { eapply fill_in; [reflexivity|exact Sp|exact Fi|]. intros x geno Ix E. rewrite Forall_forall in Hin. destruct (Hin x Ix) as (geno' & E' & D). congruence. }
  split; auto. split; auto. intros k c' gd' s' (gd1 & s2 & F & T).
  assert (G : going (fun _ => True) c gd1 s2).
  { eapply (first_going (fun _ => True) c gd0 s0); eauto.
    - apply Qorder.
    - apply good_scores_any. auto.
    - apply started_init. auto.
    - cbn. rewrite Np, Lm. lia.
    - unfold gd0. cbn. unfold resolved_stop. destruct (cf_early_stop cf); eauto. }
  destruct (first_ok (fun _ => True) _ _ _ _ _ Qorder (good_scores_any _ Fk) Fk (started_init _ _ St) F) as (cs & l0 & bst & md & w & Fi1 & _).
  pose proof (fi_pop _ _ _ _ _ _ _ _ _ _ Fi1) as Ep.
  assert (Eg : gspec_of (population gd1) = gspec_of p') by (rewrite Ep; reflexivity).
  destruct (generation_going _ fuel c gd1 s2 Qorder G k c' gd' s' T) as (A1 & A2 & A3 & A4 & A5). rewrite Eg in *. split; auto. split; [|auto].
  pose proof Ds as Ds'. apply extends_do_seed in Ds'. destruct Ds' as ((_ & _ & S1 & _) & _).
  pose proof Fi as Fi'. apply fill_ok in Fi'. destruct Fi' as (g'' & _ & K). cbv zeta in K. destruct K as (_ & _ & (_ & _ & S2 & _) & _). rewrite A2. destruct (fi_quiet _ _ _ _ _ _ _ _ _ _ Fi1) as (_ & _ & _ & Q4 & _). rewrite Q4, S2. exact S1.
Qed.

Lemma going_ent : forall ok c gd s e, going ok c gd s -> going ok c gd (set_ent e s).
Proof. intros ok c gd s e (G & R). split; auto. destruct G as [A1 A2 A3 A4 A5 A6]. constructor; auto. Qed.

(** One generation from a state as the loop leaves it. *)
Lemma reach_next : forall fuel c gd s e c2 gd2 s2 level geno,
  going (fun _ => True) c gd s -> rnd_seed s = None -> gene_by_gene (c_mutation c) ->
  level_of (c_mutation c) (gspec_of (population gd)) = inr level -> undecided level ->
  ga_step fuel c gd (set_ent e s) = Ok (c2, gd2) s2 -> in_domain (gspec_of (population gd)) geno ->
  exists e' c3 gd3 s3 calls pt v geno', ga_step fuel c gd (set_ent e' s) = Ok (c3, gd3) s3 /\ log s3 = calls ++ log s /\ In (pt, v) calls /\
    Forall2 same_gene geno geno' /\ in_domain (gspec_of (population gd)) geno' /\ spec_point (gspec_of (population gd)) geno' pt.
Proof.
  intros fuel c gd s e c2 gd2 s2 level geno G Hs Gm Lv Un H Dg. pose proof (going_ent _ _ _ _ e G) as Ge.
  pose proof H as H'. unfold ga_step in H'. bd H' gd1 s1 R1. clear H'.
  destruct (step_reach _ fuel c gd (set_ent e s) gd1 s1 level geno Qorder Ge Hs Gm Lv Un R1 Dg) as (ds & K).
  destruct (K (fun _ => 0)) as (c3 & gd3 & s3 & r & R3 & Ir & Nr & F). unfold second_draws in R3. change (set_ent ?a (set_ent e s)) with (set_ent a s) in R3.
  remember (fun k => match k with O => ent (set_ent e s) O | S O => papp ds (fun _ => 0) | S (S i) => ent (set_ent e s) (S i) end) as e' eqn:Ee. clear Ee.
  pose proof (going_ent _ _ _ _ e' G) as Gx.
  destruct (step_called _ _ _ _ _ _ _ _ r Qorder Gx R3 Ir Nr) as (calls & pt & v & El & Ic & Sp).
  pose proof (going_step _ _ _ _ _ _ _ _ Qorder Gx R3) as (_ & _ & _ & _ & Pi3 & _).
  destruct (generation_going _ fuel c gd (set_ent e' s) Qorder Gx 1 c3 gd3 s3) as (_ & _ & Eg & _).
  { eapply steps_S; [apply steps_0|exact R3]. }
  exists e', c3, gd3, s3, calls, pt, v, (genotype (heap s3 r)). repeat split; auto. rewrite <- Eg. auto.
Qed.

(** *** The levels for which a bit may stay as well as change *)
Definition between (x : Q) : Prop := (0 <= x /\ x < 999 # 1000)%Q.
Definition mixed_level (l : lvl) (bits : Z) : Prop :=
  match l with
  | LFloat x => between x
  | LStr s => s = "weak" \/ s = "normal" \/ (s = "strong" /\ 4 <= bits)
  | LOther => False
  end.
Lemma between_undecided : forall x : Q, between x -> undecided x.
Proof.
  intros x [H0 H1]. split; [exists 0|exists 999]; (split; [lia|]); unfold fires; cbn.
  - apply Qle_bool_iff. unfold inject_Z. change (@num Qops) with Q in *. lra.
  - apply not_true_is_false. intros C. apply Qle_bool_iff in C. unfold inject_Z in C. change (@num Qops) with Q in *. lra.
Qed.
Lemma mixed_between : forall l n, 2 <= n -> mixed_level l n -> exists x, update_level l n = inr x /\ between x.
Proof.
  intros l n Hn H.
  assert (D : forall a, (0 <= a)%Q -> (a < (999 # 1000) * inject_Z n)%Q -> exists x, py_div (a : @num Qops) (nofZ n) = inr x /\ between x).
  { intros a Ha Hl. unfold py_div. cbn. assert (Np : (0 < inject_Z n)%Q) by (unfold Qlt; cbn; lia).
    destruct (Qeq_bool (inject_Z n) (inject_Z 0)) eqn:E; [apply Qeq_bool_iff in E; rewrite E in Np; exfalso; revert Np; apply Qlt_irrefl|]. eexists. split; eauto. split.
    - apply Qle_shift_div_l; lra.
    - apply Qlt_shift_div_r; lra. }
  assert (B : (inject_Z 2 <= inject_Z n)%Q) by (rewrite <- Zle_Qle; lia).
  destruct l as [st|x|]; cbn in H; [|cbn; eauto|contradiction]. unfold inject_Z in B.
  destruct H as [-> |[-> |[-> H4]]]; cbn [update_level String.eqb Ascii.eqb Bool.eqb].
  - change (dec 3 10) with ((3 # 1) / (10 # 1))%Q. apply D; [vm_compute; discriminate|]. setoid_replace ((3 # 1) / (10 # 1))%Q with (3 # 10)%Q by reflexivity. unfold inject_Z. lra.
  - apply D; [vm_compute; discriminate|]. cbn. unfold inject_Z. lra.
  - assert (B4 : (inject_Z 4 <= inject_Z n)%Q) by (rewrite <- Zle_Qle; lia). unfold inject_Z in B4.
    apply D; [vm_compute; discriminate|]. cbn. unfold inject_Z. lra.
Qed.
Lemma bits_unique : forall gens ns ms, Forall2 bits_for gens ns -> Forall2 bits_for gens ms -> ns = ms.
Proof. intros gens ns ms H. revert ms. induction H; intros ms K; inversion K; subst; auto. f_equal; auto. eapply bits_for_unique; eauto. Qed.
Lemma same_bits : forall bs bs', Forall2 same_gene (map GBit bs : list (@gv Qops)) (map GBit bs') -> bs = bs'.
Proof.
  induction bs as [|b bs IH]; intros [|b' bs'] H; cbn in H; inversion H; subst; auto. f_equal; auto.
  match goal with K : same_gene _ _ |- _ => destruct K as [K|K]; [congruence|cbn in K; destruct b, b'; auto; discriminate] end.
Qed.

(** C66, BinaryGA. *)
Theorem C66_binary : forall fuel cf gray gens s c gd0 s0, valid_shape cf -> Forall legal gens ->
  (forall ns, Forall2 bits_for gens ns -> 2 <= zsum ns /\ mixed_level (cf_mutation_lvl cf) (zsum ns)) ->
  level_named (cf_mutation_lvl cf) \/ level_number (cf_mutation_lvl cf) ->
  Forall (fun x => exists xs, vector x xs /\ Forall2 in_bounds gens xs) (cf_input_population cf) ->
  task cf (in_box gens) -> rnd_seed s = None ->
  launched cf (GenBinary gray (gens : list bgene) bparams0) OnePoint new_bin s c gd0 s0 ->
  forall k c1 gd1 s1, at_generation fuel c gd0 s0 k c1 gd1 s1 ->
  forall e c2 gd2 s2, ga_step fuel c1 gd1 (set_ent e s1) = Ok (c2, gd2) s2 ->
  forall y, in_grid gens y ->
  exists e' c3 gd3 s3 calls v, ga_step fuel c1 gd1 (set_ent e' s1) = Ok (c3, gd3) s3 /\ log s3 = calls ++ log s1 /\ In (y, v) calls.
Proof.
  intros fuel cf gray gens s c gd0 s0 V Lg Hb Hl Hin Sc Hs La k c1 gd1 s1 A e c2 gd2 s2 R y Gy.
  destruct (box_prepared gray gens Lg) as (bp & Gp & Pg).
  destruct (C05_decode_in_bounds gray gens Lg) as (bp' & ns & Gp' & En & Fb & D & Su). rewrite Gp in Gp'. inversion Gp'; subst bp'. clear Gp'.
  destruct (@prepared_usable Qops gray gens bparams0 _ eq_refl Pg) as (bp' & Eb & Us & ps & Eps & Fps). assert (Eq : bp' = bp) by congruence. rewrite Eq in *. clear Eb Eq bp'.
  destruct (Hb ns Fb) as [Two Mx]. destruct (mixed_between _ _ Two Mx) as (level & Ul & Bt).
  assert (El : last (idx_bits bp) 0 = zsum ns) by (rewrite Eps, idx_bits_total, <- En, zsum_fold, Eps; reflexivity).
  assert (M : new_bin (cf_mutation_lvl cf) = inr (MutBin (cf_mutation_lvl cf))).
  { unfold new_bin. destruct (cf_mutation_lvl cf) as [st|x|]; destruct Hl as [Hl|Hl]; try contradiction.
    - destruct Hl as [-> |[-> | ->]]; cbn; eauto.
    - unfold out_of_01. cbn in Hl. destruct (_ || _) eqn:E; [|eauto]. exfalso. apply orb_true_iff in E. cbn in E. rewrite !Qltb_iff in E.
      unfold inject_Z in E. change (@num Qops) with Q in *. destruct E; lra. }
  destruct (launched_going fuel cf _ OnePoint new_bin s c gd0 s0 (@GenBinary Qops gray gens bp) (MutBin (cf_mutation_lvl cf)) La V Pg) as (Eg0 & Em0 & Go); auto.
  - eapply Forall_impl; [|exact Hin]. intros x (xs & Vx & Bx). destruct (C06_input_checked gray gens bp xs Lg Gp) as [Ok _]. destruct (Ok Bx) as (bs & Eb).
    exists (bits_to_geno bs). assert (E : input_genotype (@GenBinary Qops gray gens bp) x = inr (bits_to_geno bs)).
    { cbn [input_genotype]. rewrite (vector_num _ _ Vx). rewrite Eb. reflexivity. }
    split; auto. eapply box_inputs; eauto.
  - constructor; [discriminate|exact I].
  - cbn. destruct (cf_mutation_lvl cf) as [st|x|]; [|exact I|destruct Hl as [[]|[]]].
    rewrite El. apply not_true_is_false. intros C. apply Qeq_bool_eq in C. unfold Qeq in C. cbn in C. lia.
  - intros x (bs & -> & Lb). rewrite map_length. cbn [min_len]. rewrite En in Lb. split; [lia|]. split; [exact I|].
    apply Forall_forall. intros z Hz. apply in_map_iff in Hz. destruct Hz as (b & <- & _). exact I.
  - intros x (bs & -> & Lb). destruct (D bs) as (ys & Ey & _); [rewrite <- En; auto|]. rewrite (decode_bits _ _ _ _ _ Ey). eauto.
  - eapply evaluates_weaker; [|exact (task_evaluates _ _ V Sc)]. intros genes Dg. eapply box_points; eauto.
  - destruct (Go k c1 gd1 s1 A) as (G1 & Es1 & Eg1 & Lv1 & Gb1). rewrite Hs in Es1.
    destruct Gy as (ms & ys & -> & Fb' & F3). rewrite (bits_unique _ _ _ Fb' Fb) in F3. destruct (Su ys F3) as (bs & Lb & Db).
    assert (Dom : in_domain (@GenBinary Qops gray gens bp) (map GBit bs)) by (exists bs; split; auto; rewrite En; auto).
    destruct (reach_next fuel c1 gd1 s1 e c2 gd2 s2 level (map GBit bs) G1 Es1 (Gb1 I)) as (e' & c3 & gd3 & s3 & calls & pt & v & geno' & R3 & El3 & Ic & Fg & Dg' & Sp); auto.
    + rewrite Eg1, Lv1. cbn [level_of]. rewrite El. exact Ul.
    + apply between_undecided. exact Bt.
    + rewrite Eg1. exact Dom.
    + rewrite Eg1 in Dg', Sp. destruct Dg' as (bs' & -> & _). apply same_bits in Fg. subst bs'. cbn [spec_point] in Sp. rewrite (decode_bits _ _ _ _ _ Db) in Sp. inversion Sp; subst pt.
      exists e', c3, gd3, s3, calls, v. auto.
Qed.

(** C66, CategoricalGA; up to equality of the elements. *)
Theorem C66_categorical : forall fuel cf gens s c gd0 s0, valid_shape cf -> Forall good_pool gens ->
  match cf_mutation_lvl cf with LFloat x => between x | _ => False end ->
  Forall (from_pools gens) (cf_input_population cf) -> task cf (from_pools gens) -> rnd_seed s = None ->
  launched cf (GenCat gens) Uniform new_cat s c gd0 s0 ->
  forall k c1 gd1 s1, at_generation fuel c gd0 s0 k c1 gd1 s1 ->
  forall e c2 gd2 s2, ga_step fuel c1 gd1 (set_ent e s1) = Ok (c2, gd2) s2 ->
  forall y, from_pools gens y ->
  exists e' c3 gd3 s3 calls y' v, ga_step fuel c1 gd1 (set_ent e' s1) = Ok (c3, gd3) s3 /\ log s3 = calls ++ log s1 /\ In (y', v) calls /\ Forall2 same_gene y y'.
Proof.
  intros fuel cf gens s c gd0 s0 V Hg Hl Hin Sc Hs La k c1 gd1 s1 A e c2 gd2 s2 R y Gy.
  destruct (cf_mutation_lvl cf) as [|x|] eqn:Ex; try contradiction.
  assert (M : new_cat (cf_mutation_lvl cf) = inr (MutCat x)).
  { rewrite Ex. unfold new_cat. unfold out_of_01. destruct Hl as [H0 H1]. destruct (_ || _) eqn:E; [|eauto]. exfalso. apply orb_true_iff in E. cbn in E. rewrite !Qltb_iff in E.
    unfold inject_Z in E. change (@num Qops) with Q in *. destruct E; lra. }
  destruct (launched_going fuel cf _ Uniform new_cat s c gd0 s0 (GenCat gens) (MutCat x) La V) as (Eg0 & Em0 & Go); auto.
  - eapply Forall_impl; [|exact Hin]. intros z Hz. exists z. split; auto.
  - constructor. discriminate.
  - exact I.
  - intros z Dz. cbn [min_len mut_pre]. split; [lia|]. split.
    + cbn in Dz. clear - Hg Dz. induction Dz; inversion Hg; subst; constructor; auto. apply (good_pool_ok (fun _ => True) Qorder); auto. apply qpool_fine.
    + apply Forall_forall. intros; apply qgene_ok.
  - eapply evaluates_weaker; [|exact (task_evaluates _ _ V Sc)]. intros genes (geno & D & Sp). cbn in Sp. rewrite Sp. exact D.
  - destruct (Go k c1 gd1 s1 A) as (G1 & Es1 & Eg1 & Lv1 & Gb1). rewrite Hs in Es1.
    destruct (reach_next fuel c1 gd1 s1 e c2 gd2 s2 x y G1 Es1 (Gb1 I)) as (e' & c3 & gd3 & s3 & calls & pt & v & geno' & R3 & El3 & Ic & Fg & Dg' & Sp); auto.
    + rewrite Eg1, Lv1. reflexivity.
    + apply between_undecided. exact Hl.
    + rewrite Eg1. exact Gy.
    + rewrite Eg1 in Sp. cbn in Sp. subst pt. exists e', c3, gd3, s3, calls, geno', v. auto.
Qed.

(** *** The condition on the level *)
(** It says exactly that the draw from 0..999 may go either way. *)
Lemma undecided_between : forall x : Q, undecided x <-> between x.
Proof.
  intros x. split; [|apply between_undecided]. intros [(k & Hk & F) (j & Hj & F')]. unfold fires in F, F'. cbn in F, F'.
  apply Qle_bool_iff in F. assert (L : ~ (inject_Z j <= x * inject_Z 1000)%Q) by (intros C; apply Qle_bool_iff in C; congruence).
  assert (K0 : (inject_Z 0 <= inject_Z k)%Q) by (rewrite <- Zle_Qle; lia). assert (J9 : (inject_Z j <= inject_Z 999)%Q) by (rewrite <- Zle_Qle; lia).
  apply Qnot_le_lt in L. unfold inject_Z in *. split; lra.
Qed.
(** With at most three bits 'strong' is the level 3 / n >= 1: mutation then turns
    every bit string into its complement, whatever is drawn, and into nothing else. *)
Theorem C66_strong_refuted : forall n, 1 <= n <= 3 -> exists level, update_level (LStr "strong") n = inr level /\
  forall bs s c s', bin_mutation level (map GBit bs) s = Ok c s' -> c = map GBit (map negb bs).
Proof.
  intros n Hn. assert (En : n = 1 \/ n = 2 \/ n = 3) by lia.
  assert (X : exists level, update_level (LStr "strong") n = inr level /\ (1 <= level)%Q).
  { destruct En as [-> |[-> | ->]]; eexists; split; try reflexivity; vm_compute; discriminate. }
  destruct X as (level & Ul & Hl). exists level. split; auto. intros bs s c s' H. destruct (possible_sound _ _ _ _ _ (bin_possible level _) H) as [F _].
  clear - F Hl. revert c F. induction bs as [|b bs IH]; intros c F; cbn [map] in F; inversion F as [|? y ? c0 (k & Hk & Ey) F0]; subst; auto.
  cbn [map]. rewrite (IH _ F0). f_equal. replace (fires level k) with true; [destruct b; reflexivity|]. symmetry. apply Qle_bool_iff.
  assert (K9 : (inject_Z k <= inject_Z 999)%Q) by (rewrite <- Zle_Qle; lia). cbn. unfold inject_Z in *. change (@num Qops) with Q in *. lra.
Qed.

(** *** The hypotheses are met *)
Lemma launched_later : forall fuel lv inp g ck mk s c gd0 s0 k c' gd' s', launched (safe_cf lv inp) g ck mk s c gd0 s0 ->
  at_generation fuel c gd0 s0 k c' gd' s' -> idx_generation gd' = Z.of_nat k + 1.
Proof.
  intros fuel lv inp g ck mk s c gd0 s0 k c' gd' s' (p & s1 & p' & f & cl & m & ng & Sp & Ds & Fi & Nf & Nm & Nn & -> & ->) A.
  cbn in Nf. inversion Nf; subst f cl. cbn in Nn. inversion Nn; subst ng.
  eapply (gen_number (fun _ => True) Qorder); [..|exact A].
  - split; [reflexivity|]. split; [reflexivity|exact I].
  - apply good_scores_any. reflexivity.
  - eexists _, _, _, p, s1, p', _, _, _. split; [exact Sp|]. split; [exact Fi|reflexivity].
Qed.
Lemma later : forall fuel lv inp g ck mk s gd' cl s',
  ga_optimize fuel (safe_cf lv inp) false g Hyperbola (SelTournament 2) ck mk false s = Ok (gd', cl) s' -> idx_generation gd' = 4 ->
  exists c gd0 s0 c1 gd1 s1 c2, launched (safe_cf lv inp) g ck mk s c gd0 s0 /\ at_generation fuel c gd0 s0 2 c1 gd1 s1 /\
    ga_step fuel c1 gd1 (set_ent (ent s1) s1) = Ok (c2, gd') s'.
Proof.
  intros fuel lv inp g ck mk s gd' cl s' H E. apply (launched_run fuel (safe_cf lv inp)) in H. destruct H as (c & gd0 & s0 & k & c' & La & A).
  pose proof (launched_later _ _ _ _ _ _ _ _ _ _ _ _ _ _ La A) as Ek. assert (k = 3%nat) by lia. subst k.
  destruct A as (gda & sa & F & T). inversion T as [|k c1 gd1 s1 c2 gd2 s2 T1 R]; subst. exists c, gd0, s0, c1, gd1, s1, c'. split; auto. split; [exists gda, sa; auto|].
  rewrite set_ent_same. exact R.
Qed.

(** A binary run whose last generation is the fourth: the theorem applies to the
    third, and every one of the 2^4 * 2^3 points may be what it evaluates next. *)
Lemma reach_cf : forall lv inp, Z.of_nat (length inp) <= 5 -> valid_common (safe_cf lv inp).
Proof. intros lv inp Hi. split; [split; [cbn; lia|]; split; [vm_compute; discriminate|]; split; [left; reflexivity|]; cbn; lia|]. split; [reflexivity|exact I]. Qed.
Example C66_run : observe (fun r s => (idx_generation (fst r), length (log s)))
  (binary_ga 50 (safe_cf (LStr "strong") [[GInt 1; GNum (1#2)]]) true (box : list bgene) fresh_world) = Some (4, 14%nat).
Proof. run. Qed.
Lemma box_bits : forall ns, Forall2 bits_for box ns -> zsum ns = 7.
Proof.
  intros ns H. assert (K : Forall2 bits_for box [4; 3]).
  { constructor; [|constructor; [|constructor]]; (split; [lia|]; split; [vm_compute; discriminate|]; intros j Hj; assert (D : j = 0 \/ j = 1 \/ j = 2 \/ j = 3) by lia;
    destruct D as [-> |[-> |[-> | ->]]]; try lia; vm_compute; reflexivity). }
  rewrite (bits_unique _ _ _ H K). reflexivity.
Qed.
Lemma binary_at : forall s gd' cl s', rnd_seed s = None ->
  binary_ga 50 (safe_cf (LStr "strong") [[GInt 1; GNum (1#2)]]) true (box : list bgene) s = Ok (gd', cl) s' -> idx_generation gd' = 4 ->
  exists c gd0 s0 c1 gd1 s1, at_generation 50 c gd0 s0 2 c1 gd1 s1 /\ forall y, in_grid box y ->
    exists e' c3 gd3 s3 calls v, ga_step 50 c1 gd1 (set_ent e' s1) = Ok (c3, gd3) s3 /\ log s3 = calls ++ log s1 /\ In (y, v) calls.
Proof.
  intros s gd' cl s' Hs E V. destruct (later _ _ _ _ _ _ _ _ _ _ E V) as (c & gd0 & s0 & c1 & gd1 & s1 & c2 & La & A & R).
  exists c, gd0, s0, c1, gd1, s1. split; auto. refine (C66_binary 50 _ true box s c gd0 s0 _ _ _ _ _ _ Hs La 2 c1 gd1 s1 A _ _ _ _ R).
  - apply reach_cf. cbn. lia.
  - repeat constructor; vm_compute; congruence.
  - intros ns H. rewrite (box_bits _ H). split; [lia|]. right. right. split; [reflexivity|lia].
  - left. right. right. reflexivity.
  - repeat constructor. exists [1; 1#2]%Q. split.
    + constructor; [right; exists 1; auto|]. constructor; [left; auto|constructor].
    + repeat constructor; vm_compute; congruence.
  - left. split; [reflexivity|]. split; [exact I|apply sq_scalar].
Qed.
Example C66_binary_example : exists c gd0 s0 c1 gd1 s1, at_generation 50 c gd0 s0 2 c1 gd1 s1 /\ forall y, in_grid box y ->
  exists e' c3 gd3 s3 calls v, ga_step 50 c1 gd1 (set_ent e' s1) = Ok (c3, gd3) s3 /\ log s3 = calls ++ log s1 /\ In (y, v) calls.
Proof.
  destruct (observe_some _ _ _ C66_run) as ([gd' cl] & s' & E & V). apply (f_equal fst) in V. exact (binary_at fresh_world gd' cl s' eq_refl E V).
Qed.
Definition mixed_pools : list cgen := [CRange 0 9 3; CList (ints [4; 4; 5]); CList [GStr "a"]].
Example C66_cat_run : observe (fun r s => (idx_generation (fst r), length (log s)))
  (categorical_ga 50 (safe_cf (LFloat (1#2)%Q) []) mixed_pools fresh_world) = Some (4, 14%nat).
Proof. run. Qed.
Lemma categorical_at : forall s gd' cl s', rnd_seed s = None ->
  categorical_ga 50 (safe_cf (LFloat (1#2)%Q) []) mixed_pools s = Ok (gd', cl) s' -> idx_generation gd' = 4 ->
  exists c gd0 s0 c1 gd1 s1, at_generation 50 c gd0 s0 2 c1 gd1 s1 /\ forall y, from_pools mixed_pools y ->
    exists e' c3 gd3 s3 calls y' v, ga_step 50 c1 gd1 (set_ent e' s1) = Ok (c3, gd3) s3 /\ log s3 = calls ++ log s1 /\ In (y', v) calls /\ Forall2 same_gene y y'.
Proof.
  intros s gd' cl s' Hs E V. destruct (later _ _ _ _ _ _ _ _ _ _ E V) as (c & gd0 & s0 & c1 & gd1 & s1 & c2 & La & A & R).
  exists c, gd0, s0, c1, gd1, s1. split; auto. refine (C66_categorical 50 _ mixed_pools s c gd0 s0 _ _ _ _ _ Hs La 2 c1 gd1 s1 A _ _ _ _ R).
  - apply reach_cf. cbn. lia.
  - constructor; [cbn; lia|]. constructor; [right; exists (GInt 4), (GInt 5); repeat split; cbn; auto|]. constructor; [left; eauto|constructor].
  - split; vm_compute; congruence.
  - constructor.
  - left. split; [reflexivity|]. split; [exact I|apply sq_scalar].
Qed.
Example C66_categorical_example : exists c gd0 s0 c1 gd1 s1, at_generation 50 c gd0 s0 2 c1 gd1 s1 /\ forall y, from_pools mixed_pools y ->
  exists e' c3 gd3 s3 calls y' v, ga_step 50 c1 gd1 (set_ent e' s1) = Ok (c3, gd3) s3 /\ log s3 = calls ++ log s1 /\ In (y', v) calls /\ Forall2 same_gene y y'.
Proof.
  destruct (observe_some _ _ _ C66_cat_run) as ([gd' cl] & s' & E & V). apply (f_equal fst) in V. exact (categorical_at fresh_world gd' cl s' eq_refl E V).
Qed.
Print Assumptions C66_binary.
Print Assumptions C66_categorical.
Print Assumptions C66_strong_refuted.
