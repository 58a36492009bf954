(** Properties C44 and C45: what the objective is called on, and runs that cannot
    raise. *)
From Coq Require Import String.
From Coq Require Import ZArith QArith List Bool Lia Lqa Permutation.
From Verif Require Import Spec Num State Binary Population GaData Crossover Mutation Selection Penalty Fitness NewGeneration Driver
  ListLemmas Rnd Exec Laws CodingProofs PropCoding PopulationProofs CrossoverProofs MutationProofs SelectionProofs VegaProofs
  NewGenProofs UpdateProofs FitnessProofs StepProofs RunProofs Runs PropCrossover PropRun PropBest PropFitness DomainProofs SafetyProofs OptimizeProofs Demo.
Import ListNotations.
Open Scope string_scope.
Open Scope list_scope.
Open Scope Z_scope.

(** *** C44 for any arithmetic and any composition of the single-objective classes *)
(** The population starts in the search space [g]; the crossover and the mutation
    belong to the population class.  Then, in every generation, all individuals are in
    the space and all calls of the objective so far were on points of it. *)
Theorem C44_run : forall {NO : NumOps} (ok : num -> Prop), NumOrder NO ok -> forall fuel c gd0 s0,
  single c -> good_scores ok (c_fitness c) -> started gd0 s0 ->
  let g := gspec_of (population gd0) in
  belongs (c_crossover c) (c_mutation c) g ->
  (forall r, In r (members (population gd0)) -> in_domain g (genotype (heap s0 r))) ->
  forall k c' gd' s', at_generation fuel c gd0 s0 k c' gd' s' ->
    (forall r, In r (members (population gd')) -> in_domain g (genotype (heap s' r))) /\
    exists calls, log s' = calls ++ log s0 /\
      Forall (fun x => exists geno, in_domain g geno /\ spec_point g geno (fst x)) calls.
Proof.
  intros NO ok NL fuel c gd0 s0 Si Go St g B I k c' gd' s' A.
  destruct (domain_kept ok NL fuel c gd0 s0 Si Go St B I k c' gd' s' A) as (Eg & _ & _ & Pi & calls & El & F).
  split; [|eauto]. intros r Hr. apply Pi in Hr. rewrite Eg in Hr. exact Hr.
Qed.

(** *** The ready-made classes in exact arithmetic *)
Local Existing Instance Qops.
(** The search spaces, as the user declares them. *)
Definition in_box (gens : list qgene) (x : list gv) : Prop := exists ys, x = map GNum ys /\ Forall2 in_bounds gens ys.
Definition in_grid (gens : list qgene) (x : list gv) : Prop := exists ns ys, x = map GNum ys /\ Forall2 bits_for gens ns /\
  Forall3 (fun g n y => exists i, 0 <= i <= 2 ^ n - 1 /\ y = grid g n i) gens ns ys.

Lemma optimize_domain : forall fuel cf g t ck mk s gd' cl s' g',
  ga_optimize fuel cf false g Hyperbola (SelTournament t) ck mk false s = Ok (gd', cl) s' ->
  prepare g = inr g' ->
  (forall l m, mk l = inr m -> belongs ck m g') ->
  (forall x geno, In x (cf_input_population cf) -> input_genotype g' x = inr geno -> in_domain g' geno) ->
  exists calls, log s' = calls ++ log s /\ Forall (fun x => domain_point g' (fst x)) calls.
Proof.
  intros fuel cf g t ck mk s gd' cl s' g' H. eapply (optimize_domain_any (fun _ => True)); [exact Qorder|reflexivity| |exact H].
  intros f c N. apply good_scores_any. unfold new_fitness in N. destruct (cf_penalty cf); [inversion N; auto| |discriminate N].
  destruct (_ <=? _); [inversion N; auto|]. cbn [is_multi_kind] in N. destruct (index_of _ _); inversion N; auto.
Qed.

Lemma bits_in_domain : forall gray gens bp bs, Z.of_nat (length bs) = zsum (num_bits bp) -> in_domain (GenBinary gray gens bp) (bits_to_geno bs).
Proof. intros gray gens bp bs H. exists bs. split; auto. Qed.
Lemma decode_bits : forall gray gens bp bs ys, binary_individ_to_float gray (gens : list (@bgene Qops)) bp bs = inr ys ->
  decode_genotype gray gens bp (map GBit bs) = inr (map GNum ys).
Proof. intros gray gens bp bs ys H. unfold decode_genotype. change (map GBit bs) with (bits_to_geno bs). rewrite geno_bits_id, H. reflexivity. Qed.
Lemma box_points : forall gray gens bp, Forall legal gens -> prepare (GenBinary gray (gens : list bgene) bparams0) = inr (GenBinary gray (gens : list bgene) bp) ->
  forall pt, domain_point (GenBinary gray (gens : list bgene) bp) pt -> in_box gens pt /\ in_grid gens pt.
Proof.
  intros gray gens bp Lg Pg pt (geno & (bs & -> & Lb) & Sp). destruct (C05_decode_in_bounds gray gens Lg) as (bp' & ns & Gp & En & Fb & D & _).
  cbn [prepare] in Pg. rewrite Gp in Pg. inversion Pg; subst bp'. destruct (D bs) as (ys & Ey & Gy & By); [rewrite <- En; auto|].
  cbn in Sp. rewrite (decode_bits _ _ _ _ _ Ey) in Sp. inversion Sp; subst pt. split; [exists ys; auto|exists ns, ys; auto].
Qed.
Lemma box_inputs : forall gray gens bp, Forall legal gens -> prepare (GenBinary gray (gens : list bgene) bparams0) = inr (GenBinary gray (gens : list bgene) bp) ->
  forall x geno, input_genotype (GenBinary gray (gens : list bgene) bp) x = inr geno -> in_domain (GenBinary gray (gens : list bgene) bp) geno.
Proof.
  intros gray gens bp Lg Pg x geno H. cbn [input_genotype] in H. destruct (gvs_num x) as [|xs].
  { destruct (negb _); [discriminate|]. destruct (encode_loop _ _ _ _); discriminate. }
  destruct (@float_individ_to_binary Qops gray gens bp xs) as [|bs] eqn:E; [discriminate|]. inversion H; subst geno.
  assert (Gp : get_gens_params (gens : list bgene) = inr bp) by (cbn [prepare] in Pg; destruct (@get_gens_params Qops gens); inversion Pg; auto).
  destruct (C06_input_checked gray gens bp xs Lg Gp) as [_ N].
  assert (B : ~ ~ Forall2 in_bounds gens xs) by (intros C; destruct (N C) as (tag & C'); congruence).
  apply bits_in_domain.
  destruct (Z.eq_dec (Z.of_nat (length bs)) (zsum (num_bits bp))) as [|C]; auto. destruct B. intros B. apply C.
  destruct (C04_round_trip gray gens xs Lg B) as (bp' & ns & bs' & ys & Gp' & <- & _ & E' & Lb & _). rewrite Gp in Gp'. inversion Gp'; subst bp'.
  rewrite E in E'. inversion E'; subst. auto.
Qed.
Lemma box_prepared : forall gray gens, Forall legal gens -> exists bp, get_gens_params (gens : list bgene) = inr bp /\
  prepare (GenBinary gray (gens : list bgene) bparams0) = inr (GenBinary gray (gens : list bgene) bp).
Proof. intros gray gens Lg. destruct (C05_decode_in_bounds gray gens Lg) as (bp & _ & Gp & _). exists bp. cbn. rewrite Gp. auto. Qed.

(** C44, BinaryGA: every call is on a grid point of the declared box.  Nothing is
    assumed of the input individuals: those outside the box are rejected (C06). *)
Theorem C44_binary : forall fuel cf gray gens s gd' cl s', Forall legal gens ->
  binary_ga fuel cf gray (gens : list bgene) s = Ok (gd', cl) s' ->
  exists calls, log s' = calls ++ log s /\ Forall (fun x => in_box gens (fst x) /\ in_grid gens (fst x)) calls.
Proof.
  intros fuel cf gray gens s gd' cl s' Lg H. destruct (box_prepared gray gens Lg) as (bp & _ & Pg).
  unfold binary_ga in H. eapply optimize_domain in H; [|exact Pg| |].
  - destruct H as (calls & El & F). exists calls. split; auto. eapply Forall_impl; [|exact F]. intros x Hx. eapply box_points; eauto.
  - intros l m Hm. constructor; [discriminate|]. unfold new_bin in Hm. destruct l; repeat (destruct (_ || _) in Hm || destruct (out_of_01 _) in Hm); inversion Hm; exact I.
  - intros x geno _. eapply box_inputs; eauto.
Qed.
(** C44, CombinatoryGA. *)
Theorem C44_combinatory : forall fuel cf a b k s gd' cl s', Forall (arrangement a b k) (cf_input_population cf) ->
  combinatory_ga fuel cf a b k s = Ok (gd', cl) s' ->
  exists calls, log s' = calls ++ log s /\ Forall (fun x => arrangement a b k (fst x)) calls.
Proof.
  intros fuel cf a b k s gd' cl s' Hi H. unfold combinatory_ga in H. eapply optimize_domain in H; [|reflexivity| |].
  - destruct H as (calls & El & F). exists calls. split; auto. eapply Forall_impl; [|exact F]. intros x (geno & D & Sp). cbn in Sp. rewrite Sp. exact D.
  - intros l m Hm. unfold new_combi in Hm. destruct l; repeat (destruct (String.eqb _ _) in Hm || destruct (out_of_01 _) in Hm); inversion Hm; constructor.
  - intros x geno Hx E. cbn in E. inversion E; subst. rewrite Forall_forall in Hi. apply (Hi _ Hx).
Qed.
(** C44, CategoricalGA. *)
Theorem C44_categorical : forall fuel cf gens s gd' cl s', Forall (from_pools gens) (cf_input_population cf) ->
  categorical_ga fuel cf gens s = Ok (gd', cl) s' ->
  exists calls, log s' = calls ++ log s /\ Forall (fun x => from_pools gens (fst x)) calls.
Proof.
  intros fuel cf gens s gd' cl s' Hi H. unfold categorical_ga in H. eapply optimize_domain in H; [|reflexivity| |].
  - destruct H as (calls & El & F). exists calls. split; auto. eapply Forall_impl; [|exact F]. intros x (geno & D & Sp). cbn in Sp. rewrite Sp. exact D.
  - intros l m Hm. unfold new_cat in Hm. destruct l; repeat (destruct (out_of_01 _) in Hm); inversion Hm; constructor; discriminate.
  - intros x geno Hx E. cbn in E. inversion E; subst. rewrite Forall_forall in Hi. apply (Hi _ Hx).
Qed.
Lemma nines : forall x, gvs_eqb x (ints [9; 9; 9]) = true -> ~ arrangement 0 6 3 x.
Proof.
  intros x Ex (zs & -> & Lz & Nd & _). destruct zs as [|z1 [|z2 [|z3 [|? ?]]]]; cbn [length] in Lz; try lia. cbn in Ex.
  repeat rewrite andb_true_iff in Ex. destruct Ex as (E1 & E2 & _). apply Z.eqb_eq in E1, E2. subst. inversion Nd as [|? ? N _]. apply N. left; auto.
Qed.
(** Conversely the calls do leave the space when a supplied individual does: the
    categorical and combinatory classes do not check them. *)
Theorem C44_input_unchecked_refuted : exists fuel cf a b k s gd' cl s',
  combinatory_ga fuel cf a b k s = Ok (gd', cl) s' /\ exists x, In x (log s') /\ ~ arrangement a b k (fst x).
Proof.
  set (cf := mkCfg 2 5 demo_obj TNone None PNone None (6#10) None [ints [9; 9; 9]] 2 (LStr "normal") "best" false).
  destruct (combinatory_ga 50 cf 0 6 3 fresh_world) as [[gd' cl] s'| |] eqn:E.
  - exists 50%nat, cf, 0, 6, 3, fresh_world, gd', cl, s'. split; auto.
    assert (K : observe (fun _ s => existsb (fun x => gvs_eqb (fst x) (ints [9; 9; 9])) (log s)) (combinatory_ga 50 cf 0 6 3 fresh_world) = Some true) by run.
    rewrite E in K. cbn [observe] in K. inversion K as [K']. apply existsb_exists in K'. destruct K' as (x & Hx & Ex). exists x. split; auto.
    exact (nines _ Ex).
  - assert (K : observe (fun _ _ => tt) (combinatory_ga 50 cf 0 6 3 fresh_world) = Some tt) by run. rewrite E in K. discriminate.
  - assert (K : observe (fun _ _ => tt) (combinatory_ga 50 cf 0 6 3 fresh_world) = Some tt) by run. rewrite E in K. discriminate.
Qed.

(** *** C45 *)
(** The parameters common to the three classes. *)
Definition valid_shape (cf : config) : Prop :=
  2 <= cf_tournament_size cf < cf_num_individ cf /\
  1 <= Qtrunc (cf_children_percent cf * inject_Z (cf_num_individ cf)) /\
  (cf_transfer cf = "best" \/ cf_transfer cf = "random") /\
  Z.of_nat (length (cf_input_population cf)) <= cf_num_individ cf.
(** An unconditional task with a number or nothing as target. *)
Definition valid_common (cf : config) : Prop :=
  valid_shape cf /\ cf_penalty cf = PNone /\ match cf_obj_value cf with TL _ => False | _ => True end.
(** The objective is given the right number of arguments and returns a number on
    every point of the space. *)
Definition scalar_on (cf : config) (space : list gv -> Prop) : Prop :=
  forall k genes, space genes -> exists x, answers (cf_objective cf) (given (cf_input_data cf)) k genes (inr (OScalar x)).
Definition level_named (l : lvl) : Prop := match l with LStr s => s = "weak" \/ s = "normal" \/ s = "strong" | _ => False end.
Definition level_number (l : lvl) : Prop := match l with LFloat x => (0 <= x <= 1)%Q | _ => False end.

Lemma plain_total : forall cf f cl g, new_fitness Hyperbola (cf_objective cf) (cf_obj_value cf) (cf_input_data cf) (cf_penalty cf) (cf_conditions cf) = inr (f, cl) ->
  valid_common cf -> scalar_on cf g ->
  forall k pt gen best i, g pt -> sane_best gen best -> exists v j, called f k pt = inr v /\ assess f gen best v i = inr j.
Proof.
  intros cf f cl g N (_ & Pn & Ov) Sc k pt gen best i D _. rewrite Pn in N. cbn [new_fitness] in N. inversion N; subst f. clear N.
  destruct (Sc k pt D) as (x & A). apply (called_answers (mkFit Hyperbola (cf_objective cf) (cf_obj_value cf) (cf_input_data cf) None
     (match cf_conditions cf with None => ["optimize"] | Some l => l end) false [])) in A.
  exists (OScalar x). cut (exists j, assess (mkFit Hyperbola (cf_objective cf) (cf_obj_value cf) (cf_input_data cf) None
     (match cf_conditions cf with None => ["optimize"] | Some l => l end) false []) gen best (OScalar x) i = inr j); [intros (j & Ej); exists j; auto|]. clear A.
  unfold assess, check_input. cbn [fkind is_multi_kind is_conditional obj_value get_fitness_score]. cbv zeta.
  unfold get_fitness_score. cbn [fkind obj_value]. destruct (cf_obj_value cf) as [|tg|]; [| |contradiction]; cbn [obj_score set_obj_score_f]; [eauto|].
  unfold hyper, py_div. destruct (neqb _ _) eqn:E; [|eauto].
  exfalso. cbn in E. apply Qeq_bool_eq in E. change (@num Qops) with Q in *. unfold inject_Z in E. destruct (Qltb (tg - x) 0) eqn:El.
  - apply Qltb_iff in El. lra.
  - apply Qltb_iff_f in El. lra.
Qed.

Lemma plain_evaluates : forall cf space, valid_common cf -> scalar_on cf space -> evaluates cf space.
Proof.
  intros cf space V Sc. pose proof V as (_ & Pn & Ov).
  destruct (new_fitness Hyperbola (cf_objective cf) (cf_obj_value cf) (cf_input_data cf) (cf_penalty cf) (cf_conditions cf)) as [e|[f cl]] eqn:N; [rewrite Pn in N; discriminate|].
  exists f, cl. split; auto. split; [rewrite Pn in N; cbn in N; inversion N; auto|]. eapply plain_total; eauto.
Qed.
Lemma evaluates_weaker : forall cf (a b : list gv -> Prop), (forall x, b x -> a x) -> evaluates cf a -> evaluates cf b.
Proof. intros cf a b H (f & cl & N & K & T). exists f, cl. eauto 6. Qed.

(** The whole of optimize, once the pieces are in order. *)
Lemma optimize_safe : forall fuel cf g t ck mk s g' m,
  valid_shape cf -> t = cf_tournament_size cf -> prepare g = inr g' -> spec_usable g' ->
  (forall gray gens bp, g' = GenBinary gray gens bp -> exists ps, bp = params_of ps /\ Forall2 (fun g p => gene_params g = inr p) gens ps) ->
  Forall (fun x => exists geno, input_genotype g' x = inr geno /\ in_domain g' geno) (cf_input_population cf) ->
  mk (cf_mutation_lvl cf) = inr m -> belongs ck m g' -> mut_spec_ok m g' ->
  (forall x, in_domain g' x -> (min_len ck <= length x)%nat /\ mut_pre m g' x /\ Forall (gene_ok (ok := fun _ => True)) x) ->
  (forall x, in_domain g' x -> match g' with GenBinary gray gens bp => exists ph, decode_genotype gray gens bp x = inr ph | _ => True end) ->
  evaluates cf (domain_point g') ->
  safe (ga_optimize fuel cf false g Hyperbola (SelTournament t) ck mk false) s.
Proof.
  intros fuel cf g t ck mk s g' m (V1 & V2 & V3) Et Pg Us Hps Hin Hm Bel Ms Hx Hd Ev.
  eapply (optimize_safe_any (fun _ => True)); eauto; [exact Qorder| |].
  - split; auto. split; auto. eexists. split; [reflexivity|exact V2].
  - destruct Ev as (f & cl & N & Fk & _). intros f' cl' N'. rewrite N in N'. inversion N'; subst. apply good_scores_any. exact Fk.
Qed.

(** An input individual of BinaryGA: ints or floats. *)
Definition vector (x : list gv) (xs : list Q) : Prop := Forall2 (fun g v => g = GNum v \/ exists z, g = GInt z /\ v = inject_Z z) x xs.
Lemma vector_num : forall x xs, vector x xs -> gvs_num x = inr xs.
Proof.
  induction 1 as [|g v x xs Hg F IH]; [reflexivity|]. cbn [gvs_num]. rewrite IH. destruct Hg as [->|(z & -> & ->)]; reflexivity.
Qed.
Lemma zsum_ge : forall ns, Forall (fun n => 1 <= n) ns -> Z.of_nat (length ns) <= zsum ns.
Proof. induction 1; cbn [length zsum]; lia. Qed.
Lemma bits_two : forall g n, bits_for g n -> 2 <= points g -> 2 <= n.
Proof. intros g n (Hn & Hp & _) H. destruct (Z.eq_dec n 1) as [->|]; [|lia]. change (2 ^ 1) with 2 in Hp. lia. Qed.

(** C45, BinaryGA.  The genotype needs two bits: two genes, or one gene with more than
    one interval. *)
Lemma binary_safe : forall fuel cf gray gens s, valid_shape cf -> Forall legal gens ->
  ((2 <= length gens)%nat \/ exists g, gens = [g] /\ 2 <= points g) ->
  level_named (cf_mutation_lvl cf) \/ level_number (cf_mutation_lvl cf) ->
  Forall (fun x => exists xs, vector x xs /\ Forall2 in_bounds gens xs) (cf_input_population cf) ->
  evaluates cf (in_box gens) ->
  forall e, binary_ga fuel cf gray (gens : list bgene) s <> Err e.
Proof.
  intros fuel cf gray gens s V Lg H2 Hl Hin Sc. destruct (box_prepared gray gens Lg) as (bp & Gp & Pg).
  destruct (C05_decode_in_bounds gray gens Lg) as (bp' & ns & Gp' & En & Fb & D & _). rewrite Gp in Gp'. inversion Gp'; subst bp'. clear Gp'.
  destruct (@prepared_usable Qops gray gens bparams0 _ eq_refl Pg) as (bp' & Eb & Us & ps & Eps & Fps). assert (Eq : bp' = bp) by congruence. rewrite Eq in *. clear Eb Eq bp'.
  assert (Two : 2 <= zsum (num_bits bp)).
  { rewrite En. assert (Hns : Forall (fun n => 1 <= n) ns) by (rewrite <- En; apply Us). destruct H2 as [H2|(g & -> & Hg)].
    - apply zsum_ge in Hns. apply Forall2_length in Fb. lia.
    - inversion Fb as [|? n ? ? B F]; subst. inversion F; subst. cbn. pose proof (bits_two _ _ B Hg). lia. }
  assert (M : exists m, new_bin (cf_mutation_lvl cf) = inr m /\ m = MutBin (cf_mutation_lvl cf)).
  { unfold new_bin. destruct (cf_mutation_lvl cf) as [st|x|]; destruct Hl as [Hl|Hl]; try contradiction.
    - destruct Hl as [-> |[-> | ->]]; cbn; eauto.
    - unfold out_of_01. cbn in Hl. destruct (_ || _) eqn:E; [|eauto]. exfalso. apply orb_true_iff in E. cbn in E. rewrite !Qltb_iff in E.
      unfold inject_Z in E. change (@num Qops) with Q in *. destruct E; lra. }
  destruct M as (m & Em & Mm).
  apply (optimize_safe fuel cf (@GenBinary Qops gray gens bparams0) _ OnePoint new_bin s (@GenBinary Qops gray gens bp) m); auto.
  - intros gray' gens' bp' E. inversion E; subst. eauto.
  - eapply Forall_impl; [|exact Hin]. intros x (xs & Vx & Bx). destruct (C06_input_checked gray gens bp xs Lg Gp) as [Ok _]. destruct (Ok Bx) as (bs & Eb).
    exists (bits_to_geno bs). assert (E : input_genotype (@GenBinary Qops gray gens bp) x = inr (bits_to_geno bs)).
    { cbn [input_genotype]. rewrite (vector_num _ _ Vx). rewrite Eb. reflexivity. }
    split; auto. eapply box_inputs; eauto.
  - rewrite Mm. constructor; [discriminate|exact I].
  - rewrite Mm. cbn. destruct (cf_mutation_lvl cf) as [st|x|]; [|exact I|destruct Hl as [[]|[]]].
    assert (El : last (idx_bits bp) 0 = zsum (num_bits bp)).
    { rewrite Eps, idx_bits_total, zsum_fold. reflexivity. }
    rewrite El. apply not_true_is_false. intros C. apply Qeq_bool_eq in C. unfold Qeq in C. cbn in C. lia.
  - intros x (bs & -> & Lb). rewrite map_length. cbn [min_len]. rewrite Mm. split; [lia|]. split; [exact I|].
    apply Forall_forall. intros y Hy. apply in_map_iff in Hy. destruct Hy as (b & <- & _). exact I.
  - intros x (bs & -> & Lb). destruct (D bs) as (ys & Ey & _); [rewrite <- En; auto|]. rewrite (decode_bits _ _ _ _ _ Ey). eauto.
  - eapply evaluates_weaker; [|exact Sc]. intros genes Dg. eapply box_points; eauto.
Qed.
Theorem C45_binary : forall fuel cf gray gens s, valid_common cf -> Forall legal gens ->
  ((2 <= length gens)%nat \/ exists g, gens = [g] /\ 2 <= points g) ->
  level_named (cf_mutation_lvl cf) \/ level_number (cf_mutation_lvl cf) ->
  Forall (fun x => exists xs, vector x xs /\ Forall2 in_bounds gens xs) (cf_input_population cf) ->
  scalar_on cf (in_box gens) ->
  forall e, binary_ga fuel cf gray (gens : list bgene) s <> Err e.
Proof.
  intros. eapply binary_safe; eauto; [apply H|apply plain_evaluates; auto].
Qed.

(** C45, CombinatoryGA: tours of at least three of the numbers a..b. *)
Lemma combinatory_safe : forall fuel cf a b k s, valid_shape cf -> 3 <= k <= b - a + 1 ->
  level_named (cf_mutation_lvl cf) \/ level_number (cf_mutation_lvl cf) ->
  Forall (arrangement a b k) (cf_input_population cf) -> evaluates cf (arrangement a b k) ->
  forall e, combinatory_ga fuel cf a b k s <> Err e.
Proof.
  intros fuel cf a b k s V Hk Hl Hin Sc.
  assert (M : exists x, new_combi Movement (cf_mutation_lvl cf) = inr (MutCombi Movement x)).
  { unfold new_combi. destruct (cf_mutation_lvl cf) as [st|x|]; destruct Hl as [Hl|Hl]; try contradiction.
    - destruct Hl as [-> |[-> | ->]]; cbn; eauto.
    - unfold out_of_01. cbn in Hl. destruct (_ || _) eqn:E; [|eauto]. exfalso. apply orb_true_iff in E. cbn in E. rewrite !Qltb_iff in E.
      unfold inject_Z in E. change (@num Qops) with Q in *. destruct E; lra. }
  destruct M as (x & Em).
  apply (optimize_safe fuel cf (GenOrd a b k) _ Order (new_combi Movement) s (GenOrd a b k) (MutCombi Movement x)); auto.
  - cbn. lia.
  - intros; discriminate.
  - eapply Forall_impl; [|exact Hin]. intros y Hy. exists y. split; auto.
  - constructor.
  - exact I.
  - intros y (zs & -> & Lz & _). rewrite map_length. cbn [min_len mut_pre combi_min]. split; [lia|]. split; [rewrite map_length; lia|].
    apply Forall_forall. intros z Hz. apply in_map_iff in Hz. destruct Hz as (w & <- & _). exact I.
  - eapply evaluates_weaker; [|exact Sc]. intros genes (geno & D & Sp). cbn in Sp. rewrite Sp. exact D.
Qed.
Theorem C45_combinatory : forall fuel cf a b k s, valid_common cf -> 3 <= k <= b - a + 1 ->
  level_named (cf_mutation_lvl cf) \/ level_number (cf_mutation_lvl cf) ->
  Forall (arrangement a b k) (cf_input_population cf) -> scalar_on cf (arrangement a b k) ->
  forall e, combinatory_ga fuel cf a b k s <> Err e.
Proof.
  intros. eapply combinatory_safe; eauto; [apply H|apply plain_evaluates; auto].
Qed.

Lemma qgene_ok : forall x : gv, gene_ok (NO := Qops) (ok := fun _ => True) x.
Proof. intros [ | | | ]; exact I. Qed.
Lemma qpool_fine : forall p, pool_fine (NO := Qops) (fun _ => True) p.
Proof. intros [a b stp|l|]; cbn; auto. apply Forall_forall. intros; apply qgene_ok. Qed.
(** C45, CategoricalGA: only a numeric mutation level is accepted. *)
Lemma categorical_safe : forall fuel cf gens s, valid_shape cf -> Forall good_pool gens ->
  level_number (cf_mutation_lvl cf) ->
  Forall (from_pools gens) (cf_input_population cf) -> evaluates cf (from_pools gens) ->
  forall e, categorical_ga fuel cf gens s <> Err e.
Proof.
  intros fuel cf gens s V Hg Hl Hin Sc.
  assert (M : exists x, new_cat (cf_mutation_lvl cf) = inr (MutCat x)).
  { unfold new_cat. destruct (cf_mutation_lvl cf) as [st|x|]; try contradiction.
    unfold out_of_01. cbn in Hl. destruct (_ || _) eqn:E; [|eauto]. exfalso. apply orb_true_iff in E. cbn in E. rewrite !Qltb_iff in E.
    unfold inject_Z in E. change (@num Qops) with Q in *. destruct E; lra. }
  destruct M as (x & Em).
  apply (optimize_safe fuel cf (GenCat gens) _ Uniform new_cat s (GenCat gens) (MutCat x)); auto.
  - cbn. eapply Forall_impl; [|exact Hg]. apply good_pool_usable.
  - intros; discriminate.
  - eapply Forall_impl; [|exact Hin]. intros y Hy. exists y. split; auto.
  - constructor. discriminate.
  - exact I.
  - intros y Dy. cbn [min_len mut_pre]. split; [lia|]. split.
    + cbn in Dy. clear - Hg Dy. induction Dy; inversion Hg; subst; constructor; auto. apply (good_pool_ok (fun _ => True) Qorder); auto. apply qpool_fine.
    + apply Forall_forall. intros; apply qgene_ok.
  - eapply evaluates_weaker; [|exact Sc]. intros genes (geno & D & Sp). cbn in Sp. rewrite Sp. exact D.
Qed.
Theorem C45_categorical : forall fuel cf gens s, valid_common cf -> Forall good_pool gens ->
  level_number (cf_mutation_lvl cf) ->
  Forall (from_pools gens) (cf_input_population cf) -> scalar_on cf (from_pools gens) ->
  forall e, categorical_ga fuel cf gens s <> Err e.
Proof.
  intros. eapply categorical_safe; eauto; [apply H|apply plain_evaluates; auto].
Qed.

(** *** Examples: configurations that meet the hypotheses *)
Definition sq_obj : objfun := Obj1 (fun _ genes => inr (OScalar
  (fold_left (fun acc g => match g with GNum x => (acc + x * x)%Q | GInt z => (acc + inject_Z (z * z))%Q | _ => acc end) genes 0%Q))).
Definition safe_cf (lv : lvl) (inp : list (list gv)) : config :=
  mkCfg 4 5 sq_obj (T1 (1#2)) None PNone None (6#10) None inp 2 lv "best" true.
Definition box : list qgene := [(-2, 5, 1#2); (0, 1, 1#4)]%Q.
Example C45_common_example : forall lv, valid_common (safe_cf lv [[GInt 1; GNum (1#2)]]).
Proof. intros lv. split; [split; [cbn; lia|]; split; [vm_compute; discriminate|]; split; [left; reflexivity|]; vm_compute; discriminate|]. split; [reflexivity|exact I]. Qed.
Lemma sq_scalar : forall lv inp sp, scalar_on (safe_cf lv inp) sp.
Proof. intros lv inp sp k genes _. eexists. cbn [cf_objective cf_input_data safe_cf given]. unfold sq_obj. exact (answer_1 _ k genes). Qed.
Example C45_binary_example : forall fuel gray s e, binary_ga fuel (safe_cf (LStr "normal") [[GInt 1; GNum (1#2)]]) gray (box : list bgene) s <> Err e.
Proof.
  intros fuel gray s e. apply C45_binary.
  - apply C45_common_example.
  - repeat constructor; vm_compute; congruence.
  - left. cbn. lia.
  - left. right. left. reflexivity.
  - repeat constructor. exists [1; 1#2]%Q. split.
    + constructor; [right; exists 1; auto|]. constructor; [left; auto|constructor].
    + repeat constructor; vm_compute; congruence.
  - apply sq_scalar.
Qed.
Example C45_categorical_example : forall fuel s e, categorical_ga fuel (safe_cf (LFloat (1#2)) []) [CRange 0 9 3; CList (ints [4; 4; 5]); CList [GStr "a"]] s <> Err e.
Proof.
  intros fuel s e. apply C45_categorical.
  - split; [split; [cbn; lia|]; split; [vm_compute; discriminate|]; split; [left; reflexivity|]; vm_compute; discriminate|]. split; [reflexivity|exact I].
  - constructor; [cbn; lia|]. constructor; [right; exists (GInt 4), (GInt 5); repeat split; cbn; auto|]. constructor; [left; eauto|constructor].
  - cbn. split; vm_compute; congruence.
  - constructor.
  - apply sq_scalar.
Qed.
Example C45_combinatory_example : forall fuel s e, combinatory_ga fuel (safe_cf (LStr "strong") []) 0 6 4 s <> Err e.
Proof.
  intros fuel s e. apply C45_combinatory.
  - split; [split; [cbn; lia|]; split; [vm_compute; discriminate|]; split; [left; reflexivity|]; vm_compute; discriminate|]. split; [reflexivity|exact I].
  - lia.
  - left. right. right. reflexivity.
  - constructor.
  - apply sq_scalar.
Qed.
(** Such runs do end: the first calls of a run of each class. *)
Definition first_calls {A} (n : nat) (o : outcome A) : option (list (list gv)) := observe (fun _ s => firstn n (map fst (rev (log s)))) o.
Example C44_combinatory_case : first_calls 3 (combinatory_ga 50 (safe_cf (LStr "strong") []) 0 6 4 fresh_world) = Some [ints [0; 2; 5; 4]; ints [4; 6; 2; 1]; ints [1; 5; 2; 3]].
Proof. run. Qed.
Example C44_binary_case : first_calls 3 (binary_ga 50 (safe_cf (LStr "strong") []) true (box : list bgene) fresh_world)
  = Some [[GNum (61#15); GNum (5#7)]; [GNum (54#15); GNum (2#7)]; [GNum (26#15); GNum (5#7)]].
Proof. run. Qed.

(** *** The conditions of C45 matter: configurations just outside them raise *)
Definition raises {A} (o : outcome A) : bool := match o with Err _ => true | _ => false end.
(** One bit in all: the one-point crossover has no cut. *)
Example C45_one_bit_case : raises (binary_ga 50 (safe_cf (LStr "normal") []) false ([(0, 1, 1)%Q] : list bgene) fresh_world) = true.
Proof. run. Qed.
(** No children, int(0.1 * 5) = 0, and random transfer: five of the four other parents are sampled. *)
Example C45_no_children_case : raises (categorical_ga 50 (mkCfg 4 5 sq_obj (T1 (1#2)) None PNone None (1#10) None [] 2 (LFloat (1#2)) "random" true) pools fresh_world) = true.
Proof. run. Qed.
(** A pool listing one value twice: the mutation has nothing to choose from. *)
Example C45_equal_pool_case : raises (categorical_ga 50 (safe_cf (LFloat 1%Q) []) [CList (ints [0; 1; 2]); CList (ints [5; 5])] fresh_world) = true.
Proof. run. Qed.
(** Tours of two. *)
Example C45_short_tour_case : raises (combinatory_ga 50 (safe_cf (LStr "strong") []) 0 6 2 fresh_world) = true.
Proof. run. Qed.
(** A tournament of the whole population, or of one. *)
Example C45_tournament_case : raises (categorical_ga 50 (mkCfg 4 5 sq_obj (T1 (1#2)) None PNone None (6#10) None [] 5 (LFloat (1#2)) "best" true) pools fresh_world) = true /\
  raises (categorical_ga 50 (mkCfg 4 5 sq_obj (T1 (1#2)) None PNone None (6#10) None [] 1 (LFloat (1#2)) "best" true) pools fresh_world) = true.
Proof. split; run. Qed.

Print Assumptions C44_run.
Print Assumptions C44_binary.
Print Assumptions C44_combinatory.
Print Assumptions C44_categorical.
Print Assumptions C44_input_unchecked_refuted.
Print Assumptions C45_binary.
Print Assumptions C45_combinatory.
Print Assumptions C45_categorical.
