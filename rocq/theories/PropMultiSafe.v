(** Property C68: valid VEGA and FFGA configurations never raise. *)
From Coq Require Import String.
From Coq Require Import ZArith QArith List Bool Lia Lqa Permutation.
From Verif Require Import Spec Num State Binary Population GaData Crossover Mutation Selection Penalty Fitness NewGeneration Driver
  ListLemmas Rnd Exec Laws CodingProofs PopulationProofs CrossoverProofs MutationProofs SelectionProofs BalancedProofs VegaProofs
  NewGenProofs UpdateProofs FitnessProofs StepProofs DomainProofs SafetyProofs RankingProofs MultiProofs MultiRuns MultiSafetyProofs
  RunProofs Runs PropRun PropCoding PropFitness PropPenalty PropMulti PropPareto PropFfga OptimizeProofs PropDomain PropConditional Demo.
Import ListNotations.
Open Scope string_scope.
Open Scope list_scope.
Open Scope Z_scope.
Local Existing Instance Qops.

(** *** The operators *)
Lemma vega_selection_safe : forall fuel q t (gd : gadata) s w, 1 <= q -> (Z.to_nat q <= w)%nat ->
  2 <= t < num_individ (population gd) -> t <= Z.of_nat (length (members (population gd))) ->
  (forall r, In r (members (population gd)) -> (r < next s)%nat /\ exists l, score (heap s r) = SVL l /\ length l = w) ->
  (exists x, pairs_wanted (Some q) gd x) -> safe (selection_execute fuel (SelVegaTournament q t) gd) s.
Proof.
  intros fuel q t gd s w Hq Hw Ht Hl Hm (x & Hx). cbn [selection_execute]. apply safe_bind.
  { unfold check_tournament_size. destruct (t <? 2) eqn:E1; [apply Z.ltb_lt in E1; lia|].
    destruct (num_individ (population gd) <=? t) eqn:E2; [apply Z.leb_le in E2; lia|]. apply safe_ret. }
  intros u s1 R1. apply check_size_ok in R1. destruct R1 as [_ ->]. apply safe_bind; [apply base_execute_safe|].
  intros gd1 s2 R2. apply base_execute_ok in R2. destruct R2 as (-> & N2 & L2 & S2 & P2 & Rn).
  assert (K : forall i, 0 <= i < q -> keys_ok (fun _ => True) s2 (Some i) (members (population gd))).
  { intros i Hi. apply (keys_ok_key (fun _ => True) s s2); [intros r Hr; eapply renumbered_key; exact Rn|].
    intros r Hr. destruct (Hm r Hr) as (_ & l & El & Ll). unfold key_at. rewrite El.
    destruct (nth_error l (Z.to_nat i)) as [y|] eqn:Ey; [|apply nth_error_None in Ey; lia]. exists y. split; auto.
    rewrite <- (Z2Nat.id i) by lia. rewrite ListLemmas.py_nth_in by lia. rewrite Nat2Z.id. exact Ey. }
  apply safe_mfold with (P := fun _ g s3 => (exists ps, g = set_parents ps gd) /\ extends s2 s3).
  - split; [exists []; reflexivity|apply extends_refl].
  - intros d i rest g s3 El ((ps & ->) & X). apply zrange_at in El. destruct El as [-> Hi].
    apply (tournament_safe (fun _ => True) Qorder); cbn [population set_parents]; try lia.
    + destruct X as (_ & _ & _ & _ & Xh). apply (keys_ok_ext (fun _ => True) s2 s3); [|apply K; lia]. intros r Hr. apply Xh. rewrite N2. apply Hm; auto.
    + intros r Hr. destruct X as (Xn & _). destruct (Hm r Hr) as [Lr _]. lia.
    + exists x. exact Hx.
  - intros d i rest g s3 g' s4 El ((ps & ->) & X) R. apply tournament_ok with (W := fun _ => True) in R; auto.
    + destruct R as (y & prs & _ & _ & -> & _ & X' & _). split; [eexists; cbn; reflexivity|eapply extends_trans; eauto].
    + intros r Hr. cbn in Hr. destruct X as (Xn & _). destruct (Hm r Hr) as [Lr _]. lia.
Qed.

Lemma balanced_selection_safe : forall fuel (gd : gadata) s, members (population gd) <> [] ->
  (forall r, In r (members (population gd)) -> (r < next s)%nat /\ exists x : Q, score (heap s r) = SV1 (x : num) /\ (0 < x)%Q) ->
  (exists x, pairs_wanted None gd x) -> safe (selection_execute fuel SelBalanced gd) s.
Proof.
  intros fuel gd s Ne Hm Hx. cbn [selection_execute]. unfold balanced_pass. apply safe_bind; [apply base_execute_safe|].
  intros gd1 s2 R2. apply base_execute_ok in R2. destruct R2 as (-> & N2 & L2 & S2 & P2 & Rn). cbn [population set_parents].
  set (l := members (population gd)) in *. apply safe_bind; [apply safe_ret|]. intros u s3 R3. apply ret_ok in R3. destruct R3 as [_ ->].
  assert (W : forall r, In r l -> exists x : Q, score (heap s2 r) = SV1 (x : num) /\ (0 < x)%Q).
  { intros r Hr. destruct (Hm r Hr) as (_ & x & E & Hp). exists x. split; auto. pose proof (renumbered_core l s s2 r Rn) as [C _]. destruct C as (_ & _ & E1 & _). rewrite <- E. auto. }
  assert (Ws : exists ws : list Q, mmap (weight KScore None) l s2 = Ok (ws : list num) s2 /\ length ws = length l /\ Forall (fun w => 0 < w)%Q ws).
  { clear -W. induction l as [|r l IH]; [exists []; repeat split; auto|]. destruct IH as (ws & E & L & F); [intros; apply W; right; auto|].
    destruct (W r) as (x & Ex & Hp); [left; auto|]. exists (x :: ws). cbn [mmap length]. unfold bind. unfold weight at 1, bind, get, lift_opt, key_of. rewrite Ex. cbn [ret].
    rewrite E. split; [reflexivity|]. split; [congruence|]. constructor; auto. }
  destruct Ws as (ws & Ew & Lw & Fw).
  assert (Nw : ws <> []) by (intros ->; apply Ne; destruct l; [auto|discriminate]).
  assert (Hs : ~ (qsum ws == 0)%Q) by (pose proof (qsum_pos ws Nw Fw); lra).
  destruct (share_pos ws Nw Fw) as [_ Hp]. destruct (scores_ok ws Hs) as (scores & Es & _ & _).
  apply safe_bind.
  { unfold add_probabilities. apply safe_bind; [intros e; rewrite Ew; discriminate|]. intros ws' s3 R. rewrite Ew in R. inversion R; subst. eapply safe_lift; exact Es. }
  intros sc s3 R. unfold add_probabilities, bind in R. rewrite Ew in R. apply lift_ok in R. destruct R as [R ->]. rewrite Es in R. inversion R; subst sc. clear R.
  assert (D : forall r, (exists k, 0 <= k < 2 ^ 53 /\ r = nrand k) -> exists i, index_for scores r = inr (Z.of_nat i) /\ (i < length l)%nat).
  { intros r (k & Hk & ->). change (@nrand Qops k) with (k # 2 ^ 53). destruct (roulette ws (k # 2 ^ 53) Hs Hp) as (sc & i & E & Ei & Li & _).
    - unfold Qle. cbn. lia.
    - unfold Qlt. cbn. lia.
    - rewrite Es in E. inversion E; subst sc. exists i. split; auto. lia. }
  assert (Gi : forall s', safe (get_index scores) s').
  { intros s'. unfold get_index. apply safe_bind; [eapply safe_possible; apply possible_random|]. intros r s4 R.
    destruct possible_random as [P _]. destruct (P s') as (a & t & Ea & Ha). rewrite Ea in R. inversion R; subst a s4. destruct (D r Ha) as (i & Ei & _). eapply safe_lift; eauto. }
  assert (Dr : forall i, drawn scores i -> exists r, py_nth l i = Some r).
  { intros i (k & Hk & E). destruct (D (nrand k)) as (i' & E' & Hi); [eauto|]. rewrite E in E'. inversion E'; subst i. rewrite ListLemmas.py_nth_in by lia. rewrite Nat2Z.id.
    destruct (nth_error l i') eqn:En; [eauto|]. apply nth_error_None in En. lia. }
  assert (Si : forall f first s', safe (second_index f scores first) s').
  { induction f as [|f IH]; intros first s'; cbn [second_index]; [apply safe_nofuel|]. apply safe_bind; [apply Gi|]. intros i s4 _. destruct (i =? first); [apply IH|apply safe_ret]. }
  assert (Pa : forall i s', drawn scores i -> safe (pop_at l i) s').
  { intros i s' Hd. destruct (Dr i Hd) as (r & E). unfold pop_at. apply safe_bind; [eapply safe_lift_opt; eauto|]. intros. apply safe_get. }
  unfold balanced_selection. destruct Hx as (x & Hx). apply safe_bind.
  { unfold get_total_num_parents. apply safe_bind; [apply safe_ret|]. intros a s4 R. apply ret_ok in R. destruct R as [-> ->]. eapply safe_lift_opt. exact Hx. }
  intros n s4 _. apply safe_bind; [|intros; apply safe_ret].
  apply safe_mrepeat with (P := fun _ => True); auto. intros s5 _. cbn [population set_parents]. fold l. unfold balanced_pair.
  apply safe_bind; [apply Gi|]. intros i1 s6 R1. apply get_index_ok in R1. destruct R1 as [D1 _].
  apply safe_bind; [apply Si|]. intros i2 s7 R2. apply second_index_ok in R2. destruct R2 as (D2 & _ & _).
  apply safe_bind; [apply Pa; auto|]. intros. apply safe_bind; [apply safe_alloc|]. intros.
  apply safe_bind; [apply Pa; auto|]. intros. apply safe_bind; [apply safe_alloc|]. intros. apply safe_ret.
Qed.

Lemma newgen_multi_safe : forall ng (gd : gadata) s, ng_multi ng = true ->
  (forall r, In r (members (population gd)) -> ranked (rank (heap s r)) /\ exists ph, phenotype (heap s r) = Some (Some ph)) ->
  (ng_transfer ng = TRandom -> (11 <= length (members (population gd)))%nat) -> safe (newgen_execute ng gd) s.
Proof.
  intros ng gd s M H Hr. unfold newgen_execute. rewrite M.
  assert (Np : (if is_phenotype (gspec_of (population gd)) then get_phenotype (gspec_of (population gd)) (members (population gd)) else ret tt) s = Ok tt s).
  { destruct (is_phenotype _); [|reflexivity]. apply phenotype_noop. intros r Ir. apply H; auto. }
  apply safe_bind; [intros e; rewrite Np; discriminate|]. intros u s1 R. rewrite Np in R. inversion R; subst s1. clear R.
  apply safe_bind; [|intros; apply safe_ret]. unfold add_parents. rewrite M. apply safe_bind; [|intros; apply safe_ret].
  destruct (ng_transfer ng); [apply rank1_prefix_safe; intros r Ir; apply H; auto|]. specialize (Hr eq_refl).
  destruct (members (population gd)) as [|a l0 _] using rev_ind; [cbn in Hr; lia|]. rewrite app_length in Hr. cbn [length] in Hr.
  intros e. destruct (proj1 (add_random_possible l0 a 10 (Z.of_nat (length (children gd))) s ltac:(lia)) (tape s)) as (x & t & Ex & _). rewrite set_tape_same in Ex. congruence.
Qed.

(** *** Evaluation *)
Definition optimizes (cl : list string) : nat := length (filter (fun a => String.eqb a "optimize") cl).
Lemma filter_split : forall {A} (p : A -> bool) l, (length (filter p l) + length (filter (fun a => negb (p a)) l) = length l)%nat.
Proof. intros A p. induction l as [|a l IH]; cbn [filter]; auto. destruct (p a); cbn [negb length]; lia. Qed.
Lemma pop_total : forall cl (values : list Q), (length cl <= length values)%nat ->
  exists xs vs : list Q, pop_all (rev (indices_from "optimize" 0 cl)) (values : list num) = inr (xs, vs) /\
    length xs = optimizes cl /\ (length vs + optimizes cl = length values)%nat.
Proof.
  induction cl as [|c cl IH] using rev_ind; intros values L.
  - exists [], values. split; [reflexivity|]. cbn. split; [auto|lia].
  - rewrite indices_snoc, rev_app_distr. rewrite Z.add_0_l. rewrite app_length in L. cbn [length] in L. unfold optimizes. rewrite filter_app, app_length. cbn [filter].
    destruct (String.eqb c "optimize") eqn:E.
    + cbn [rev app pop_all]. unfold py_pop. destruct (@nth_mid (@num Qops) values (length cl)) as (x & Ex & Lr); [change (@num Qops) with Q in *; lia|]. change (@num Qops) with Q in *. rewrite Ex, Nat2Z.id.
      destruct (IH (remove_at (length cl) values)) as (xs & vs & -> & A & B); [lia|]. exists (x :: xs), vs. split; [reflexivity|]. unfold optimizes in *. cbn [length]. lia.
    + cbn [rev app]. destruct (IH values) as (xs & vs & -> & A & B); [lia|]. exists xs, vs. split; [reflexivity|]. unfold optimizes in *. cbn [length]. lia.
Qed.

(** The ways a multi-objective task may treat the n returned values: all of them are
    objectives, or the conditions say which ones are and the dynamic penalty with
    non-negative factors treats the others. *)
Definition mode_ok (cf : config) (n : nat) : Prop :=
  match cf_penalty cf with
  | PNone => True
  | PPen (Dynamic delta c alpha betta) => ((0 <= delta /\ 0 <= c)%Q /\ (exists w, exponent alpha w) /\ (exists w, exponent betta w)) /\
      exists cl, cf_conditions cf = Some cl /\ length cl = n /\ (2 <= n)%nat /\ Forall (fun c => sign c \/ c = "optimize") cl
  | _ => False
  end.
(** How many of the values are objectives. *)
Definition width (cf : config) (n : nat) : nat :=
  match cf_penalty cf, cf_conditions cf with PPen _, Some cl => optimizes cl | _, _ => n end.
Lemma filter_signs : forall cl, Forall (fun c => sign c \/ c = "optimize") cl -> Forall sign (filter (fun a => negb (String.eqb a "optimize")) cl).
Proof.
  intros cl F. apply Forall_forall. intros c Hc. apply filter_In in Hc. destruct Hc as [Ic Hc]. rewrite Forall_forall in F. destruct (F c Ic) as [Hs| ->]; auto. discriminate.
Qed.
Lemma multi_assess : forall cf fk n, is_multi_kind fk = true -> mode_ok cf n ->
  exists f cl, new_fitness fk (cf_objective cf) (cf_obj_value cf) (cf_input_data cf) (cf_penalty cf) (cf_conditions cf) = inr (f, cl) /\
    fkind f = fk /\ obj_function f = cf_objective cf /\ obj_value f = cf_obj_value cf /\ input_data f = cf_input_data cf /\
    forall (l : list Q) gen best i, length l = n -> 0 <= gen ->
      exists (xs : list Q) (pen : Q) i', length xs = width cf n /\ (0 <= pen)%Q /\ obj_score i' = SVL (xs : list num) /\ rank i' = rank i /\
        assess f gen best (OTuple (l : list num)) i = match get_fitness_score f i' (pen : num) with inl e => inl e | inr sc => inr (set_score sc i') end.
Proof.
  intros cf fk n Mk Hm. unfold mode_ok, width in *. destruct (cf_penalty cf) as [|p|]; [| |contradiction].
  - cbn [new_fitness]. eexists _, _. split; [reflexivity|]. cbn [fkind obj_function obj_value input_data]. repeat (split; [reflexivity|]).
    intros l gen best i Ll Hg. exists l, 0%Q, (set_obj_score_f (SVL (l : list (@num Qops))) i). split; auto. split; [lra|]. repeat (split; [reflexivity|]).
    unfold assess, check_input. cbn [fkind]. rewrite Mk. cbn [is_conditional]. reflexivity.
  - destruct p as [delta c alpha betta|delta b1 b2 betta|]; try contradiction. destruct Hm as (([Hd Hc] & (wa & Ea) & (wb & Eb)) & cl & -> & Ln & L2 & Fs). cbn [new_fitness].
    replace (Z.of_nat (length cl) <=? 1) with false by (symmetry; apply Z.leb_gt; lia). rewrite Mk.
    eexists _, _. split; [reflexivity|]. cbn [fkind obj_function obj_value input_data]. repeat (split; [reflexivity|]).
    intros l gen best i Ll Hg. destruct (pop_total cl l) as (xs & vs & Ep & Lx & Lv); [lia|].
    set (cs := filter (fun a => negb (String.eqb a "optimize")) cl).
    assert (Lc : length cs = length vs). { pose proof (filter_split (fun a => String.eqb a "optimize") cl) as X. unfold optimizes in *. fold cs in X. lia. }
    destruct (violates_ok cs vs Lc) as (bad & Ebad).
    assert (K : Forall known cs) by (eapply Forall_impl; [|apply filter_signs; exact Fs]; intros a [->| ->]; [right|left]; reflexivity).
    assert (G0 : (0 <= inject_Z gen)%Q) by (change 0%Q with (inject_Z 0); rewrite <- Zle_Qle; lia).
    assert (B0 : (0 <= c * inject_Z gen)%Q) by (apply Qmult_le_0_compat; auto). destruct (ex_value alpha wa Ea _ B0) as (y & Ey & Hy).
    destruct (C49_value delta c alpha betta wb cs vs gen best y Eb Ey Lc K) as (pen & Epen & Hpen).
    exists xs, pen, (let i1 := set_obj_score_f (SVL (xs : list (@num Qops))) i in if bad then set_feasible false i1 else i1).
    split; auto. split.
    { pose proof (total_nonneg betta wb cs vs Eb). pose proof (ex_nonneg alpha wa Ea _ B0). change (@num Qops) with Q in *. rewrite Hpen.
      apply Qmult_le_0_compat; auto. apply Qmult_le_0_compat; auto. rewrite Hy. auto. }
    split; [destruct bad; reflexivity|]. split; [destruct bad; reflexivity|].
    unfold assess, check_input, take_obj_score. cbn [fkind idx_opt conditions fpenalty]. rewrite Mk. cbn [is_conditional]. change (@num Qops) with Q in *. rewrite Ep. cbn [fst snd].
    fold cs. rewrite Ebad, Epen. destruct bad; reflexivity.
Qed.

(** The targets VEGA can use: none, or a list that covers the objectives. *)
Definition target_ok (cf : config) (n : nat) : Prop :=
  match cf_obj_value cf with TNone => True | T1 _ => False | TL ts => (width cf n <= length ts)%nat end.
Lemma hypers_runs : forall (xs ts : list Q) (pen : Q), (0 <= pen)%Q -> (length xs <= length ts)%nat ->
  exists ys : list Q, hypers (ts : list num) xs pen = inr (ys : list num) /\ length ys = length xs.
Proof.
  induction xs as [|x xs IH]; intros ts pen Hp L; [exists []; split; [destruct ts|]; reflexivity|]. destruct ts as [|t ts]; cbn [length] in L; [lia|]. cbn [hypers].
  destruct (hyper_runs t x pen Hp) as (y & ->). destruct (IH ts pen Hp) as (ys & -> & Ly); [lia|]. exists (y :: ys). cbn [length]. auto.
Qed.
Lemma vega_assess : forall cf n f (l : list Q) gen best i (xs : list Q) (pen : Q) i', fkind f = VegaHyperbola -> obj_value f = cf_obj_value cf -> target_ok cf n ->
  length xs = width cf n -> (0 <= pen)%Q -> obj_score i' = SVL (xs : list num) ->
  assess f gen best (OTuple (l : list num)) i = match get_fitness_score f i' (pen : num) with inl e => inl e | inr sc => inr (set_score sc i') end ->
  exists j ys, assess f gen best (OTuple (l : list num)) i = inr j /\ score j = SVL ys /\ length ys = width cf n.
Proof.
  intros cf n f l gen best i xs pen i' Fk Ov Ht Lx Hp Ei ->. unfold target_ok in Ht. unfold get_fitness_score. rewrite Fk, Ov, Ei. destruct (cf_obj_value cf) as [| |ts]; [|contradiction|].
  - eexists _, _. split; [reflexivity|]. split; [reflexivity|]. rewrite map_length. auto.
  - destruct (hypers_runs xs ts pen Hp) as (ys & -> & Ly); [change (@num Qops) with Q in *; lia|]. eexists _, ys. split; [reflexivity|]. split; [reflexivity|]. change (@num Qops) with Q in *; lia.
Qed.
Lemma ones_pos : forall n, (0 < @ones Qops n)%Q.
Proof. induction n as [|n IH]; cbn [ones]; [reflexivity|]. cbn. change (@num Qops) with Q in *. unfold inject_Z in *. lra. Qed.
Lemma ffga_assess : forall f (l : list Q) gen best i (pen : Q) i', fkind f = Ffga -> rank i' = rank i -> ranked (rank i) ->
  assess f gen best (OTuple (l : list num)) i = match get_fitness_score f i' (pen : num) with inl e => inl e | inr sc => inr (set_score sc i') end ->
  exists j (x : Q), assess f gen best (OTuple (l : list num)) i = inr j /\ score j = SV1 (x : num) /\ (0 < x)%Q.
Proof.
  intros f l gen best i pen i' Fk Er [n En] ->. unfold get_fitness_score. rewrite Fk, Er, En. unfold py_div. pose proof (ones_pos n) as P.
  destruct (neqb _ _) eqn:E.
  - exfalso. cbn in E. apply Qeq_bool_eq in E. change (@num Qops) with Q in *. unfold inject_Z in E. lra.
  - eexists _, _. split; [reflexivity|]. split; [reflexivity|]. cbn. change (@num Qops) with Q in *. apply Qlt_shift_div_l; unfold inject_Z; lra.
Qed.

(** *** Whole runs *)
(** The objective answers a call without input data by the tuple F pt, always of n
    values, on every point of the space (the ranking calls it so); what it answers
    elsewhere is F pt or an exception; with the given input data it returns n values. *)
Definition pareto_task (cf : config) (F : list gv -> list Q) (n : nat) (space : list gv -> Prop) : Prop :=
  (forall pt, length (F pt) = n) /\
  (forall k pt v, answers (cf_objective cf) None k pt (inr (OTuple v)) -> v = F pt) /\
  (forall k pt, space pt -> answers (cf_objective cf) None k pt (inr (OTuple (F pt)))) /\
  tuple_on cf n space.
Lemma one_arg_answers : forall o k pt v, answers o None k pt (inr v) <-> one_arg o k pt = inr v.
Proof.
  intros o k pt v. split.
  - intros H. inversion H; subst; auto.
  - intros H. destruct o; cbn in H; try discriminate; rewrite <- H; constructor.
Qed.
Definition multi_shape (cf : config) (gens : list qgene) : Prop :=
  Forall legal gens /\ ((2 <= length gens)%nat \/ exists g, gens = [g] /\ 2 <= points g) /\
  (level_named (cf_mutation_lvl cf) \/ level_number (cf_mutation_lvl cf)) /\
  Forall (fun x => exists xs, vector x xs /\ Forall2 in_bounds gens xs) (cf_input_population cf) /\
  Z.of_nat (length (cf_input_population cf)) <= cf_num_individ cf.

Lemma multi_safe : forall fuel cf gray gens fk sel ngm ng F n (G : sval -> Prop) (big : nat -> Prop) lo s,
  multi_shape cf gens -> pareto_task cf F n (in_box gens) -> is_multi_kind fk = true -> mode_ok cf n ->
  new_newgen ngm (cf_transfer cf) = inr ng -> plain_selection sel -> objectives_ok sel ->
  (forall f cl, new_fitness fk (cf_objective cf) (cf_obj_value cf) (cf_input_data cf) (cf_penalty cf) (cf_conditions cf) = inr (f, cl) ->
     forall l gen best i, length l = n -> 0 <= gen -> ranked (rank i) -> exists j, assess f gen best (OTuple l) i = inr j /\ G (score j)) ->
  (forall g gd s, fits g (cf_num_individ cf) (cf_children_percent cf) gd ->
     (forall r, In r (members (population gd)) -> (r < next s)%nat /\ G (score (heap s r))) ->
     big (length (members (population gd))) -> safe (selection_execute fuel sel gd) s) ->
  (forall g gd k, fits g (cf_num_individ cf) (cf_children_percent cf) gd -> num_pairs sel gd k -> (lo <= k)%nat) ->
  (forall g gd s, fits g (cf_num_individ cf) (cf_children_percent cf) gd ->
     (forall r, In r (members (population gd)) -> G (score (heap s r)) /\ ranked (rank (heap s r)) /\
        Forall (gene_ok (ok := fun _ => True)) (genotype (heap s r)) /\ exists ph, phenotype (heap s r) = Some (Some ph)) ->
     big (length (members (population gd))) -> (lo <= length (children gd))%nat -> safe (newgen_execute ng gd) s) ->
  (forall k, big k -> (0 < k)%nat) ->
  (forall g c gd s c' gd' s' kids els h1 h2 rc cs front, c_newgen c = ng -> fits g (cf_num_individ cf) (cf_children_percent cf) gd ->
     big (length (members (population gd))) -> (lo <= length kids)%nat ->
     c_selection c = sel -> MStep F c gd s c' gd' s' kids els h1 h2 rc cs front -> big (length (members (population gd')))) ->
  (forall k, Z.of_nat k = cf_num_individ cf -> big k) -> 0 <= cf_num_individ cf ->
  safe (ga_optimize fuel cf true (GenBinary gray (gens : list bgene) bparams0) fk sel OnePoint new_bin ngm) s.
Proof.
  intros fuel cf gray gens fk sel ngm ng F n G big lo s (Lg & H2 & Hl & Hin & Hnum) (Fl & Fs & Fc & Ft) Mk Hmode Ng Plain Ho Hass Hsel Hpairs Hng Hbig1 Hbig Hstart Hn0.
  destruct (box_prepared gray gens Lg) as (bp & Gp & Pg).
  destruct (C05_decode_in_bounds gray gens Lg) as (bp' & ns & Gp' & En & Fb & D & _). rewrite Gp in Gp'. inversion Gp'; subst bp'. clear Gp'.
  destruct (@prepared_usable Qops gray gens bparams0 _ eq_refl Pg) as (bp' & Eb & Us & ps & Eps & Fps). assert (Eq : bp' = bp) by congruence. rewrite Eq in *. clear Eb Eq bp'.
  assert (Two : 2 <= zsum (num_bits bp)).
  { rewrite En. assert (Hns : Forall (fun n => 1 <= n) ns) by (rewrite <- En; apply Us). destruct H2 as [H2|(g & -> & Hg)].
    - apply zsum_ge in Hns. apply Forall2_length in Fb. lia.
    - inversion Fb as [|? n0 ? ? B F0]; subst. inversion F0; subst. cbn. pose proof (bits_two _ _ B Hg). lia. }
  assert (M : new_bin (cf_mutation_lvl cf) = inr (MutBin (cf_mutation_lvl cf))).
  { unfold new_bin. destruct (cf_mutation_lvl cf) as [st|x|]; destruct Hl as [Hl|Hl]; try contradiction.
    - destruct Hl as [-> |[-> | ->]]; cbn; eauto.
    - unfold out_of_01. cbn in Hl. destruct (_ || _) eqn:E; [|eauto]. exfalso. apply orb_true_iff in E. cbn in E. rewrite !Qltb_iff in E.
      unfold inject_Z in E. change (@num Qops) with Q in *. destruct E; lra. }
  set (g' := @GenBinary Qops gray gens bp) in *.
  destruct (multi_assess cf fk n Mk Hmode) as (f & cl & Nf & Fk & Fo & Fv & Fd & _).
  set (num0 := cf_num_individ cf) in *. set (pop0 := mkPop [] false num0 (@GenBinary Qops gray gens bparams0) (cf_input_population cf)).
  assert (Sp : set_params num0 (@GenBinary Qops gray gens bparams0) (cf_input_population cf) = inr pop0).
  { apply set_params_fits. change (@num Qops) with Q in *. lia. }
  assert (Hinp : Forall (fun x => exists geno, input_genotype g' x = inr geno /\ in_domain g' geno) (cf_input_population cf)).
  { eapply Forall_impl; [|exact Hin]. intros x (xs & Vx & Bx). destruct (C06_input_checked gray gens bp xs Lg Gp) as [Ok _]. destruct (Ok Bx) as (bs & Eb).
    exists (bits_to_geno bs). assert (E : input_genotype g' x = inr (bits_to_geno bs)).
    { unfold g'. cbn [input_genotype]. rewrite (vector_num _ _ Vx). rewrite Eb. reflexivity. }
    split; auto. eapply box_inputs; eauto. }
  unfold ga_optimize. apply safe_bind; [apply safe_do_seed|]. intros u s1 R1. fold num0. rewrite Sp, Nf, M, Ng.
  apply safe_bind; [eapply safe_lift; reflexivity|]. intros p sa Ra. apply lift_ok in Ra. destruct Ra as [Ep ->]. inversion Ep; subst p. clear Ep.
  apply safe_bind; [eapply safe_lift; reflexivity|]. intros fc sb Rb. apply lift_ok in Rb. destruct Rb as [Ep ->]. inversion Ep; subst fc. clear Ep.
  apply safe_bind; [eapply safe_lift; reflexivity|]. intros m0 sc Rc. apply lift_ok in Rc. destruct Rc as [Ep ->]. inversion Ep; subst m0. clear Ep.
  apply safe_bind; [eapply safe_lift; reflexivity|]. intros ng0 sd Rd. apply lift_ok in Rd. destruct Rd as [Ep ->]. inversion Ep; subst ng0. clear Ep.
  apply safe_bind.
  { eapply fill_safe; [exact Pg|exact Us| |].
    - intros gray' gens' bp' E. inversion E; subst. eauto.
    - cbn [input_population]. eapply Forall_impl; [|exact Hinp]. intros x (geno & A & B). eauto. }
  intros p' s2 R2. cbv zeta. cbn [fst snd].
  destruct (set_params_ok _ _ _ _ _ _ _ Sp R2) as (Pg' & Np & _ & Lm). rewrite Z.max_r in Lm by auto. assert (Eg : gspec_of p' = g') by congruence.
  set (gd0 := new_gadata true (cf_num_generations cf) (cf_children_percent cf) (resolved_stop cf) p').
  set (c := mkComps f sel OnePoint (MutBin (cf_mutation_lvl cf)) ng).
  assert (St : multi_started gd0 s2) by (exists num0, gray, gens, bparams0, (cf_input_population cf), pop0, s1, p', (cf_num_generations cf), (cf_children_percent cf), (resolved_stop cf); auto).
  assert (Pi : pop_in gd0 s2).
  { pose proof (fill_in num0 _ _ pop0 s1 p' s2 (cf_num_generations cf) (cf_children_percent cf) (resolved_stop cf) eq_refl Sp R2) as X. apply X.
    intros x geno Ix E. rewrite Eg in *. rewrite Forall_forall in Hinp. destruct (Hinp x Ix) as (geno' & E' & Dm). congruence. }
  assert (Dp : forall pt, domain_point g' pt -> in_box gens pt) by (intros pt Hpt; eapply box_points; eauto).
  assert (Tu : forall k pt v, domain_point g' pt -> called f k pt = inr v -> exists l, v = OTuple l /\ length l = n).
  { intros k pt v Hpt Cv. destruct (Ft k pt (Dp pt Hpt)) as (l & A & Ll). exists l. split; auto. rewrite <- Fo, <- Fd in A. apply called_answers in A. congruence. }
  assert (Rdy : mready (fun _ => True) f sel OnePoint ng g' c).
  { repeat (split; [reflexivity|]). split; [constructor; [discriminate|exact I]|]. split.
    - cbn. destruct (cf_mutation_lvl cf) as [st|x|]; [|exact I|destruct Hl as [[]|[]]].
      assert (El : last (idx_bits bp) 0 = zsum (num_bits bp)) by (rewrite Eps, idx_bits_total, zsum_fold; reflexivity).
      rewrite El. apply not_true_is_false. intros C. apply Qeq_bool_eq in C. unfold Qeq in C. cbn in C. lia.
    - intros x (bs & -> & Lb). rewrite map_length. cbn [min_len]. split; [lia|]. split; [exact I|].
      apply Forall_forall. intros y Hy. apply in_map_iff in Hy. destruct Hy as (b & <- & _). exact I. }
  assert (Run : safe (run_loop fuel c gd0) s2 /\ forall c' gd' s', run_loop fuel c gd0 s2 = Ok (c', gd') s' -> safe (print_best_solution gd') s').
  { enough (K : only (fun _ : exn => False) (run_loop fuel c gd0) s2 /\ forall c' gd' s', run_loop fuel c gd0 s2 = Ok (c', gd') s' -> safe (print_best_solution gd') s') by (destruct K; split; auto using only_safe).
    apply (multi_run_safe (fun _ => True) Qorder counting_exact F n (fun pt => conj (Fl pt) (proj2 (Forall_forall _ _) (fun _ _ => I))) fuel f sel OnePoint ng g' num0 (cf_children_percent cf) G big lo)
      with (Exc := fun _ : exn => False) (lim := Z.max 1 (cf_num_generations cf)) (c := c) (gd := gd0) (s := s2); auto; try lia.
    - rewrite Fk. auto.
    - intros k pt Hpt. rewrite Fo. apply one_arg_answers. apply Fc. auto.
    - intros k pt v Hv. rewrite Fo in Hv. apply one_arg_answers in Hv. eapply Fs; eauto.
    - intros gen best [Hgen _] Hb k pt i Hpt Hr. destruct (Ft k pt (Dp pt Hpt)) as (l & A & Ll). rewrite <- Fo, <- Fd in A. apply called_answers in A.
      destruct (Hass f cl Nf l gen best i Ll Hgen Hr) as (j & Ej & _). exists (OTuple l), j. auto.
    - intros k pt gen best i v j Hpt [Hgen _] Hr Cv Aj. destruct (Tu k pt v Hpt Cv) as (l & -> & Ll).
      destruct (Hass f cl Nf l gen best i Ll Hgen Hr) as (j' & Ej & Gj). congruence.
    - intros gd s0 Fi Hm Hb. apply safe_only. apply (Hsel g'); auto.
    - intros gd k Fi. apply (Hpairs g'). auto.
    - intros gd s0 Fi. apply (Hng g'). auto.
    - intros c0 gd s0 c' gd' s' kids els h1 h2 rc cs front E1 Fi. apply (Hbig g'); auto.
    - intros x (bs & -> & Lb). destruct (D bs) as (ys & Ey & _); [rewrite <- En; auto|]. unfold g'. rewrite (decode_bits _ _ _ _ _ Ey). eauto.
    - apply multi_started_init. auto.
    - split; [exact Eg|]. split; [exact Np|reflexivity].
    - unfold gd0. cbn. unfold resolved_stop. destruct (cf_early_stop cf); eauto.
    - unfold gd0. cbn. lia. }
  destruct Run as [Run1 Run2]. apply safe_bind; [exact Run1|]. intros [c' gd'] s3 R3. cbn [fst snd].
  apply safe_bind; [|intros; apply safe_ret]. destruct (cf_is_print cf); [eapply Run2; exact R3|apply safe_ret].
Qed.

(** C68, VEGA.  Its tournaments have three entrants and one tournament round is held
    per objective; q is the number of objectives it takes from the conditions, or from
    a call of the objective on a list of zeros when there are none. *)
Definition rounds (cf : config) (n : nat) : nat := match cf_conditions cf with Some cl => optimizes cl | None => n end.
Definition zero_call (cf : config) (gens : list qgene) : Prop :=
  match cf_conditions cf with
  | Some _ => True
  | None => forall k, exists v, answers (cf_objective cf) None k (map (fun _ : bgene => GInt 0) gens) (inr (OTuple v))
  end.
Theorem C68_vega : forall fuel cf gray gens F n s, multi_shape cf gens -> pareto_task cf F n (in_box gens) ->
  mode_ok cf n -> target_ok cf n -> zero_call cf gens -> cf_transfer cf = "best" \/ cf_transfer cf = "random" ->
  4 <= cf_num_individ cf -> (1 <= rounds cf n <= n)%nat ->
  1 <= Qtrunc (cf_children_percent cf * inject_Z (cf_num_individ cf) / inject_Z (Z.of_nat (rounds cf n))) ->
  forall e, vega fuel cf gray (gens : list bgene) s <> Err e.
Proof.
  intros fuel cf gray gens F n s Sh Ta Mo Ht Zc Tr Hn Hq Hc. change (safe (vega fuel cf gray (gens : list bgene)) s). unfold vega.
  set (q := rounds cf n) in *. set (num0 := cf_num_individ cf) in *.
  assert (Qw : (q <= width cf n)%nat).
  { unfold q, rounds, width in *. unfold mode_ok in Mo. destruct (cf_penalty cf) as [|[delta c alpha betta|delta b1 b2 betta|]|]; try contradiction; destruct (cf_conditions cf) as [cl|] eqn:Ec; try lia. }
  apply safe_bind.
  { unfold zero_call in Zc. destruct (cf_conditions cf); [apply safe_ret|]. destruct (Zc (length (log s))) as (v & A). apply one_arg_answers in A.
    apply safe_bind; [|intros; apply safe_ret]. intros e. unfold call_list, bind. rewrite (call1_value _ _ _ _ A). discriminate. }
  intros m s1 R1. assert (Em : m = Z.of_nat q).
  { unfold q, rounds, optimizes. destruct (cf_conditions cf) as [cl|] eqn:Ec; [apply ret_ok in R1; destruct R1 as [-> _]; reflexivity|].
    unfold zero_call in Zc. rewrite Ec in Zc. destruct (Zc (length (log s))) as (v & A). pose proof A as B. apply one_arg_answers in A.
    unfold call_list, bind in R1. rewrite (call1_value _ _ _ _ A) in R1. cbn [ret] in R1. inversion R1; subst m.
    destruct Ta as (Fl & Fs & _). rewrite (Fs _ _ _ B), Fl. reflexivity. }
  subst m. clear R1.
  assert (Ng : exists ng, new_newgen false (cf_transfer cf) = inr ng /\ ng_multi ng = false) by (destruct Tr as [-> | ->]; cbn; eauto).
  destruct Ng as (ng & Ng & Ngm).
  assert (Pw : forall gd, children_percent gd = cf_children_percent cf -> num_individ (population gd) = num0 ->
    pairs_wanted (Some (Z.of_nat q)) gd (Qtrunc (cf_children_percent cf * inject_Z num0 / inject_Z (Z.of_nat q)))).
  { intros gd Ec En. cbn [pairs_wanted]. eexists. split; [|reflexivity]. rewrite Ec, En. unfold py_div. cbn. destruct (Qeq_bool _ _) eqn:E; [|reflexivity].
    apply Qeq_bool_eq in E. unfold Qeq in E. cbn in E. lia. }
  apply (multi_safe fuel cf gray gens VegaHyperbola (SelVegaTournament (Z.of_nat q) 3) false ng F n (fun v => exists l : list num, v = SVL l /\ length l = width cf n) (fun k => num0 <= Z.of_nat k) 1%nat); auto; try exact I.
  - intros f cl Nf l gen best i Ll Hg _. destruct (multi_assess cf VegaHyperbola n eq_refl Mo) as (f' & cl' & Nf' & Fk & Fo & Fv & _ & As). rewrite Nf in Nf'. inversion Nf'; subst f' cl'.
    destruct (As l gen best i Ll Hg) as (xs & pen & i' & Lx & Hp & Eo & _ & Ea). destruct (vega_assess cf n f l gen best i xs pen i' Fk Fv Ht Lx Hp Eo Ea) as (j & ys & Ej & Sj & Ly). eauto 10.
  - intros g gd s0 (_ & En & Ecp) Hm Hb. apply (vega_selection_safe fuel _ _ gd s0 (width cf n)); try lia; auto. eexists. apply Pw; auto.
  - intros g gd k (_ & En & Ecp) (x & Hx & ->). rewrite Nat2Z.id. specialize (Hx ltac:(lia)). rewrite (pairs_wanted_fun _ _ _ _ Hx (Pw gd Ecp En)). nia.
  - intros g gd s0 (_ & En & Ecp) Hm Hb Hk. apply (newgen_single_safe_sorted (fun _ => True)); auto.
    + apply Qorder.
    + intros E. rewrite E in Hb. cbn in Hb. lia.
    + apply sort_safe_lists. intros r Hr. destruct (Hm r Hr) as ((l & E & _) & _). exists l. unfold key_of. rewrite E. reflexivity.
    + intros r Hr. apply Hm; auto.
    + rewrite En. lia.
  - intros k Hk. lia.
  - intros g c gd s0 c' gd' s' kids els h1 h2 rc cs front Ec (_ & En & _) Hb Hk _ St.
    destruct (ms_taken_single _ _ _ _ _ _ _ _ _ _ _ _ _ _ St) as (l & s2 & P & _ & Tk); [rewrite Ec; auto|].
    pose proof (ms_perm _ _ _ _ _ _ _ _ _ _ _ _ _ _ St) as P2. apply Permutation_length in P, P2. rewrite app_length in P2. apply taken_length in Tk; [|lia].
    unfold num0 in *. rewrite En in Tk. rewrite P2, Tk. clear Tk. destruct (0 <? _) eqn:E0; [apply Z.ltb_lt in E0|apply Z.ltb_ge in E0]; lia.
  - intros k Hk. lia.
  - lia.
Qed.

(** C68, FFGA.  Its 'random' replacement samples ten individuals besides the last. *)
Theorem C68_ffga : forall fuel cf gray gens F n s, multi_shape cf gens -> pareto_task cf F n (in_box gens) -> mode_ok cf n ->
  cf_transfer cf = "best" /\ 1 <= cf_num_individ cf \/ cf_transfer cf = "random" /\ 11 <= cf_num_individ cf ->
  1 <= Qtrunc (cf_children_percent cf * inject_Z (cf_num_individ cf)) ->
  forall e, ffga fuel cf gray (gens : list bgene) s <> Err e.
Proof.
  intros fuel cf gray gens F n s Sh Ta Mo Tr Hc. change (safe (ffga fuel cf gray (gens : list bgene)) s). unfold ffga. set (num0 := cf_num_individ cf) in *.
  assert (Ng : exists ng, new_newgen true (cf_transfer cf) = inr ng /\ ng_multi ng = true /\ 1 <= num0 /\ (ng_transfer ng = TRandom -> 11 <= num0)).
  { destruct Tr as [[-> Hn]|[-> Hn]]; cbn; eexists; (split; [reflexivity|]); (split; [reflexivity|]); cbn; (split; [lia|]); [discriminate|auto]. }
  destruct Ng as (ng & Ng & Ngm & Hn & Hr).
  assert (Pw : forall gd, children_percent gd = cf_children_percent cf -> num_individ (population gd) = num0 ->
    pairs_wanted None gd (Qtrunc (cf_children_percent cf * inject_Z num0))) by (intros gd Ec En; cbn [pairs_wanted]; rewrite Ec, En; reflexivity).
  apply (multi_safe fuel cf gray gens Ffga SelBalanced true ng F n (fun v => exists x : Q, v = SV1 (x : @num Qops) /\ (0 < x)%Q)
           (fun k => (1 <= k)%nat /\ (ng_transfer ng = TRandom -> (11 <= k)%nat)) 1%nat); auto; try exact I.
  - intros f cl Nf l gen best i Ll Hg Hk. destruct (multi_assess cf Ffga n eq_refl Mo) as (f' & cl' & Nf' & Fk & _ & _ & _ & As). rewrite Nf in Nf'. inversion Nf'; subst f' cl'.
    destruct (As l gen best i Ll Hg) as (xs & pen & i' & _ & _ & _ & Er & Ea). destruct (ffga_assess f l gen best i pen i' Fk Er Hk Ea) as (j & x & Ej & Sj & Hx). eauto 10.
  - intros g gd s0 (_ & En & Ecp) Hm (Hb & _). apply balanced_selection_safe; auto; [intros E; rewrite E in Hb; cbn in Hb; lia|]. eexists. apply Pw; auto.
  - intros g gd k (_ & En & Ecp) (x & Hx & ->). rewrite (pairs_wanted_fun _ _ _ _ Hx (Pw gd Ecp En)). lia.
  - intros g gd s0 (_ & En & Ecp) Hm (_ & Hb) Hk. apply newgen_multi_safe; auto. intros r Ir. destruct (Hm r Ir) as (_ & A & _ & B). auto.
  - intros k [Hk _]. lia.
  - intros g c gd s0 c' gd' s' kids els h1 h2 rc cs front Ec (_ & En & _) (Hb & Hb2) Hk Es St.
    pose proof (ms_taken _ _ _ _ _ _ _ _ _ _ _ _ _ _ St) as Tk. rewrite Ec, Es in Tk. specialize (Tk Ngm I). unfold multi_taken in Tk.
    pose proof (ms_perm _ _ _ _ _ _ _ _ _ _ _ _ _ _ St) as P2. apply Permutation_length in P2. rewrite app_length in P2. rewrite P2. split; [lia|].
    intros Er. rewrite Er in Tk. destruct Tk as (l0 & b & e & _ & Pk & ->). apply picks_length in Pk. rewrite app_length, Pk. cbn. lia.
  - intros k Hk. split; [lia|]. intros E. specialize (Hr E). lia.
  - lia.
Qed.

(** *** Examples *)
Definition pair_values (genes : list gv) : list Q :=
  let x := number_of (nth 0 genes (GInt 0)) in let y := number_of (nth 1 genes (GInt 0)) in [(x * x + y * y)%Q; ((x - 1) * (x - 1) + y * y)%Q].
Definition quad_values (genes : list gv) : list Q :=
  let x := number_of (nth 0 genes (GInt 0)) in let y := number_of (nth 1 genes (GInt 0)) in [(x - y)%Q; (x * x + y * y)%Q; (y - 1)%Q; ((x - 1) * (x - 1) + y * y)%Q].
Definition pure (F : list gv -> list Q) : objfun := Obj1 (fun _ genes => inr (OTuple (F genes : list (@num Qops)))).
Definition pareto_cf (F : list gv -> list Q) (num : Z) (tg : obj_target) (p : penalty_arg) (cl : option (list string)) (tr : string) : config :=
  mkCfg 4 num (pure F) tg None p cl (1#2) None [] 2 (LStr "normal") tr true.
Lemma pareto_shape : forall F num tg p cl tr, 0 <= num -> multi_shape (pareto_cf F num tg p cl tr) box.
Proof.
  intros F num tg p cl tr H. split; [repeat constructor; vm_compute; congruence|]. split; [left; cbn; lia|]. split; [left; right; left; reflexivity|]. split; [constructor|cbn; lia].
Qed.
Lemma pareto_meets : forall F n num tg p cl tr sp, (forall pt, length (F pt) = n) -> pareto_task (pareto_cf F num tg p cl tr) F n sp.
Proof.
  intros F n num tg p cl tr sp L. split; auto. split; [intros k pt v A; inversion A; subst; reflexivity|]. split; [intros k pt _; exact (answer_1 _ k pt)|].
  intros k genes _. exists (F genes). split; [exact (answer_1 _ k genes)|auto].
Qed.
Definition signs4 : list string := ["<="; "optimize"; "!="; "optimize"].
Lemma signs4_ok : Forall (fun c => sign c \/ c = "optimize") signs4.
Proof. unfold signs4, sign. constructor; [left; left; reflexivity|]. constructor; [right; reflexivity|]. constructor; [left; right; reflexivity|]. constructor; [right; reflexivity|constructor]. Qed.
Definition dyn : penalty_arg := PPen (Dynamic (1%Q : num) (1#2)%Q (natural 2) (natural 2)).
(** VEGA: all values are objectives, without and with a target; two of four are. *)
Example C68_vega_plain : forall fuel gray s e tr, tr = "best" \/ tr = "random" ->
  vega fuel (pareto_cf pair_values 4 TNone PNone None tr) gray (box : list bgene) s <> Err e.
Proof.
  intros fuel gray s e tr Ht. apply (C68_vega fuel _ gray box pair_values 2 s); [apply pareto_shape; lia|apply pareto_meets; reflexivity|exact I|exact I| |exact Ht|cbn; lia|cbn; lia|vm_compute; discriminate].
  intros k. eexists. exact (answer_1 _ k _).
Qed.
Example C68_vega_conditional : forall fuel gray s e,
  vega fuel (pareto_cf quad_values 8 (TL [(0%Q : num); 0%Q]) dyn (Some signs4) "random") gray (box : list bgene) s <> Err e.
Proof.
  intros fuel gray s e. apply (C68_vega fuel _ gray box quad_values 4 s); [apply pareto_shape; lia|apply pareto_meets; reflexivity| | |exact I|right; reflexivity|cbn; lia|cbn; lia|vm_compute; discriminate].
  - split; [split; [split; vm_compute; discriminate|split; eexists; apply natural_exponent]|]. exists signs4. split; [reflexivity|]. split; [reflexivity|]. split; [lia|].
    apply signs4_ok.
  - cbn. lia.
Qed.
(** FFGA. *)
Example C68_ffga_plain : forall fuel gray s e num tr, tr = "best" /\ 2 <= num <= 100 \/ tr = "random" /\ 11 <= num <= 100 ->
  ffga fuel (pareto_cf pair_values num (T1 (3%Q : @Num.num Qops)) PNone None tr) gray (box : list bgene) s <> Err e.
Proof.
  intros fuel gray s e num tr H. assert (Hn : 2 <= num) by lia. apply (C68_ffga fuel _ gray box pair_values 2 s); [apply pareto_shape; lia|apply pareto_meets; reflexivity|exact I|cbn; destruct H as [[-> ?]|[-> ?]]; [left|right]; (split; [reflexivity|lia])|].
  change (1 <= Z.quot (1 * num) 2). apply Z.quot_le_lower_bound; lia.
Qed.
Example C68_ffga_conditional : forall fuel gray s e,
  ffga fuel (pareto_cf quad_values 4 TNone dyn (Some signs4) "best") gray (box : list bgene) s <> Err e.
Proof.
  intros fuel gray s e. apply (C68_ffga fuel _ gray box quad_values 4 s); [apply pareto_shape; lia|apply pareto_meets; reflexivity| |left; split; [reflexivity|cbn; lia]|vm_compute; discriminate].
  split; [split; [split; vm_compute; discriminate|split; eexists; apply natural_exponent]|]. exists signs4. split; [reflexivity|]. split; [reflexivity|]. split; [lia|].
  apply signs4_ok.
Qed.
(** Such runs: generations, calls of the objective, population and Pareto set sizes. *)
Definition front_of (o : outcome (gadata * option (list string))) :=
  observe (fun r s => (idx_generation (fst r), length (log s), length (members (population (fst r))), match best_solution (fst r) with BPareto set _ => length set | _ => 0%nat end)) o.
Example C68_cases :
  front_of (vega 50 (pareto_cf pair_values 6 TNone PNone None "best") true (box : list bgene) wide_world) = Some (4, 169%nat, 7%nat, 2%nat) /\
  front_of (vega 50 (pareto_cf quad_values 8 (TL [(0%Q : num); 0%Q]) dyn (Some signs4) "random") true (box : list bgene) wide_world) = Some (4, 292%nat, 9%nat, 7%nat) /\
  front_of (ffga 50 (pareto_cf quad_values 4 TNone dyn (Some signs4) "best") true (box : list bgene) wide_world) = Some (4, 120%nat, 8%nat, 8%nat).
Proof. repeat split; run. Qed.
(** Just outside the hypotheses: three individuals, a number or a short list as target,
    more 'optimize' than values, the adaptive penalty, another sign; for FFGA 'random'
    with ten individuals, the adaptive penalty, an empty population. *)
Definition adaptive_arg : penalty_arg := PPen (Adaptive ((1#3)%Q : num) 2%Q 3%Q (natural 1)).
Definition vega_error (F : list gv -> list Q) (num : Z) tg p cl := kind (vega 50 (pareto_cf F num tg p cl "best") true (box : list bgene) wide_world).
Definition ffga_error (F : list gv -> list Q) (num : Z) p cl tr := kind (ffga 50 (pareto_cf F num TNone p cl tr) true (box : list bgene) wide_world).
Example C68_outside_cases :
  vega_error pair_values 3 TNone PNone None = Some (PyException "size of tournament") /\
  vega_error pair_values 6 (T1 (0%Q : num)) PNone None = Some TypeError /\
  vega_error pair_values 6 (TL [(0%Q : num)]) PNone None = Some IndexError /\
  vega_error pair_values 6 TNone PNone (Some ["optimize"; "optimize"; "optimize"]) = Some IndexError /\
  vega_error quad_values 8 TNone adaptive_arg (Some signs4) = Some KeyError /\
  vega_error quad_values 8 TNone dyn (Some ["<="; "optimize"; ">="; "optimize"]) = Some bad_sign /\
  ffga_error pair_values 10 PNone None "random" = Some ValueError /\
  ffga_error quad_values 8 adaptive_arg (Some signs4) "best" = Some KeyError /\
  ffga_error pair_values 0 PNone None "best" = Some IndexError.
Proof. repeat split; run. Qed.
Print Assumptions C68_vega.
Print Assumptions C68_ffga.
