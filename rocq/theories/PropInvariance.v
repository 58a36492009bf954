(** C61: a run depends on the objective only through the order of its values.
    C62: with a fixed seed the result does not depend on anything that happened before. *)
From Coq Require Import String.
From Coq Require Import ZArith QArith Qabs List Bool Lia Lqa.
From Verif Require Import Spec Num State Binary Population GaData Crossover Mutation Selection Penalty Fitness NewGeneration Driver
  ListLemmas Rnd Exec Laws PopulationProofs FitnessProofs AssessProofs SeedProofs RelProofs PropRun PropBest PropFitness PropPareto PropSeed Demo.
Import ListNotations.
Open Scope list_scope.
Open Scope Z_scope.

(** *** What is compared *)
Section Course.
  Context {NO : NumOps}.
  (** Nothing is stored at addresses that are not yet in use. *)
  Definition clean (s : st) : Prop := forall r, (next s <= r)%nat -> heap s r = blank_individ.
  (** What [view] shows of the two runs is the same: run 1 from [s] to [s1], run 2 from [t] to [t1]. *)
  Record same_course {V} (view : individ -> V) (s t : st) (gd1 gd2 : gadata) (s1 t1 : st) : Prop := {
    sc_calls : exists c d, log s1 = c ++ log s /\ log t1 = d ++ log t /\ map fst c = map fst d;
    sc_created : (next s1 - next s = next t1 - next t)%nat;
    sc_population : map (fun r => view (heap s1 r)) (members (population gd1)) = map (fun r => view (heap t1 r)) (members (population gd2));
    sc_parents : map (fun r => view (heap s1 r)) (parents gd1) = map (fun r => view (heap t1 r)) (parents gd2);
    sc_children : map (fun r => view (heap s1 r)) (children gd1) = map (fun r => view (heap t1 r)) (children gd2);
    sc_pareto : map (map (fun r => view (heap s1 r))) (hist_pareto gd1) = map (map (fun r => view (heap t1 r))) (hist_pareto gd2);
    sc_generations : idx_generation gd1 = idx_generation gd2;
    sc_counter : no_improve gd1 = no_improve gd2;
    sc_best : match best_solution gd1, best_solution gd2 with
              | BNone, BNone => True
              | BSingle i g, BSingle j h => view i = view j /\ g = h
              | BPareto l g, BPareto m h => map view l = map view m /\ g = h
              | _, _ => False
              end }.
  Definition same_outcome {V} (view : individ -> V) (s t : st) (o1 o2 : outcome (gadata * option (list string))) : Prop :=
    match o1, o2 with
    | Ok (gd1, c1) s1, Ok (gd2, c2) t1 => c1 = c2 /\ same_course view s t gd1 gd2 s1 t1
    | Err e1, Err e2 => e1 = e2
    | NoFuel, NoFuel => True
    | _, _ => False
    end.

  (** Both states draw from the same generator. *)
  Definition same_generator (s t : st) : Prop := tape s = tape t /\ ent s = ent t /\ rnd_seed s = rnd_seed t /\ prng s = prng t.
  (** Nothing made before is looked at. *)
  Definition nothing (r r' : nat) : Prop := False.
  Lemma nothing_one : forall a b a' b', nothing a b -> nothing a' b' -> (a = a' <-> b = b'). Proof. intros a b a' b' []. Qed.
  Lemma nothing_old : forall n1 n2 a b, nothing a b -> (a < n1)%nat /\ (b < n2)%nat. Proof. intros n1 n2 a b []. Qed.
  Local Hint Resolve nothing_one nothing_old : core.
  Lemma sim_start : forall R (O : sval -> sval -> Prop) s t, O SVNone SVNone -> clean s -> clean t -> same_generator s t -> sim (next s) (next t) (log s) (log t) nothing R O s t.
  Proof.
    intros R O s t On Cs Ct (G1 & G2 & G3 & G4). constructor; auto.
    - intros r r' [[]|(i & -> & ->)]. rewrite Cs, Ct by lia. constructor; auto; constructor.
    - exists 0%nat. lia.
    - exists [], []. auto.
  Qed.
  Lemma sim_end : forall R O mult V (view : individ -> V) s t o1 o2, (forall i j, irel R O i j -> view i = view j) ->
    orel (next s) (next t) (log s) (log t) nothing R O (outrel (next s) (next t) nothing R O mult) o1 o2 -> same_outcome view s t o1 o2.
  Proof.
    intros R O mult V view s t [[gd1 c1] s1|e|] [[gd2 c2] t1|e'|] Hv H; cbn in *; try contradiction; auto. destruct H as [[G E] S]. cbn [fst snd] in *. split; auto.
    assert (L : forall l m, Forall2 (rr (next s) (next t) nothing) l m -> map (fun r => view (heap s1 r)) l = map (fun r => view (heap t1 r)) m).
    { intros l m F. induction F as [|r r' l m Hr F IH]; cbn; auto. f_equal; auto. apply Hv, S, Hr. }
    assert (B : forall l m, Forall2 (irel R O) l m -> map view l = map view m).
    { intros l m F. induction F as [|r r' l m Hr F IH]; cbn; auto. f_equal; auto. }
    destruct G as [Gm Gg Gn [Pm Ps Pn Pg Pi] Gpa Gc Gb Gd Gw Gph Gs Gnu Ge Gcp]. constructor; auto; try apply S.
    - destruct (sm_next _ _ _ _ _ _ _ _ _ S) as (i & -> & ->). lia.
    - clear - Gph L. induction Gph; cbn; f_equal; auto.
    - destruct Gs; auto.
  Qed.

  (** *** C62 *)
  (** The objective gives the same answer whenever it is called with the same arguments. *)
  Definition stateless (o : objfun) : Prop := forall d k k' p r, answers o d k p r -> answers o d k' p r.
  Definition same_num (k : nat) (a b : num) : Prop := a = b.
  Lemma lrel_refl : forall l k, lrel same_num k l l.
  Proof. induction l; cbn; auto. intros. split; [reflexivity|auto]. Qed.
  Lemma vrel_refl : forall v, vrel same_num v v.
  Proof. destruct v; constructor; [reflexivity|apply lrel_refl]. Qed.
  Lemma same_num_eq : forall k a b, same_num k a b -> a = b. Proof. auto. Qed.
  Lemma irel_same : forall i j, irel same_num eq i j -> i = j.
  Proof.
    intros [g p sc ob f x r] [g' p' sc' ob' f' x' r'] [E1 E2 E3 E4 E5 E6 E7]; cbn in *. f_equal; auto. apply (vrel_same same_num); auto; exact same_num_eq.
  Qed.
  Lemma called_stateless : forall f k k' genes, stateless (obj_function f) -> called f k genes = called f k' genes.
  Proof. intros f k k' genes H. symmetry. apply called_answers. apply (H _ k). apply called_answers. reflexivity. Qed.
  Lemma called1_answers : forall o k genes r, called1 o k genes = r <-> answers o None k genes r.
  Proof.
    intros o k genes r. split.
    - intros <-. destruct o; constructor.
    - intros H. inversion H; subst; auto.
  Qed.
  Lemma brel_same : forall b b', brel same_num eq b b' -> b = b'.
  Proof. intros b b' [|i j g H|l m g H]; auto; f_equal; [apply irel_same; auto|]. apply F2_eq. eapply Forall2_impl; [|exact H]. apply irel_same. Qed.
  Lemma agree_same : forall h1 h2 f, stateless (obj_function f) -> agree h1 h2 same_num eq f f.
  Proof.
    intros h1 h2 f SL j genes gen b1 b2 i1 i2 I _ B. apply irel_same in I. apply brel_same in B. subst i2 b2. rewrite (called_stateless f (j + length h1) (j + length h2)); auto.
    destruct (called f (j + length h2) genes); auto. destruct (assess f gen b1 o i1); cbn; auto. constructor; auto; apply vrel_refl.
  Qed.
  Lemma agree1_same : forall h1 h2 o, stateless o -> agree1 h1 h2 eq o o.
  Proof.
    intros h1 h2 o SL j genes. assert (E : called1 o (j + length h1) genes = called1 o (j + length h2) genes).
    { symmetry. apply called1_answers. apply (SL _ (j + length h1)%nat). apply called1_answers. reflexivity. }
    rewrite E. clear E. destruct (called1 o (j + length h2) genes) as [e|[x|l]]; auto.
  Qed.
  (** Equal objective values. *)
  Lemma eq_eqb : forall v w x y : sval, v = x -> w = y -> sv_eqb v w = sv_eqb x y. Proof. congruence. Qed.
  Lemma eq_len : forall l m : list num, SVL l = SVL m -> length l = length m. Proof. congruence. Qed.
  Lemma eq_max : forall l m l' m' : list num, SVL l = SVL l' -> SVL m = SVL m' ->
    match max_score l m, max_score l' m' with inl e, inl e' => e = e' | inr a, inr b => lst_eqb a l = lst_eqb b l' /\ lst_eqb a m = lst_eqb b m' | _, _ => False end.
  Proof. intros l m l' m' A B. inversion A. inversion B. destruct (max_score l' m'); auto. Qed.
  Lemma settings_refl : forall cf, same_settings cf cf.
  Proof. intros. repeat split. Qed.
  (** The same generator and different heaps and earlier calls. *)
  Theorem C62_no_history : forall fuel cf a s t, stateless (cf_objective cf) -> clean s -> clean t -> same_generator s t ->
    same_outcome (fun i => i) s t (optimize fuel cf a s) (optimize fuel cf a t).
  Proof.
    intros fuel cf a s t SL Cs Ct G. apply (sim_end same_num eq True); [apply irel_same|].
    assert (E1 : forall k a b x y, same_num k a x -> same_num k b y -> nltb a b = nltb x y) by (unfold same_num; congruence).
    assert (E2 : forall k a b x y, same_num k a x -> same_num k b y -> neqb a b = neqb x y) by (unfold same_num; congruence).
    assert (FF : forall fk, erel (frel (log s) (log t) same_num eq True) (fitness_of fk cf) (fitness_of fk cf)).
    { intros fk. assert (SF : forall fc, fitness_of fk cf = inr fc -> obj_function (fst fc) = cf_objective cf).
      { unfold fitness_of, new_fitness. intros fc H. destruct (cf_penalty cf) as [|p|]; [inversion H; reflexivity| |discriminate].
        destruct (_ <=? 1); [inversion H; reflexivity|]. destruct (is_multi_kind fk); [inversion H; reflexivity|]. destruct (index_of _ _); [inversion H; reflexivity|discriminate]. }
      destruct (fitness_of fk cf) as [e|fc]; cbn; auto. specialize (SF _ eq_refl). split; [apply agree_same; rewrite SF; auto|]. split; auto. split; auto. intros _. split; auto.
      apply agree1_same; rewrite SF; auto. }
    assert (SS : same_scores same_num) by exact same_num_eq.
    assert (H : rel (next s) (next t) (log s) (log t) nothing same_num eq (outrel (next s) (next t) nothing same_num eq True) (optimize fuel cf a) (optimize fuel cf a));
      [|exact (H s t (sim_start same_num eq s t eq_refl Cs Ct G))].
    destruct a; cbn [optimize]; unfold binary_ga, combinatory_ga, categorical_ga, ffga; try (apply rel_ga_optimize; auto using settings_refl; intros _; [apply eq_eqb|apply eq_max]).
    apply rel_vega; auto using settings_refl; [intros _; apply eq_eqb|intros _; apply eq_len|intros _; apply eq_max|apply agree1_same; auto].
  Qed.
  (** With a fixed seed the generators may differ too: nothing that happened before matters. *)
  Theorem C62_reproducible : forall fuel cf a s t z, stateless (cf_objective cf) -> clean s -> clean t ->
    rnd_seed s = Some z -> rnd_seed t = Some z -> prng s = prng t ->
    same_outcome (fun i => i) s t (optimize fuel cf a s) (optimize fuel cf a t).
  Proof.
    intros fuel cf a s t z SL Cs Ct Zs Zt P. set (s' := set_tape (tape t) (set_ent (ent t) s)).
    assert (S : same_but_random s s') by (constructor; reflexivity).
    pose proof (C58_reproducible fuel cf a s s' z Zs S) as A.
    assert (B : same_outcome (fun i => i) s' t (optimize fuel cf a s') (optimize fuel cf a t)).
    { apply C62_no_history; auto. repeat split; cbn; congruence. }
    destruct (optimize fuel cf a s) as [[gd c] s1|e|], (optimize fuel cf a s') as [[gd' c'] s1'|e'|]; cbn in A; try contradiction; auto; [|subst; auto].
    destruct A as [E [H1 H2 H3 H4 H5]]. inversion E; subst gd' c'. destruct (optimize fuel cf a t) as [[gd2 c2] t1|e2|]; cbn in B |- *; try contradiction; auto. destruct B as [-> B].
    split; auto. destruct B as [B1 B2 B3 B4 B5 B6 B7 B8 B9]. rewrite <- H1, <- H2, <- ?H5 in *. constructor; auto.
  Qed.
End Course.
#[local] Hint Resolve nothing_one nothing_old : core.

(** *** C61: statements *)
Local Existing Instance Qops.
(** The same settings with another objective function and another target. *)
Definition with_task {NO : NumOps} (o : objfun) (t : obj_target) (cf : config) : config :=
  mkCfg (cf_num_generations cf) (cf_num_individ cf) o t (cf_input_data cf) (cf_penalty cf) (cf_conditions cf) (cf_children_percent cf)
        (cf_early_stop cf) (cf_input_population cf) (cf_tournament_size cf) (cf_mutation_lvl cf) (cf_transfer cf) (cf_is_print cf).
(** No penalty method, or nothing to penalise. *)
Definition unpenalised {NO : NumOps} (cf : config) : Prop :=
  cf_penalty cf = PNone \/ match cf_conditions cf with Some cl => (length cl <= 1)%nat | None => True end.
(** The objective value x is strictly preferred to y: smaller, or nearer to the target. *)
Definition preferred (t : @obj_target Qops) (x y : Q) : Prop :=
  match t with
  | TNone => (x < y)%Q
  | T1 v => (Qabs (v - x) < Qabs (v - y))%Q
  | TL _ => False
  end.
Definition scalar_target (t : @obj_target Qops) : Prop := match t with TL _ => False | _ => True end.
(** Both objectives fail for the same calls in the same way or return results of the same shape. *)
Definition same_shape (o1 o2 : @objfun Qops) (d : option pyobj) : Prop :=
  forall k p r1 r2, answers o1 d k p r1 -> answers o2 d k p r2 ->
    match r1, r2 with
    | inl e1, inl e2 => e1 = e2
    | inr (OScalar _), inr (OScalar _) => True
    | inr (OTuple l1), inr (OTuple l2) => length l1 = length l2
    | _, _ => False
    end.
(** Any two calls are ordered in the same way. *)
Definition same_preferences (o1 o2 : @objfun Qops) (t1 t2 : obj_target) (d : option pyobj) : Prop :=
  forall k p k' p' x x' y y', answers o1 d k p (inr (OScalar x)) -> answers o1 d k' p' (inr (OScalar x')) ->
     answers o2 d k p (inr (OScalar y)) -> answers o2 d k' p' (inr (OScalar y')) ->
     (preferred t1 x x' <-> preferred t2 y y').
(** A call of both objectives, with input_data or with the genes alone. *)
Definition both_respond (o1 o2 : @objfun Qops) (d : option pyobj) (k : nat) (p : list gv) (l m : list Q) : Prop :=
  (answers o1 d k p (inr (OTuple l)) /\ answers o2 d k p (inr (OTuple m))) \/ (answers o1 None k p (inr (OTuple l)) /\ answers o2 None k p (inr (OTuple m))).
(** In every component any two results are ordered in the same way. *)
Definition same_components (o1 o2 : @objfun Qops) (d : option pyobj) : Prop :=
  forall k p k' p' l l' m m' c x x' y y', both_respond o1 o2 d k p l m -> both_respond o1 o2 d k' p' l' m' ->
    nth_error l c = Some x -> nth_error l' c = Some x' -> nth_error m c = Some y -> nth_error m' c = Some y' ->
    ((x < x')%Q <-> (y < y')%Q).
(** Everything but the scores and the objective values. *)
Definition point {NO : NumOps} (i : individ) := (genotype i, phenotype i, feasible i, idx_individ i, rank i).
Definition single_objective {NO : NumOps} (a : algorithm) : Prop := match a with BinaryGA _ _ | CombinatoryGA _ _ _ | CategoricalGA _ => True | _ => False end.

(** *** Proofs *)
Lemma irel_point : forall R O i j, @irel Qops R O i j -> point i = point j.
Proof. intros R O i j []. unfold point. congruence. Qed.
Lemma inverse_lt : forall a b : Q, (1 <= a)%Q -> (1 <= b)%Q -> ((1 / a < 1 / b)%Q <-> (b < a)%Q).
Proof.
  intros a b Ha Hb. split; intros H.
  - apply Qnot_le_lt. intros L. apply (Qlt_not_le _ _ H). apply Qle_shift_div_l; [lra|]. setoid_replace (1 / b * a)%Q with (a / b)%Q by (field; lra). apply Qle_shift_div_r; lra.
  - apply Qlt_shift_div_l; [lra|]. setoid_replace (1 / a * b)%Q with (b / a)%Q by (field; lra). apply Qlt_shift_div_r; lra.
Qed.
Lemma score_order : forall (f : @fitness Qops) x x' a a', score_of f x nzero = inr a -> score_of f x' nzero = inr a' ->
  (nltb a a' = true <-> preferred (obj_value f) x' x).
Proof.
  intros f x x' a a'. change (@num Qops) with Q in *. unfold score_of. destruct (obj_value f) as [|t|l]; cbn [preferred]; [| |discriminate].
  - intros E E'. apply inr_inj in E. apply inr_inj in E'. subst a a'. unfold neg_score. change (@nltb Qops) with Qltb. rewrite Qltb_iff. cbn. change (nofZ 0) with 0%Q. split; intros; lra.
  - unfold nzero. change (nofZ 0) with 0%Q. rewrite !hyper_Q by lra. intros E E'. apply inr_inj in E. apply inr_inj in E'. subst a a'.
    change (@nltb Qops) with Qltb. rewrite Qltb_iff. pose proof (nabs_Qabs (t - x)) as N. pose proof (nabs_Qabs (t - x')) as N'.
    pose proof (Qabs_nonneg (t - x)) as P. pose proof (Qabs_nonneg (t - x')) as P'. rewrite inverse_lt; [rewrite N, N'; split; intros; lra| |]; rewrite ?N, ?N'; lra.
Qed.
Lemma eqb_lt : forall a b x y : Q, nltb a b = nltb x y -> nltb b a = nltb y x -> neqb a b = neqb x y.
Proof.
  intros a b x y H K. change (@num Qops) with Q in *. apply Bool.eq_iff_eq_true. apply Bool.eq_iff_eq_true in H. apply Bool.eq_iff_eq_true in K.
  change (@nltb Qops) with Qltb in *. rewrite !Qltb_iff in *. change (@neqb Qops) with Qeq_bool. rewrite !Qeq_bool_iff. split; intros E; destruct (Q_dec a b) as [[L|L]|L], (Q_dec x y) as [[M|M]|M]; auto; exfalso; try lra;
    try (apply H in L; lra); try (apply K in L; lra); try (apply H in M; lra); try (apply K in M; lra).
Qed.
Lemma fitness_plain : forall fk cf o2 t2, unpenalised cf ->
  (exists e, fitness_of fk cf = inl e /\ fitness_of fk (with_task o2 t2 cf) = inl e) \/
  (exists f1 f2, fitness_of fk cf = inr (f1, cf_conditions cf) /\ fitness_of fk (with_task o2 t2 cf) = inr (f2, cf_conditions cf) /\
    fkind f1 = fk /\ is_conditional f1 = false /\ obj_function f1 = cf_objective cf /\ obj_value f1 = cf_obj_value cf /\ input_data f1 = cf_input_data cf /\
    fkind f2 = fk /\ is_conditional f2 = false /\ obj_function f2 = o2 /\ obj_value f2 = t2 /\ input_data f2 = cf_input_data cf).
Proof.
  intros fk cf o2 t2 U. unfold fitness_of. destruct (new_fitness fk (cf_objective cf) _ _ _ _) as [e|[f1 c1]] eqn:E1.
  - left. exists e. split; auto. revert E1. unfold new_fitness. cbn. destruct (cf_penalty cf) as [|p|] eqn:Ep; [discriminate| |auto].
    destruct U as [U|U]; [congruence|]. destruct (Z.leb_spec (Z.of_nat (length match cf_conditions cf with Some l => l | None => ["optimize"%string] end)) 1); [discriminate|]. destruct (cf_conditions cf); cbn [length] in *; lia.
  - right. destruct (new_fitness fk o2 t2 (cf_input_data cf) (cf_penalty cf) (cf_conditions cf)) as [e|[f2 c2]] eqn:E2.
    + exfalso. revert E1 E2. unfold new_fitness. destruct (cf_penalty cf) as [|p|]; try discriminate. destruct (_ <=? 1); [discriminate|].
      destruct (is_multi_kind fk); [discriminate|]. destruct (index_of _ _); discriminate.
    + destruct (new_fitness_plain _ _ _ _ _ _ _ _ E1 U) as (A1 & A2 & A3 & A4 & A5 & A6). destruct (new_fitness_plain _ _ _ _ _ _ _ _ E2 U) as (B1 & B2 & B3 & B4 & B5 & B6).
      exists f1, f2. subst c1 c2. cbn. auto 15.
Qed.
Lemma score_defined : forall (f : @fitness Qops) x, scalar_target (obj_value f) -> exists a, score_of f x nzero = inr a.
Proof.
  intros f x S. unfold score_of. destruct (obj_value f) as [|t|]; [eauto| |contradiction]. unfold nzero. change (nofZ 0) with 0%Q. change (@num Qops) with Q in *. rewrite hyper_Q by lra. eauto.
Qed.
Lemma with_settings : forall cf o t, same_settings cf (with_task o t cf).
Proof. intros. repeat split. Qed.

(** *** C61 *)
(** Single-objective algorithms: tournament selection, any population, crossover and mutation. *)
Theorem C61_order_only : forall fuel cf g t ck mk o2 t2 s, unpenalised cf -> scalar_target (cf_obj_value cf) -> scalar_target t2 ->
  same_shape (cf_objective cf) o2 (given (cf_input_data cf)) ->
  same_preferences (cf_objective cf) o2 (cf_obj_value cf) t2 (given (cf_input_data cf)) -> clean s ->
  same_outcome point s s (ga_optimize fuel cf false g Hyperbola (SelTournament t) ck mk false s)
                         (ga_optimize fuel (with_task o2 t2 cf) false g Hyperbola (SelTournament t) ck mk false s).
Proof.
  intros fuel cf g t ck mk o2 t2 s U T1 T2 SH SP C.
  set (f1 := mkFit Hyperbola (cf_objective cf) (cf_obj_value cf) (cf_input_data cf) None [] false []).
  set (f2 := mkFit Hyperbola o2 t2 (cf_input_data cf) None [] false []).
  set (R := fun (_ : nat) (a b : @num Qops) => exists k p x y, answers (cf_objective cf) (given (cf_input_data cf)) k p (inr (OScalar x)) /\
    answers o2 (given (cf_input_data cf)) k p (inr (OScalar y)) /\ score_of f1 x nzero = inr a /\ score_of f2 y nzero = inr b).
  set (O := fun _ _ : @sval Qops => True).
  assert (Rlt : forall k a b x y, R k a x -> R k b y -> nltb a b = nltb x y).
  { intros k0 a b x y (k & p & u & v & A1 & A2 & S1 & S2) (k' & p' & u' & v' & B1 & B2 & S1' & S2').
    pose proof (score_order f1 _ _ _ _ S1 S1') as E1. pose proof (score_order f2 _ _ _ _ S2 S2') as E2. cbn [obj_value f1 f2] in *.
    specialize (SP _ _ _ _ _ _ _ _ B1 A1 B2 A2). apply Bool.eq_iff_eq_true. rewrite E1, E2. exact SP. }
  assert (Req : forall k a b x y, R k a x -> R k b y -> neqb a b = neqb x y).
  { intros k a b x y H K. apply eqb_lt; eapply Rlt; eauto. }
  assert (O0 : O SVNone SVNone) by exact I. apply (sim_end R O False); [apply irel_point|].
  assert (H : rel (next s) (next s) (log s) (log s) nothing R O (outrel (next s) (next s) nothing R O False) (ga_optimize fuel cf false g Hyperbola (SelTournament t) ck mk false)
    (ga_optimize fuel (with_task o2 t2 cf) false g Hyperbola (SelTournament t) ck mk false)); [|exact (H s s (sim_start R O s s O0 C C ltac:(repeat split)))].
  apply rel_ga_optimize; auto using with_settings; try discriminate; try (intros F0; exact (False_ind _ F0)); try (left; exact I).
  destruct (fitness_plain Hyperbola cf o2 t2 U) as [(e & -> & ->)|(e1 & e2 & -> & -> & A1 & A2 & A3 & A4 & A5 & B1 & B2 & B3 & B4 & B5)]; [reflexivity|].
  split; [|cbn [fst snd]; rewrite A1, B1; repeat split; discriminate]. cbn [fst]. intros j genes gen b1 b2 i1 i2 I _ _.
  destruct (called e1 (j + length (log s)) genes) as [e|v] eqn:C1; destruct (called e2 (j + length (log s)) genes) as [e'|w] eqn:C2;
    apply called_answers in C1; apply called_answers in C2; rewrite A3, A5 in C1; rewrite B3, B5 in C2; pose proof (SH _ _ _ _ C1 C2) as X; auto; try (destruct v; contradiction).
  destruct v as [x|l], w as [y|m]; try contradiction.
  - rewrite !assess_scalar by auto. assert (E1 : score_of e1 x nzero = score_of f1 x nzero) by (unfold score_of; rewrite A4; reflexivity).
    assert (E2 : score_of e2 y nzero = score_of f2 y nzero) by (unfold score_of; rewrite B4; reflexivity). rewrite E1, E2.
    destruct (score_defined f1 x T1) as [a Ha]. destruct (score_defined f2 y T2) as [b Hb]. rewrite Ha, Hb. cbn [erel]. destruct I. constructor; cbn; auto. constructor.
    exists (j + length (log s))%nat, genes, x, y. auto.
  - rewrite !assess_tuple by auto. rewrite X. reflexivity.
Qed.
(** The three ready-made single-objective algorithms. *)
Theorem C61_optimize : forall fuel cf a o2 t2 s, single_objective a -> unpenalised cf -> scalar_target (cf_obj_value cf) -> scalar_target t2 ->
  same_shape (cf_objective cf) o2 (given (cf_input_data cf)) ->
  same_preferences (cf_objective cf) o2 (cf_obj_value cf) t2 (given (cf_input_data cf)) -> clean s ->
  same_outcome point s s (optimize fuel cf a s) (optimize fuel (with_task o2 t2 cf) a s).
Proof. intros fuel cf a o2 t2 s Sa. destruct a; try contradiction; intros; apply C61_order_only; auto. Qed.

(** The objective followed by a function of its value. *)
Definition map_result (h : Q -> Q) (r : exn + @oval Qops) : exn + oval :=
  match r with inl e => inl e | inr (OScalar x) => inr (OScalar (h x)) | inr (OTuple l) => inr (OTuple (map h l)) end.
Definition then_apply (h : Q -> Q) (o : @objfun Qops) : objfun :=
  match o with
  | Obj1 f => Obj1 (fun k p => map_result h (f k p))
  | Obj2 f => Obj2 (fun k d p => map_result h (f k d p))
  | Obj12 f f' => Obj12 (fun k p => map_result h (f k p)) (fun k d p => map_result h (f' k d p))
  end.
Lemma answers_fun : forall o d k p r r', @answers Qops o d k p r -> answers o d k p r' -> r = r'.
Proof. intros o d k p r r' H K. destruct H; inversion K; subst; auto. Qed.
Lemma answers_apply : forall h o d k p r, answers o d k p r -> answers (then_apply h o) d k p (map_result h r).
Proof. intros h o d k p r H. destruct H; cbn [then_apply map_result]; constructor. Qed.
Lemma answers_total : forall o d k p, exists r, @answers Qops o d k p r.
Proof. intros [f|f|f f'] [d|] k p; eexists; constructor. Qed.
Lemma apply_back : forall h o d k p r, answers (then_apply h o) d k p r -> exists r0, answers o d k p r0 /\ r = map_result h r0.
Proof. intros h o d k p r H. destruct (answers_total o d k p) as [r0 A]. exists r0. split; auto. eapply answers_fun; eauto using answers_apply. Qed.
Lemma shape_apply : forall h o d, same_shape o (then_apply h o) d.
Proof.
  intros h o d k p r1 r2 A B. apply apply_back in B. destruct B as (r0 & B & ->). rewrite (answers_fun _ _ _ _ _ _ A B). destruct r0 as [e|[x|l]]; cbn; auto. rewrite map_length. reflexivity.
Qed.
Lemma apply_scalar : forall h o d k p x y, answers o d k p (inr (OScalar x)) -> answers (then_apply h o) d k p (inr (OScalar y)) -> y = h x.
Proof. intros h o d k p x y A B. pose proof (answers_fun _ _ _ _ _ _ (answers_apply h _ _ _ _ _ A) B) as E. inversion E. reflexivity. Qed.
(** A strictly increasing transformation of the objective changes nothing. *)
Theorem C61_increasing : forall fuel cf a h s, single_objective a -> unpenalised cf -> cf_obj_value cf = TNone ->
  (forall x y : Q, (x < y)%Q <-> (h x < h y)%Q) -> clean s ->
  same_outcome point s s (optimize fuel cf a s) (optimize fuel (with_task (then_apply h (cf_objective cf)) TNone cf) a s).
Proof.
  intros fuel cf a h s Sa U T H C. apply C61_optimize; auto; [rewrite T; exact I|exact I|apply shape_apply|]. rewrite T.
  intros k p k' p' x x' y y' A A' B B'. rewrite (apply_scalar _ _ _ _ _ _ _ A B), (apply_scalar _ _ _ _ _ _ _ A' B'). apply H.
Qed.
(** A run with the target v is a run that minimises the distance to v. *)
Theorem C61_distance : forall fuel cf a v s, single_objective a -> unpenalised cf -> cf_obj_value cf = T1 v -> clean s ->
  same_outcome point s s (optimize fuel cf a s) (optimize fuel (with_task (then_apply (fun x => Qabs (v - x)) (cf_objective cf)) TNone cf) a s).
Proof.
  intros fuel cf a v s Sa U T C. apply C61_optimize; auto; [rewrite T; exact I|exact I|apply shape_apply|]. rewrite T.
  intros k p k' p' x x' y y' A A' B B'. rewrite (apply_scalar _ _ _ _ _ _ _ A B), (apply_scalar _ _ _ _ _ _ _ A' B'). cbn. reflexivity.
Qed.

(** The multi-objective algorithms depend on the order in each component only. *)
Section Components.
  Variables (o1 o2 : @objfun Qops) (d : option pyobj).
  Hypothesis SC : same_components o1 o2 (given d).
  Hypothesis SH : same_shape o1 o2 (given d).
  Hypothesis SH1 : same_shape o1 o2 None.
  Definition component (c : nat) (x y : @num Qops) : Prop := exists k p l m, both_respond o1 o2 (given d) k p l m /\ nth_error l c = Some x /\ nth_error m c = Some y.
  Definition score_component (c : nat) (a b : @num Qops) : Prop := exists x y, component c x y /\ a = neg_score x nzero /\ b = neg_score y nzero.
  Lemma component_iff : forall c a b x y, component c a x -> component c b y -> (nltb a b = true <-> nltb x y = true).
  Proof.
    intros c a b x y (k & p & l & m & A1 & A2 & A3) (k' & p' & l' & m' & B1 & B2 & B3). change (@nltb Qops) with Qltb. rewrite !Qltb_iff. exact (SC _ _ _ _ _ _ _ _ _ _ _ _ _ A1 B1 A2 B2 A3 B3).
  Qed.
  Lemma component_lt : forall c a b x y, component c a x -> component c b y -> nltb a b = nltb x y.
  Proof. intros. apply Bool.eq_iff_eq_true. eapply component_iff; eauto. Qed.
  Lemma component_eqb : forall c a b x y, component c a x -> component c b y -> neqb a b = neqb x y.
  Proof. intros. apply eqb_lt; eapply component_lt; eauto. Qed.
  Lemma score_component_lt : forall c a b x y, score_component c a x -> score_component c b y -> nltb a b = nltb x y.
  Proof.
    intros c a b x y (u & v & A & -> & ->) (u' & v' & B & -> & ->). apply Bool.eq_iff_eq_true. pose proof (component_iff _ _ _ _ _ B A) as H. revert H.
    unfold neg_score. change (@nltb Qops) with Qltb. rewrite !Qltb_iff. change (@num Qops) with Q in *. cbn. change (nofZ 0) with 0%Q. intros [H K]. split; intros E; [assert (X : (v' < v)%Q) by (apply H; lra)|assert (X : (u' < u)%Q) by (apply K; lra)]; lra.
  Qed.
  Lemma score_component_eqb : forall c a b x y, score_component c a x -> score_component c b y -> neqb a b = neqb x y.
  Proof. intros. apply eqb_lt; eapply score_component_lt; eauto. Qed.
  Lemma components_of : forall k p l m, both_respond o1 o2 (given d) k p l m -> length l = length m -> lrel component 0 l m.
  Proof.
    intros k p l m H L. assert (X : forall pre pre' l m, length l = length m -> length pre = length pre' -> both_respond o1 o2 (given d) k p (pre ++ l) (pre' ++ m) -> lrel component (length pre) l m).
    { clear l m H L. intros pre pre' l. revert pre pre'. induction l as [|x l IH]; intros pre pre' [|y m] L Lp H; cbn; try discriminate; auto. split.
      - exists k, p, (pre ++ x :: l), (pre' ++ y :: m). split; auto. split; [|rewrite Lp]; (rewrite nth_error_app2, Nat.sub_diag by lia; reflexivity).
      - specialize (IH (pre ++ [x]) (pre' ++ [y]) m). rewrite !app_length in IH. cbn [length] in IH. rewrite Nat.add_1_r in IH. apply IH; [cbn in L; lia|lia|].
        rewrite <- !app_assoc. exact H. }
    apply (X [] [] l m); auto.
  Qed.
  Lemma score_components_of : forall l m k, lrel component k l m -> lrel score_component k (map (fun x => neg_score x nzero) l) (map (fun x => neg_score x nzero) m).
  Proof. induction l as [|x l IH]; intros [|y m] k; cbn; auto. intros [H K]. split; auto. exists x, y. auto. Qed.
  Lemma agree1_components : forall h, agree1 h h (vrel component) o1 o2.
  Proof.
    intros h j genes. destruct (called1 o1 (j + length h) genes) as [e|v] eqn:C1; destruct (called1 o2 (j + length h) genes) as [e'|w] eqn:C2;
      apply called1_answers in C1; apply called1_answers in C2; pose proof (SH1 _ _ _ _ C1 C2) as X; auto; try (destruct v; contradiction).
    destruct v as [x|l], w as [y|m]; try contradiction; auto. constructor. eapply components_of; eauto. right. eauto.
  Qed.
  Lemma agree_components : forall h f1 f2 R, fkind f1 = fkind f2 -> is_multi_kind (fkind f1) = true -> is_conditional f1 = false -> is_conditional f2 = false ->
    obj_function f1 = o1 -> obj_function f2 = o2 -> input_data f1 = d -> input_data f2 = d ->
    (forall i1 i2 l m, irel R (vrel component) i1 i2 -> score i1 = SVNone -> lrel component 0 l m ->
       erel (vrel R) (get_fitness_score f1 (set_obj_score_f (SVL l) i1) nzero) (get_fitness_score f2 (set_obj_score_f (SVL m) i2) nzero)) ->
    agree h h R (vrel component) f1 f2.
  Proof.
    intros h f1 f2 R Fk Mk C1 C2 E1 E2 D1 D2 S j genes gen b1 b2 i1 i2 I Sn _.
    destruct (called f1 (j + length h) genes) as [e|v] eqn:A1; destruct (called f2 (j + length h) genes) as [e'|w] eqn:A2;
      apply called_answers in A1; apply called_answers in A2; rewrite E1, D1 in A1; rewrite E2, D2 in A2; pose proof (SH _ _ _ _ A1 A2) as X; auto; try (destruct v; contradiction).
    unfold assess, check_input. rewrite <- Fk, Mk, C1, C2. destruct v as [x|l], w as [y|m]; try contradiction; [reflexivity|]. cbv zeta.
    assert (L : lrel component 0 l m) by (eapply components_of; eauto; left; eauto).
    specialize (S i1 i2 l m I Sn L). destruct (get_fitness_score f1 _ nzero), (get_fitness_score f2 _ nzero); cbn [erel] in *; try contradiction; auto.
    destruct I. constructor; cbn; auto. constructor; auto.
  Qed.
End Components.
(** VEGA without a target. *)
Theorem C61_vega : forall fuel cf gray gens o2 s, unpenalised cf -> cf_obj_value cf = TNone ->
  same_shape (cf_objective cf) o2 (given (cf_input_data cf)) -> same_shape (cf_objective cf) o2 None ->
  same_components (cf_objective cf) o2 (given (cf_input_data cf)) -> clean s ->
  same_outcome point s s (optimize fuel cf (VEGA gray gens) s) (optimize fuel (with_task o2 TNone cf) (VEGA gray gens) s).
Proof.
  intros fuel cf gray gens o2 s U T SH SH1 SC C. set (O := vrel (component (cf_objective cf) o2 (cf_input_data cf))). assert (O0 : O SVNone SVNone) by constructor. set (R := score_component (cf_objective cf) o2 (cf_input_data cf)).
  apply (sim_end R O True); [apply irel_point|].
  assert (H : rel (next s) (next s) (log s) (log s) nothing R O (outrel (next s) (next s) nothing R O True) (vega fuel cf gray gens) (vega fuel (with_task o2 TNone cf) gray gens));
    [|exact (H s s (sim_start R O s s O0 C C ltac:(repeat split)))].
  assert (A1 : agree1 (log s) (log s) O (cf_objective cf) o2) by (apply agree1_components; auto).
  apply rel_vega; auto using with_settings; try (intros; eapply score_component_lt; eassumption); try (intros; eapply score_component_eqb; eassumption);
    try (intros _; first [apply vrel_eqb|apply vrel_len|apply vrel_max]; intros; first [eapply component_lt; eassumption|eapply component_eqb; eassumption]).
  destruct (fitness_plain VegaHyperbola cf o2 TNone U) as [(e & -> & ->)|(e1 & e2 & -> & -> & K1 & A2 & A3 & A4 & A5 & B1 & B2 & B3 & B4 & B5)]; [reflexivity|].
  split; [|cbn [fst snd]; rewrite K1, B1, A3, B3; auto]. cbn [fst]. apply agree_components; auto; try congruence; [rewrite K1; reflexivity|].
  intros i1 i2 l m I Sn L. unfold get_fitness_score. rewrite K1, B1, A4, B4, T. cbn. constructor. apply score_components_of; auto.
Qed.
(** FFGA, whose scores depend on the ranks alone. *)
Theorem C61_ffga : forall fuel cf gray gens o2 t2 s, unpenalised cf ->
  same_shape (cf_objective cf) o2 (given (cf_input_data cf)) -> same_shape (cf_objective cf) o2 None ->
  same_components (cf_objective cf) o2 (given (cf_input_data cf)) -> clean s ->
  same_outcome (fun i => (point i, score i)) s s (optimize fuel cf (FFGA gray gens) s) (optimize fuel (with_task o2 t2 cf) (FFGA gray gens) s).
Proof.
  intros fuel cf gray gens o2 t2 s U SH SH1 SC C. set (O := vrel (component (cf_objective cf) o2 (cf_input_data cf))). assert (O0 : O SVNone SVNone) by constructor. set (R := @same_num Qops).
  apply (sim_end R O True). { intros i j I. rewrite (irel_point _ _ _ _ I). f_equal. apply (vrel_same R); [exact same_num_eq|apply I]. }
  assert (H : rel (next s) (next s) (log s) (log s) nothing R O (outrel (next s) (next s) nothing R O True) (ffga fuel cf gray gens) (ffga fuel (with_task o2 t2 cf) gray gens));
    [|exact (H s s (sim_start R O s s O0 C C ltac:(repeat split)))].
  assert (A1 : agree1 (log s) (log s) O (cf_objective cf) o2) by (apply agree1_components; auto).
  apply rel_ga_optimize; auto using with_settings; try (unfold R, same_num; congruence);
    try (intros _; first [apply vrel_eqb|apply vrel_max]; intros; first [eapply component_lt; eassumption|eapply component_eqb; eassumption]);
    [right; exact same_num_eq|].
  destruct (fitness_plain Ffga cf o2 t2 U) as [(e & -> & ->)|(e1 & e2 & -> & -> & K1 & A2 & A3 & A4 & A5 & B1 & B2 & B3 & B4 & B5)]; [reflexivity|].
  split; [|cbn [fst snd]; rewrite K1, B1, A3, B3; auto]. cbn [fst]. apply agree_components; auto; try congruence; [rewrite K1; reflexivity|].
  intros i1 i2 l m I Sn L. unfold get_fitness_score. rewrite K1, B1. cbn [rank set_obj_score_f]. rewrite (ir_rank _ _ _ _ I).
  destruct (rank i2) as [[|x|]|]; try reflexivity. destruct (py_div none_ (nadd none_ x)); cbn [erel]; [reflexivity|]. constructor. reflexivity.
Qed.
(** A strictly increasing transformation of every component. *)
Theorem C61_components : forall fuel cf gray gens h s, unpenalised cf -> cf_obj_value cf = TNone ->
  (forall x y : Q, (x < y)%Q <-> (h x < h y)%Q) -> clean s ->
  same_outcome point s s (optimize fuel cf (VEGA gray gens) s) (optimize fuel (with_task (then_apply h (cf_objective cf)) TNone cf) (VEGA gray gens) s) /\
  same_outcome (fun i => (point i, score i)) s s (optimize fuel cf (FFGA gray gens) s) (optimize fuel (with_task (then_apply h (cf_objective cf)) TNone cf) (FFGA gray gens) s).
Proof.
  intros fuel cf gray gens h s U T H C.
  assert (SC : same_components (cf_objective cf) (then_apply h (cf_objective cf)) (given (cf_input_data cf))).
  { assert (X : forall d k p l m, answers (cf_objective cf) d k p (inr (OTuple l)) -> answers (then_apply h (cf_objective cf)) d k p (inr (OTuple m)) -> m = map h l).
    { intros d k p l m A B. pose proof (answers_fun _ _ _ _ _ _ (answers_apply h _ _ _ _ _ A) B) as E. inversion E. reflexivity. }
    assert (Y : forall d k p l m, both_respond (cf_objective cf) (then_apply h (cf_objective cf)) d k p l m -> m = map h l) by (intros d k p l m [[A B]|[A B]]; eapply X; eauto).
    intros k p k' p' l l' m m' c x x' y y' A B E1 E2 E3 E4. apply Y in A. apply Y in B. subst m m'. rewrite nth_error_map, E1 in E3. rewrite nth_error_map, E2 in E4.
    cbn in E3, E4. inversion E3; inversion E4; subst. apply H. }
  split; [apply C61_vega|apply C61_ffga]; auto using shape_apply.
Qed.

(** *** Concrete runs *)
Definition cube (x : Q) : Q := (2 * x * x * x - 7)%Q.
Definition course_view (r : gadata * option (list string)) (s : st) :=
  (map (fun r => genotype (heap s r)) (members (population (fst r))), idx_generation (fst r), hist_best (fst r), length (log s)).
Definition cf0 : config := demo_cf (LFloat (1#2)) 5 6 None.
(** The objective and a cubic function of it: other scores, the same individuals. *)
Example C61_case : observe course_view (optimize 50 cf0 (CategoricalGA pools) fresh_world) =
    Some (map ints [[3; 7; 2]; [2; 5; 2]; [1; 0; 2]; [1; 0; 1]; [3; 0; 2]; [2; 0; 1]], 6, map q [-(4); -(4); -(4); -(1); -(1); -(1)]%Q, 20%nat) /\
  observe course_view (optimize 50 (with_task (then_apply cube demo_obj) TNone cf0) (CategoricalGA pools) fresh_world) =
    Some (map ints [[3; 7; 2]; [2; 5; 2]; [1; 0; 2]; [1; 0; 1]; [3; 0; 2]; [2; 0; 1]], 6, map q [-(121); -(121); -(121); 5; 5; 5]%Q, 20%nat).
Proof. split; run. Qed.
(** The opposite order gives another run. *)
Example C61_other_order : observe course_view (optimize 50 (with_task (then_apply Qopp demo_obj) TNone cf0) (CategoricalGA pools) fresh_world) =
    Some (map ints [[1; 5; 2]; [3; 7; 2]; [1; 7; 2]; [1; 7; 2]; [0; 7; 1]; [0; 7; 1]], 6, map q [53; 54; 58; 58; 58; 58]%Q, 20%nat).
Proof. run. Qed.
(** The target 5 and the distance to 5. *)
Example C61_distance_case : observe course_view (optimize 50 (with_task demo_obj (T1 5%Q) cf0) (CategoricalGA pools) fresh_world) =
    Some (map ints [[2; 7; 1]; [2; 5; 1]; [3; 0; 1]; [3; 0; 2]; [2; 0; 1]; [1; 0; 1]], 6, map q [1#2; 1#2; 1#2; 1#2; 1#2; 1#2]%Q, 20%nat) /\
  observe course_view (optimize 50 (with_task (then_apply (fun x => Qabs (5 - x)) demo_obj) TNone cf0) (CategoricalGA pools) fresh_world) =
    Some (map ints [[2; 7; 1]; [2; 5; 1]; [3; 0; 1]; [3; 0; 2]; [2; 0; 1]; [1; 0; 1]], 6, map q [-(1); -(1); -(1); -(1); -(1); -(1)]%Q, 20%nat).
Proof. split; run. Qed.
(** The hypotheses of C61_increasing. *)
Example C61_meets : clean fresh_world /\ unpenalised cf0 /\ cf_obj_value cf0 = TNone /\ single_objective (CategoricalGA pools) /\ (forall x y : Q, (x < y)%Q <-> (cube x < cube y)%Q).
Proof.
  split; [intros r _; reflexivity|]. split; [left; reflexivity|]. split; [reflexivity|]. split; [exact I|].
  intros x y. unfold cube. assert (E : (2 * y * y * y - 7 - (2 * x * x * x - 7) == (y - x) * ((x + y) * (x + y) + x * x + y * y))%Q) by ring.
  assert (P : forall z : Q, (0 <= z * z)%Q) by (intros z; destruct (Qlt_le_dec z 0); [setoid_replace (z * z)%Q with ((- z) * (- z))%Q by ring|]; apply Qmult_le_0_compat; lra).
  assert (P0 : forall z : Q, (z * z == 0)%Q -> (z == 0)%Q) by (intros z Hz; destruct (Qmult_integral _ _ Hz); auto).
  pose proof (P x) as Px. pose proof (P y) as Py. pose proof (P (x + y)%Q) as Pxy. split; intros H.
  - assert (0 < (x + y) * (x + y) + x * x + y * y)%Q.
    { destruct (Qlt_le_dec 0 ((x + y) * (x + y) + x * x + y * y)); auto. exfalso. assert (x == 0)%Q by (apply P0; lra). assert (y == 0)%Q by (apply P0; lra). lra. }
    assert (0 < (y - x) * ((x + y) * (x + y) + x * x + y * y))%Q by (apply Qmult_lt_0_compat; lra). lra.
  - destruct (Qlt_le_dec x y) as [L|L]; auto. exfalso. assert (0 <= (x - y) * ((x + y) * (x + y) + x * x + y * y))%Q by (apply Qmult_le_0_compat; lra). lra.
Qed.
(** VEGA and FFGA: the runs of C54_case and C55_case again, with other objective values. *)
Example C61_multi_case : observe pareto_view (ffga 50 (with_task (then_apply cube (cf_objective (trade_cf "best" 6 5))) TNone (trade_cf "best" 6 5)) true two_genes wide_world) =
    Some ([([0; 9], 1); ([3; 6], 1); ([10; 1], 1); ([3; 6], 1); ([3; 6], 1); ([11; 2], 2); ([4; 7], 4); ([3; 12], 5); ([3; 12], 5)]%Q,
          ([SVL [-(7); 1451]%Q; SVL [47; 425]%Q; SVL [1993; -(5)]%Q; SVL [47; 425]%Q; SVL [47; 425]%Q], Some 4),
          [[0; 1; 3; 4]; [14; 15; 16; 17; 0; 1; 3; 4]; [28; 29; 14; 15; 16; 17; 1; 4]; [38; 40; 28; 29; 15]; [38; 40; 28; 29; 15]]%nat, 0) /\
  observe pareto_view (vega 50 (with_task (then_apply cube (cf_objective (trade_cf "best" 6 5))) TNone (trade_cf "best" 6 5)) true two_genes wide_world) =
    Some ([([11; 2], 1); ([0; 9], 1); ([4; 7], 1); ([1; 10], 2); ([2; 11], 3); ([2; 11], 3); ([3; 12], 5)]%Q,
          ([SVL [2655; 9]%Q; SVL [-(7); 1451]%Q; SVL [121; 679]%Q], Some 4),
          [[0; 1; 3; 4]; [14; 15; 16; 3; 4]; [28; 29; 3]; [41; 28]; [51; 53; 40]]%nat, 0).
Proof. split; run. Qed.

(** A state with four individuals and two earlier calls, and a fresh one. *)
Definition old_world (z : option Z) : st :=
  mkSt (fun r => nth r PropSelection.four blank_individ) 4 (mixed 9) wide z (fun z => wide (Z.to_nat z)) [(ints [1; 2; 3], OScalar 5%Q); (ints [0], OTuple [])].
Example C62_meets : stateless demo_obj /\ clean (old_world (Some 7)) /\ clean (seeded_world (Some 7) [] (fun _ => 0) mixed) /\ prng (old_world (Some 7)) = prng (seeded_world (Some 7) [] (fun _ => 0) mixed).
Proof.
  split; [intros d k k' p r A; inversion A; subst; constructor|]. split; [|split; [|reflexivity]]; intros r H; cbn [heap old_world seeded_world next] in *; apply nth_overflow; exact H.
Qed.
Example C62_case : observe course_view (optimize 50 cf0 (CategoricalGA pools) (seeded_world (Some 7) [] (fun _ => 0) mixed)) =
    Some (map ints [[2; 7; 1]; [0; 5; 2]; [2; 5; 2]; [2; 5; 2]; [0; 0; 2]; [1; 0; 2]], 6, map q [-(10); -(5); -(5); -(5); -(5); -(5)]%Q, 20%nat) /\
  observe course_view (optimize 50 cf0 (CategoricalGA pools) (old_world (Some 7))) =
    Some (map ints [[2; 7; 1]; [0; 5; 2]; [2; 5; 2]; [2; 5; 2]; [0; 0; 2]; [1; 0; 2]], 6, map q [-(10); -(5); -(5); -(5); -(5); -(5)]%Q, 22%nat).
Proof. split; run. Qed.

Print Assumptions C61_order_only.
Print Assumptions C61_optimize.
Print Assumptions C61_increasing.
Print Assumptions C61_distance.
Print Assumptions C61_vega.
Print Assumptions C61_ffga.
Print Assumptions C61_components.
Print Assumptions C62_no_history.
Print Assumptions C62_reproducible.
