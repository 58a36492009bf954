(** Property C67: valid conditional tasks never raise. *)
From Coq Require Import String.
From Coq Require Import ZArith QArith List Bool Lia Lqa.
From Verif Require Import Spec Num State Binary Population GaData Crossover Mutation Selection Penalty Fitness NewGeneration Driver
  ListLemmas Rnd Exec Laws FitnessProofs PropFitness PropPenalty PropCoding CodingProofs DomainProofs SafetyProofs OptimizeProofs PropDomain Demo.
Import ListNotations.
Open Scope string_scope.
Open Scope list_scope.
Open Scope Z_scope.
Local Existing Instance Qops.

(** The signs a constraint may have. *)
Definition sign (c : string) : Prop := c = "<=" \/ c = "!=".
(** A conditions list: constraints and one 'optimize' among them. *)
Definition conditions_ok (cl : list string) : Prop :=
  exists a b, cl = a ++ "optimize" :: b /\ Forall sign a /\ Forall sign b /\ a ++ b <> [].
(** A penalty that cannot be negative: the dynamic one with non-negative factors, or
    the adaptive one as its constructor accepts it, with a non-negative factor. *)
Definition penalty_ok (p : penalty) : Prop :=
  match p with
  | Dynamic delta c alpha betta => (0 <= delta /\ 0 <= c)%Q /\ (exists w, exponent alpha w) /\ (exists w, exponent betta w)
  | Adaptive delta b1 b2 betta => (0 <= delta)%Q /\ new_adaptive delta b1 b2 betta = inr p /\ exists w, exponent betta w
  | Static _ _ _ _ => False
  end.
Definition tuple_on (cf : config) (n : nat) (space : list gv -> Prop) : Prop :=
  forall k genes, space genes -> exists l, answers (cf_objective cf) (given (cf_input_data cf)) k genes (inr (OTuple l)) /\ length l = n.
Definition conditional_task (cf : config) (space : list gv -> Prop) : Prop :=
  exists p cl, cf_penalty cf = PPen p /\ penalty_ok p /\ cf_conditions cf = Some cl /\ conditions_ok cl /\
    match cf_obj_value cf with TL _ => False | _ => True end /\ tuple_on cf (length cl) space.

Lemma index_of_mid : forall a b, Forall sign a -> index_of "optimize" (a ++ "optimize" :: b) = Some (Z.of_nat (length a)).
Proof.
  induction a as [|c a IH]; intros b F; [reflexivity|]. inversion F as [|? ? Hc Fa]; subst. cbn [app index_of].
  rewrite (IH b Fa). destruct Hc as [-> | ->]; cbn [String.eqb Ascii.eqb Bool.eqb]; f_equal; cbn [length]; lia.
Qed.
Lemma remove_mid : forall a b, Forall sign a -> remove_first "optimize" (a ++ "optimize" :: b) = a ++ b.
Proof.
  induction a as [|c a IH]; intros b F; [reflexivity|]. inversion F as [|? ? Hc Fa]; subst. cbn [app remove_first].
  rewrite (IH b Fa). destruct Hc as [-> | ->]; reflexivity.
Qed.
Lemma violates_ok : forall cs vs, length cs = length vs -> exists b, violates cs vs = inr b.
Proof.
  induction cs as [|c cs IH]; intros [|v vs] L; try discriminate; [exists false; reflexivity|]. cbn [violates]. destruct (IH vs) as (b & ->); [injection L; auto|]. eauto.
Qed.
Lemma penalty_runs : forall p conds (values : list Q) gen best, penalty_ok p -> Forall sign conds -> length conds = length values -> sane_best gen best ->
  exists q, penalty_execute p conds values gen best = inr q /\ (0 <= q)%Q.
Proof.
  intros p conds values gen best Hp Hs L Sb. assert (K : Forall known conds) by (eapply Forall_impl; [|exact Hs]; intros c [->| ->]; [right|left]; reflexivity).
  assert (G0 : (0 <= inject_Z gen)%Q) by (change 0%Q with (inject_Z 0); rewrite <- Zle_Qle; destruct Sb as [[-> _]|[H _]]; lia).
  destruct p as [delta c alpha betta|delta b1 b2 betta|]; cbn in Hp; [| |contradiction].
  - destruct Hp as ([Hd Hc] & (wa & Ea) & (wb & Eb)). assert (B0 : (0 <= c * inject_Z gen)%Q) by (apply Qmult_le_0_compat; auto). destruct (ex_value alpha wa Ea _ B0) as (y & Ey & Hy).
    destruct (C49_value delta c alpha betta wb conds values gen best y Eb Ey L K) as (q & Eq & Hq). exists q. split; auto.
    pose proof (total_nonneg betta wb conds values Eb). pose proof (ex_nonneg alpha wa Ea _ B0). change (@num Qops) with Q in *. rewrite Hq.
    apply Qmult_le_0_compat; auto. apply Qmult_le_0_compat; auto. rewrite Hy. auto.
  - destruct Hp as (Hd & Hn & w & Ew). destruct (C50_constructor delta b1 b2 betta) as (R1 & R2 & _).
    assert (B1 : (1 < b1)%Q) by (destruct (Qlt_le_dec 1 b1) as [|L1]; auto; specialize (R1 L1); congruence).
    assert (B2 : (1 < b2)%Q) by (destruct (Qlt_le_dec 1 b2) as [|L2]; auto; specialize (R2 B1 L2); congruence).
    assert (C : exists k, coefficient b1 b2 gen best k /\ (0 <= k)%Q).
    { destruct Sb as [[-> ->]|(Hg & i & g & ->)]; [exists 0%Q; split; [left; split; reflexivity|lra]|].
      exists (if feasible i then 10 / b1 else 10 * b2)%Q. split; [right; split; [lia|]; exists i, g; split; reflexivity|].
      destruct (feasible i); [apply Qle_shift_div_l; lra|lra]. }
    destruct C as (k & C & Hk). destruct (C50_value delta b1 b2 betta w conds values gen best k Ew B1 B2 L K C) as (q & Eq & Hq). exists q. split; auto.
    pose proof (total_nonneg betta w conds values Ew). change (@num Qops) with Q in *. rewrite Hq.
    apply Qmult_le_0_compat; auto. apply Qmult_le_0_compat; auto.
Qed.
Lemma hyper_runs : forall t x pen : Q, (0 <= pen)%Q -> exists y, hyper (t : num) x pen = inr y.
Proof.
  intros t x pen H. unfold hyper, py_div. destruct (neqb _ _) eqn:E; [|eauto].
  exfalso. cbn in E. apply Qeq_bool_eq in E. change (@num Qops) with Q in *. unfold inject_Z in E. destruct (Qltb (t - x) 0) eqn:El.
  - apply Qltb_iff in El. lra.
  - apply Qltb_iff_f in El. lra.
Qed.
Lemma nth_mid : forall {A} (l : list A) n, (n < length l)%nat -> exists x, py_nth l (Z.of_nat n) = Some x /\ length (remove_at n l) = (length l - 1)%nat.
Proof.
  intros A l n H. unfold py_nth. assert (E : Z.of_nat n <? 0 = false) by (apply Z.ltb_ge; lia). assert (E2 : Z.of_nat (length l) <=? Z.of_nat n = false) by (apply Z.leb_gt; lia). cbv zeta. rewrite E, E, E2. cbn [orb].
  destruct (nth_error l n) as [x|] eqn:En; [|apply nth_error_None in En; lia].
  exists x. rewrite Nat2Z.id. split; auto. clear E E2. clear dependent x. revert n H. induction l as [|a l IH]; intros [|n] H; cbn in H; try lia; [cbn; lia|].
  specialize (IH n ltac:(lia)). cbn [remove_at length]. change (remove_at (S n) (a :: l)) with (a :: remove_at n l). cbn [length]. lia.
Qed.
Lemma conditional_evaluates : forall cf space, conditional_task cf space -> evaluates cf space.
Proof.
  intros cf space (p & cl & Ep & Hp & Ec & (a & b & -> & Fa & Fb & Ne) & Ov & Tu). unfold evaluates. rewrite Ep, Ec. cbn [new_fitness].
  assert (L : (2 <= length (a ++ "optimize" :: b))%nat).
  { rewrite app_length. cbn [length]. destruct a as [|x a]; [destruct b as [|y b]; [destruct Ne; reflexivity|cbn; lia]|cbn; lia]. }
  replace (Z.of_nat (length (a ++ "optimize" :: b)) <=? 1) with false by (symmetry; apply Z.leb_gt; lia). cbn [is_multi_kind].
  rewrite index_of_mid, remove_mid by auto. eexists _, _. split; [reflexivity|]. split; [reflexivity|].
  intros k pt gen best i Hpt Sb. destruct (Tu k pt Hpt) as (l & A & Ll).
  set (f := mkFit Hyperbola (cf_objective cf) (cf_obj_value cf) (cf_input_data cf) (Some p) (a ++ b) true [Z.of_nat (length a)]).
  exists (OTuple l). assert (C : called f k pt = inr (OTuple l)) by (apply called_answers; exact A).
  cut (exists j, assess f gen best (OTuple l) i = inr j); [intros (j & Ej); exists j; auto|]. clear A C.
  assert (La : length l = (length (a ++ b) + 1)%nat) by (rewrite Ll, !app_length; cbn [length]; lia).
  subst f. unfold assess, check_input. cbn [fkind is_multi_kind is_conditional conditions]. rewrite La, Nat.eqb_refl. cbn [fpenalty].
  unfold take_obj_score, py_pop. cbn [fkind is_multi_kind idx_opt]. destruct (@nth_mid (@num Qops) l (length a)) as (x & Ex & Lr); [rewrite La, app_length; lia|].
  rewrite Ex, Nat2Z.id. cbn [fst snd]. assert (Lv : length (a ++ b) = length (remove_at (length a) l)) by lia.
  destruct (violates_ok _ _ Lv) as (bad & ->).
  destruct (penalty_runs p (a ++ b) (remove_at (length a) l) gen best Hp) as (q & Eq & Hq); auto; [apply Forall_app; auto|]. rewrite Eq. cbv zeta.
  unfold get_fitness_score. cbn [fkind obj_value]. destruct (cf_obj_value cf) as [|tg|]; [| |contradiction]; destruct bad; cbn [obj_score set_obj_score_f set_feasible]; eauto;
    destruct (hyper_runs tg x q Hq) as (y & ->); eauto.
Qed.

(** C67: the three classes on conditional tasks. *)
Theorem C67_binary : forall fuel cf gray gens s, valid_shape cf -> Forall legal gens ->
  ((2 <= length gens)%nat \/ exists g, gens = [g] /\ 2 <= points g) ->
  level_named (cf_mutation_lvl cf) \/ level_number (cf_mutation_lvl cf) ->
  Forall (fun x => exists xs, vector x xs /\ Forall2 in_bounds gens xs) (cf_input_population cf) ->
  conditional_task cf (in_box gens) ->
  forall e, binary_ga fuel cf gray (gens : list bgene) s <> Err e.
Proof. intros. eapply binary_safe; eauto. apply conditional_evaluates. auto. Qed.
Theorem C67_combinatory : forall fuel cf a b k s, valid_shape cf -> 3 <= k <= b - a + 1 ->
  level_named (cf_mutation_lvl cf) \/ level_number (cf_mutation_lvl cf) ->
  Forall (arrangement a b k) (cf_input_population cf) -> conditional_task cf (arrangement a b k) ->
  forall e, combinatory_ga fuel cf a b k s <> Err e.
Proof. intros. eapply combinatory_safe; eauto. apply conditional_evaluates. auto. Qed.
Theorem C67_categorical : forall fuel cf gens s, valid_shape cf -> Forall good_pool gens ->
  level_number (cf_mutation_lvl cf) ->
  Forall (from_pools gens) (cf_input_population cf) -> conditional_task cf (from_pools gens) ->
  forall e, categorical_ga fuel cf gens s <> Err e.
Proof. intros. eapply categorical_safe; eauto. apply conditional_evaluates. auto. Qed.

(** Either kind of task. *)
Definition task (cf : config) (space : list gv -> Prop) : Prop :=
  (cf_penalty cf = PNone /\ match cf_obj_value cf with TL _ => False | _ => True end /\ scalar_on cf space) \/ conditional_task cf space.
Lemma task_evaluates : forall cf space, valid_shape cf -> task cf space -> evaluates cf space.
Proof. intros cf space V [(Pn & Ov & Sc)|C]; [apply plain_evaluates; [split|]; auto|apply conditional_evaluates; auto]. Qed.

(** *** Examples *)
(** Minimise the sum of squares subject to x0 <= 1 and x0 = x1; numbers only. *)
Definition number_of (g : gv) : Q := match g with GNum x => x | GInt z => inject_Z z | _ => 0%Q end.
Definition cond_obj : objfun := Obj1 (fun _ genes => inr (OTuple
  [(number_of (nth 0 genes (GInt 0)) - 1)%Q; fold_left (fun acc g => (acc + number_of g * number_of g)%Q) genes 0%Q;
   (number_of (nth 0 genes (GInt 0)) - number_of (nth 1 genes (GInt 0)))%Q])).
Definition cond_cf (p : penalty) (cl : list string) (lv : lvl) : config :=
  mkCfg 4 5 cond_obj (T1 (0%Q : num)) None (PPen p) (Some cl) (6#10) None [] 2 lv "best" true.
Definition dynamic : penalty := Dynamic (1%Q : num) (1#2)%Q (natural 2) (natural 2).
Definition adaptive : penalty := Adaptive ((1#3)%Q : num) 2%Q 3%Q (natural 1).
Example C67_task : forall lv p sp, p = dynamic \/ p = adaptive -> conditional_task (cond_cf p ["<="; "optimize"; "!="] lv) sp.
Proof.
  intros lv p sp Hp. exists p, ["<="; "optimize"; "!="]. split; [reflexivity|]. split; [destruct Hp as [-> | ->]; [split; [split; vm_compute; discriminate|split; eexists; apply natural_exponent]|split; [vm_compute; discriminate|split; [reflexivity|eexists; apply natural_exponent]]]|].
  split; [reflexivity|]. split; [exists ["<="], ["!="]; repeat split; repeat constructor; discriminate|]. split; [exact I|].
  intros k genes _. eexists. split; [exact (answer_1 _ k genes)|reflexivity].
Qed.
Lemma cond_shape : forall p cl lv, valid_shape (cond_cf p cl lv).
Proof. intros. split; [cbn; lia|]. split; [vm_compute; discriminate|]. split; [left; reflexivity|]. vm_compute. discriminate. Qed.
Example C67_binary_example : forall fuel gray s e p, p = dynamic \/ p = adaptive ->
  binary_ga fuel (cond_cf p ["<="; "optimize"; "!="] (LStr "normal")) gray (box : list bgene) s <> Err e.
Proof.
  intros fuel gray s e p Hp. apply C67_binary; [apply cond_shape| | | |constructor|apply C67_task; auto].
  - repeat constructor; vm_compute; congruence.
  - left. cbn. lia.
  - left. right. left. reflexivity.
Qed.
(** Such runs do end: how many evaluations and which individual is reported. *)
Definition outcome_of (o : outcome (gadata * option (list string))) :=
  observe (fun r s => (idx_generation (fst r), length (log s), match best_solution (fst r) with BSingle i _ => (feasible i, genotype i) | _ => (false, []) end)) o.
Example C67_combinatory_case : outcome_of (combinatory_ga 50 (cond_cf adaptive ["<="; "optimize"; "!="] (LStr "strong")) 0 6 4 fresh_world)
  = Some (4, 14%nat, (false, ints [3; 1; 2; 4])).
Proof. run. Qed.
Example C67_binary_case : outcome_of (binary_ga 50 (cond_cf dynamic ["<="; "optimize"; "!="] (LStr "strong")) true (box : list bgene) fresh_world)
  = Some (4, 14%nat, (false, map GBit [false; false; true; false; true; true; true])).
Proof. run. Qed.
(** Just outside the hypotheses runs do raise: another sign, two 'optimize', a wrong
    number of conditions, no 'optimize', a negative penalty that meets the target. *)
Definition kind {A} (o : outcome A) : option exn := match o with Err e => Some e | _ => None end.
Definition cond_run (p : penalty) (cl : list string) := kind (combinatory_ga 50 (cond_cf p cl (LStr "strong")) 0 6 4 fresh_world).
Example C67_outside_cases :
  cond_run adaptive ["<="; "optimize"; ">="] = Some bad_sign /\ cond_run adaptive ["optimize"; "optimize"; "<="] = Some bad_sign /\
  cond_run adaptive ["<="; "optimize"] = Some (PyException "number of returned values") /\
  cond_run adaptive ["<="; "<="; "<="] = Some ValueError /\
  cond_run (Dynamic ((-23 # 1)%Q : num) (1#1)%Q (natural 0) (natural 0)) ["<="; "optimize"; "!="] = Some ZeroDivisionError.
Proof. repeat split; run. Qed.
Print Assumptions C67_binary.
Print Assumptions C67_combinatory.
Print Assumptions C67_categorical.
