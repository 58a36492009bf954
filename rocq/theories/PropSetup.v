(** Statement C88: which configurations optimize rejects before it creates or evaluates
    anything, and with which exception. *)
From Coq Require Import String.
From Coq Require Import ZArith QArith List Bool Lia.
From Verif Require Import Num State Binary Population GaData Penalty Fitness Selection Crossover Mutation NewGeneration Driver Demo.
Import ListNotations.
Open Scope list_scope.
Open Scope Z_scope.

Section C88.
  Context {NO : NumOps}.

  (** *** What is wrong with a configuration, in the order in which it is noticed *)
  Definition individuals_fit (cf : config) : Prop :=
    cf_input_population cf = [] \/ Z.of_nat (List.length (cf_input_population cf)) <= cf_num_individ cf.
  (** The caller's list of conditions ([optimize] alone when none is given). *)
  Definition declared (cf : config) : list string :=
    match cf_conditions cf with Some l => l | None => ["optimize"%string] end.
  Definition is_penalty (cf : config) : Prop := cf_penalty cf <> PBad.
  (** A penalised single-objective task with at least two entries needs one to optimize. *)
  Definition something_to_optimize (cf : config) : Prop :=
    forall p, cf_penalty cf = PPen p -> (2 <= List.length (declared cf))%nat -> In "optimize"%string (declared cf).

  (** Exceptions of the mutation level: bit strings and tours, then categories. *)
  Inductive level_refused : lvl -> exn -> Prop :=
  | unknown_word : forall s, ~ In s ["weak"; "normal"; "strong"]%string -> level_refused (LStr s) (PyException "mutation level is not expected")
  | below_zero : forall x, nltb x (nofZ 0) = true -> level_refused (LFloat x) (PyException "mutation level is not expected")
  | above_one : forall x, nltb (nofZ 1) x = true -> level_refused (LFloat x) (PyException "mutation level is not expected")
  | not_a_level : level_refused LOther (PyException "mutation level is not expected").
  Inductive cat_level_refused : lvl -> exn -> Prop :=
  | any_word : forall s, cat_level_refused (LStr s) AttributeError
  | cat_below_zero : forall x, nltb x (nofZ 0) = true -> cat_level_refused (LFloat x) (PyException "mutation level is not expected")
  | cat_above_one : forall x, nltb (nofZ 1) x = true -> cat_level_refused (LFloat x) (PyException "mutation level is not expected")
  | cat_not_a_level : cat_level_refused LOther (PyException "mutation level is not expected").

  Inductive rejected (single : Prop) (level : lvl -> exn -> Prop) (cf : config) : exn -> Prop :=
  | too_many : ~ individuals_fit cf -> rejected single level cf (PyException "size of input population")
  | no_penalty : individuals_fit cf -> ~ is_penalty cf -> rejected single level cf (PyException "unexpected penalty_method")
  | nothing : individuals_fit cf -> is_penalty cf -> single -> ~ something_to_optimize cf -> rejected single level cf ValueError
  | bad_mutation : forall e, individuals_fit cf -> is_penalty cf -> (single -> something_to_optimize cf) -> level (cf_mutation_lvl cf) e ->
      rejected single level cf e
  | bad_transfer : individuals_fit cf -> is_penalty cf -> (single -> something_to_optimize cf) -> (forall e, ~ level (cf_mutation_lvl cf) e) ->
      cf_transfer cf <> "best"%string -> cf_transfer cf <> "random"%string -> rejected single level cf (PyException "transfer_parents").

  (** *** The constructors *)
  Definition unfilled (cf : config) (g : gspec) : pop := mkPop [] false (cf_num_individ cf) g (cf_input_population cf).
  Lemma set_params_cases : forall cf g,
    (~ individuals_fit cf /\ set_params (cf_num_individ cf) g (cf_input_population cf) = inl (PyException "size of input population")) \/
    (individuals_fit cf /\ set_params (cf_num_individ cf) g (cf_input_population cf) = inr (unfilled cf g)).
  Proof.
    intros cf g. unfold unfilled, set_params, individuals_fit. destruct (cf_input_population cf) as [|x l]; [right; cbn; auto|].
    destruct (Z.ltb_spec (cf_num_individ cf) (Z.of_nat (List.length (x :: l)))) as [L|L].
    - left. cbn [List.length Nat.eqb negb andb]. split; [|reflexivity]. intros [C|C]; [discriminate C|]. cbn [List.length] in L, C. lia.
    - right. cbn [List.length Nat.eqb negb andb]. split; [right; cbn [List.length] in L |- *; lia|reflexivity].
  Qed.
  Lemma index_of_in : forall l, (exists i, index_of "optimize" l = Some i) <-> In "optimize"%string l.
  Proof.
    induction l as [|a l IH]; cbn [index_of In]; [split; [intros [i C]; discriminate C|tauto]|].
    destruct (String.eqb_spec a "optimize") as [->|N].
    - split; eauto.
    - rewrite <- IH. destruct (index_of "optimize" l) as [i|].
      + split; eauto.
      + split; [intros [i C]; discriminate C|]. intros [C|[i C]]; [congruence|discriminate C].
  Qed.
  Lemma fitness_cases : forall k cf, let single := k = Hyperbola in
    let r := new_fitness k (cf_objective cf) (cf_obj_value cf) (cf_input_data cf) (cf_penalty cf) (cf_conditions cf) in
    (~ is_penalty cf /\ r = inl (PyException "unexpected penalty_method")) \/
    (is_penalty cf /\ single /\ ~ something_to_optimize cf /\ r = inl ValueError) \/
    (is_penalty cf /\ (single -> something_to_optimize cf) /\ exists fc, r = inr fc).
  Proof.
    intros k cf single r. subst single r. unfold is_penalty, something_to_optimize, new_fitness, declared.
    destruct (cf_penalty cf) as [|p|]; [| |left; split; auto].
    - right. right. split; [discriminate|]. split; [intros _ p C; discriminate C|eauto].
    - right. set (cl := match cf_conditions cf with None => ["optimize"%string] | Some l => l end).
      destruct (Z.leb_spec (Z.of_nat (List.length cl)) 1) as [L|L].
      + right. split; [discriminate|]. split; [intros _ p0 _ C; lia|eauto].
      + destruct k; cbn [is_multi_kind].
        * destruct (index_of "optimize" cl) as [i|] eqn:E.
          -- right. split; [discriminate|]. split; [intros _ p0 _ _; apply index_of_in; eauto|eauto].
          -- left. split; [discriminate|]. split; [reflexivity|]. split; [|reflexivity]. intros H.
             assert (J : In "optimize"%string cl) by (apply (H p); [reflexivity|lia]). apply index_of_in in J. destruct J as [i J]. congruence.
        * right. split; [discriminate|]. split; [intros C; discriminate C|eauto].
        * right. split; [discriminate|]. split; [intros C; discriminate C|eauto].
  Qed.
  Lemma transfer_cases : forall multi s,
    (s <> "best"%string /\ s <> "random"%string /\ new_newgen multi s = inl (PyException "transfer_parents")) \/
    ((s = "best"%string \/ s = "random"%string) /\ new_newgen multi s = inr (mkNG multi (if String.eqb s "best" then TBest else TRandom))).
  Proof.
    intros multi s. unfold new_newgen. destruct (String.eqb_spec s "best"); [right; auto|]. destruct (String.eqb_spec s "random"); [right; auto|left; auto].
  Qed.
  Definition level_spec (mk : lvl -> exn + mutation) (refused : lvl -> exn -> Prop) : Prop :=
    forall l, (exists e, refused l e /\ (forall e', refused l e' -> e' = e) /\ mk l = inl e) \/ ((forall e, ~ refused l e) /\ exists m, mk l = inr m).
  Lemma float_cases : forall x, (out_of_01 x = true /\ (nltb x (nofZ 0) = true \/ nltb (nofZ 1) x = true)) \/
    (out_of_01 x = false /\ nltb x (nofZ 0) = false /\ nltb (nofZ 1) x = false).
  Proof. intros x. unfold out_of_01. destruct (nltb x (nofZ 0)), (nltb (nofZ 1) x); cbn; auto. Qed.
  Lemma word_cases : forall s, In s ["weak"; "normal"; "strong"]%string \/ s <> "weak"%string /\ s <> "normal"%string /\ s <> "strong"%string.
  Proof.
    intros s. destruct (String.eqb_spec s "weak"); [left; cbn; auto|]. destruct (String.eqb_spec s "normal"); [left; cbn; auto|].
    destruct (String.eqb_spec s "strong"); [left; cbn; auto|right; auto].
  Qed.
  Lemma bin_levels : level_spec new_bin level_refused.
  Proof.
    intros [s|x|].
    - destruct (word_cases s) as [I|(N1 & N2 & N3)].
      + right. split; [intros e C; inversion C; contradiction|]. destruct I as [<-|[<-|[<-|[]]]]; cbn; eauto.
      + left. exists (PyException "mutation level is not expected"). split; [constructor; cbn; intuition congruence|].
        split; [intros e' C; inversion C; reflexivity|]. cbn [new_bin]. apply String.eqb_neq in N1, N2, N3. rewrite N1, N2, N3. reflexivity.
    - destruct (float_cases x) as [[Eo [Eo1|Eo1]]|(Eo & E1 & E2)].
      + left. eexists. split; [apply below_zero; exact Eo1|]. split; [intros e' C; inversion C; reflexivity|]. cbn [new_bin]. rewrite Eo. reflexivity.
      + left. eexists. split; [apply above_one; exact Eo1|]. split; [intros e' C; inversion C; reflexivity|]. cbn [new_bin]. rewrite Eo. reflexivity.
      + right. split; [intros e C; inversion C; congruence|]. cbn [new_bin]. rewrite Eo. eauto.
    - left. eexists. split; [constructor|]. split; [intros e' C; inversion C; reflexivity|reflexivity].
  Qed.
  Lemma combi_levels : forall k, level_spec (new_combi k) level_refused.
  Proof.
    intros k [s|x|].
    - destruct (word_cases s) as [I|(N1 & N2 & N3)].
      + right. split; [intros e C; inversion C; contradiction|]. destruct I as [<-|[<-|[<-|[]]]]; cbn; eauto.
      + left. exists (PyException "mutation level is not expected"). split; [constructor; cbn; intuition congruence|].
        split; [intros e' C; inversion C; reflexivity|]. cbn [new_combi]. apply String.eqb_neq in N1, N2, N3. rewrite N1, N2, N3. reflexivity.
    - destruct (float_cases x) as [[Eo [Eo1|Eo1]]|(Eo & E1 & E2)].
      + left. eexists. split; [apply below_zero; exact Eo1|]. split; [intros e' C; inversion C; reflexivity|]. cbn [new_combi]. rewrite Eo. reflexivity.
      + left. eexists. split; [apply above_one; exact Eo1|]. split; [intros e' C; inversion C; reflexivity|]. cbn [new_combi]. rewrite Eo. reflexivity.
      + right. split; [intros e C; inversion C; congruence|]. cbn [new_combi]. rewrite Eo. eauto.
    - left. eexists. split; [constructor|]. split; [intros e' C; inversion C; reflexivity|reflexivity].
  Qed.
  Lemma cat_levels : level_spec new_cat cat_level_refused.
  Proof.
    intros [s|x|].
    - left. eexists. split; [constructor|]. split; [intros e' C; inversion C; reflexivity|reflexivity].
    - destruct (float_cases x) as [[Eo [Eo1|Eo1]]|(Eo & E1 & E2)].
      + left. eexists. split; [apply cat_below_zero; exact Eo1|]. split; [intros e' C; inversion C; reflexivity|]. cbn [new_cat]. rewrite Eo. reflexivity.
      + left. eexists. split; [apply cat_above_one; exact Eo1|]. split; [intros e' C; inversion C; reflexivity|]. cbn [new_cat]. rewrite Eo. reflexivity.
      + right. split; [intros e C; inversion C; congruence|]. cbn [new_cat]. rewrite Eo. eauto.
    - left. eexists. split; [constructor|]. split; [intros e' C; inversion C; reflexivity|reflexivity].
  Qed.

  (** *** The whole set-up *)
  Lemma seeded : forall s, exists s', do_seed s = Ok tt s'.
  Proof. intros s. unfold do_seed. destruct (rnd_seed s); eauto. Qed.
  Lemma setup : forall cf multi g fk sel ck mk refused ngm, level_spec mk refused ->
    (exists e, rejected (fk = Hyperbola) refused cf e /\ (forall e', rejected (fk = Hyperbola) refused cf e' -> e' = e) /\
       forall fuel s, ga_optimize fuel cf multi g fk sel ck mk ngm s = Err e) \/
    ((forall e, ~ rejected (fk = Hyperbola) refused cf e) /\
     exists f cl m, forall fuel s, ga_optimize fuel cf multi g fk sel ck mk ngm s =
       (do_seed ;;; p' <- fill (unfilled cf g) ;;
        r <- run_loop fuel (mkComps f sel ck m (mkNG ngm (if String.eqb (cf_transfer cf) "best" then TBest else TRandom))) (new_gadata multi (cf_num_generations cf) (cf_children_percent cf) (resolved_stop cf) p') ;;
        (if cf_is_print cf then print_best_solution (snd r) else ret tt) ;;; ret (snd r, cl)) s).
  Proof.
    intros cf multi g fk sel ck mk refused ngm Lv.
    destruct (set_params_cases cf g) as [[Nf Sp]|[If Sp]].
    { left. eexists. split; [apply too_many; exact Nf|]. split; [intros e' C; inversion C; [reflexivity|contradiction..]|].
      intros fuel s. unfold ga_optimize, bind. destruct (seeded s) as [s1 ->]. rewrite Sp. reflexivity. }
    destruct (fitness_cases fk cf) as [[Np Nw]|[(Ip & Is & Ns & Nw)|(Ip & Is & fc & Nw)]].
    { left. eexists. split; [apply no_penalty; assumption|]. split; [intros e' C; inversion C; [contradiction|reflexivity|contradiction..]|].
      intros fuel s. unfold ga_optimize, bind. destruct (seeded s) as [s1 ->]. rewrite Sp. unfold lift at 1. unfold ret. cbv zeta in Nw. rewrite Nw. reflexivity. }
    { left. eexists. split; [apply nothing; assumption|]. split; [intros e' C; inversion C; [contradiction|contradiction|reflexivity|tauto|tauto]|].
      intros fuel s. unfold ga_optimize, bind. destruct (seeded s) as [s1 ->]. rewrite Sp. unfold lift at 1. unfold ret. cbv zeta in Nw. rewrite Nw. reflexivity. }
    destruct (Lv (cf_mutation_lvl cf)) as [(e & Re & Un & Mk)|[Nr [m Mk]]].
    { left. exists e. split; [apply bad_mutation; assumption|].
      split; [intros e' C; inversion C; [contradiction|contradiction|tauto|apply Un; assumption|exfalso; eapply H2; eassumption]|].
      intros fuel s. unfold ga_optimize, bind. destruct (seeded s) as [s1 ->]. rewrite Sp. unfold lift at 1. unfold ret. cbv zeta in Nw. rewrite Nw.
      unfold lift at 1. unfold ret. rewrite Mk. reflexivity. }
    destruct (transfer_cases ngm (cf_transfer cf)) as [(N1 & N2 & Ng)|[It Ng]].
    { left. eexists. split; [apply bad_transfer; assumption|].
      split; [intros e' C; inversion C; [contradiction|contradiction|tauto|exfalso; eapply Nr; eassumption|reflexivity]|].
      intros fuel s. unfold ga_optimize, bind. destruct (seeded s) as [s1 ->]. rewrite Sp. unfold lift at 1. unfold ret. cbv zeta in Nw. rewrite Nw.
      unfold lift at 1. unfold ret. rewrite Mk. unfold lift at 1. unfold ret. rewrite Ng. reflexivity. }
    right. split.
    { intros e C. inversion C; [contradiction|contradiction|tauto|eapply Nr; eassumption|]. destruct It; contradiction. }
    exists (fst fc), (snd fc), m. intros fuel s. unfold ga_optimize, bind. destruct (seeded s) as [s1 ->]. rewrite Sp. unfold lift, ret. cbv zeta in Nw. rewrite Nw, Mk, Ng. reflexivity.
  Qed.

  Lemma rejected_same : forall (a b : Prop) lv cf e, (a <-> b) -> rejected a lv cf e -> rejected b lv cf e.
  Proof.
    intros a b lv cf e H R. destruct R; [apply too_many|apply no_penalty|apply nothing|eapply bad_mutation|apply bad_transfer]; tauto || eauto.
  Qed.
  Lemma rejects : forall (single : Prop) cf multi g fk sel ck mk refused ngm e, (single <-> fk = Hyperbola) -> level_spec mk refused ->
    rejected single refused cf e -> forall fuel s, ga_optimize fuel cf multi g fk sel ck mk ngm s = Err e.
  Proof.
    intros single cf multi g fk sel ck mk refused ngm e I Lv R. apply (rejected_same _ _ _ _ _ I) in R.
    destruct (setup cf multi g fk sel ck mk refused ngm Lv) as [(e0 & _ & Un & Ru)|[Nr _]]; [|elim (Nr e R)]. rewrite (Un e R). exact Ru.
  Qed.

  (** *** C88 *)
  (** A rejected configuration: every run raises that exception, whatever the random
      numbers, the loop bound and the behaviour of the objective (it is not called). *)
  Theorem C88_binary : forall cf gray gens e, rejected True level_refused cf e -> forall fuel s, binary_ga fuel cf gray gens s = Err e.
  Proof. intros cf gray gens e. apply rejects; [tauto|apply bin_levels]. Qed.
  Theorem C88_combinatory : forall cf a b k e, rejected True level_refused cf e -> forall fuel s, combinatory_ga fuel cf a b k s = Err e.
  Proof. intros cf a b k e. apply rejects; [tauto|apply combi_levels]. Qed.
  Theorem C88_categorical : forall cf gens e, rejected True cat_level_refused cf e -> forall fuel s, categorical_ga fuel cf gens s = Err e.
  Proof. intros cf gens e. apply rejects; [tauto|apply cat_levels]. Qed.
  Theorem C88_ffga : forall cf gray gens e, rejected False level_refused cf e -> forall fuel s, ffga fuel cf gray gens s = Err e.
  Proof. intros cf gray gens e. apply rejects; [split; [tauto|discriminate]|apply bin_levels]. Qed.
  (** VEGA with conditions rejects likewise; without them it first calls the objective on
      a list of zeros, and what that call raises comes first. *)
  Theorem C88_vega : forall cf gray gens e, rejected False level_refused cf e -> forall fuel s,
    (cf_conditions cf <> None -> vega fuel cf gray gens s = Err e) /\
    (cf_conditions cf = None -> vega fuel cf gray gens s =
       match call1 (cf_objective cf) (map (fun _ => GInt 0) gens) s with
       | Ok (OTuple _) _ => Err e
       | Ok (OScalar _) _ => Err TypeError
       | Err e' => Err e'
       | NoFuel => NoFuel
       end).
  Proof.
    intros cf gray gens e R fuel s. assert (X : forall sel s1, ga_optimize fuel cf true (GenBinary gray gens bparams0) VegaHyperbola sel OnePoint new_bin false s1 = Err e).
    { intros sel s1. eapply rejects; [|apply bin_levels|exact R]. split; [tauto|discriminate]. }
    unfold vega. split; intros H.
    - destruct (cf_conditions cf); [|contradiction]. unfold bind, ret. apply X.
    - rewrite H. unfold call_list, bind. destruct (call1 (cf_objective cf) _ s) as [[x|l] s1|e'|]; [reflexivity| |reflexivity..]. unfold ret. apply X.
  Qed.

  (** A configuration with none of these faults gets past its constructors: the run is
      the creation of the first generation followed by the generations, with components
      that do not depend on the random numbers.  [started_run] says this of a run. *)
  Definition started_run (cf : config) (multi ngm : bool) (g : gspec) (sel : selection) (ck : crossover_kind)
             (ga : nat -> M (gadata * option (list string))) : Prop :=
    exists f cl m, forall fuel s, ga fuel s =
       (do_seed ;;; p' <- fill (unfilled cf g) ;;
        r <- run_loop fuel (mkComps f sel ck m (mkNG ngm (if String.eqb (cf_transfer cf) "best" then TBest else TRandom))) (new_gadata multi (cf_num_generations cf) (cf_children_percent cf) (resolved_stop cf) p') ;;
        (if cf_is_print cf then print_best_solution (snd r) else ret tt) ;;; ret (snd r, cl)) s.
  Lemma accepts : forall (single : Prop) cf multi g fk sel ck mk refused ngm, (single <-> fk = Hyperbola) -> level_spec mk refused ->
    (forall e, ~ rejected single refused cf e) -> started_run cf multi ngm g sel ck (fun fuel => ga_optimize fuel cf multi g fk sel ck mk ngm).
  Proof.
    intros single cf multi g fk sel ck mk refused ngm I Lv N.
    destruct (setup cf multi g fk sel ck mk refused ngm Lv) as [(e0 & R & _)|[_ A]]; [|exact A]. elim (N e0). eapply rejected_same; [|exact R]. tauto.
  Qed.
  Theorem C88_accepted : forall cf gray gens cgens a b k,
    ((forall e, ~ rejected True level_refused cf e) ->
       started_run cf false false (GenBinary gray gens bparams0) (SelTournament (cf_tournament_size cf)) OnePoint (fun fuel => binary_ga fuel cf gray gens) /\
       started_run cf false false (GenOrd a b k) (SelTournament (cf_tournament_size cf)) Order (fun fuel => combinatory_ga fuel cf a b k)) /\
    ((forall e, ~ rejected True cat_level_refused cf e) ->
       started_run cf false false (GenCat cgens) (SelTournament (cf_tournament_size cf)) Uniform (fun fuel => categorical_ga fuel cf cgens)) /\
    ((forall e, ~ rejected False level_refused cf e) -> started_run cf true true (GenBinary gray gens bparams0) SelBalanced OnePoint (fun fuel => ffga fuel cf gray gens)).
  Proof.
    intros cf gray gens cgens a b k. split; [|split].
    - intros N. split; (eapply accepts; [|apply bin_levels||apply combi_levels|exact N]; tauto).
    - intros N. eapply accepts; [|apply cat_levels|exact N]. tauto.
    - intros N. eapply accepts; [|apply bin_levels|exact N]. split; [tauto|discriminate].
  Qed.
  (** VEGA: with conditions the number of criteria is the number of times optimize occurs
      among them; without, it is the length of what the objective returns on the list of
      zeros, and the run goes on after that call. *)
  Lemma optimize_count : forall l, count_optimize l = Z.of_nat (count_occ string_dec l "optimize"%string).
  Proof.
    intros l. unfold count_optimize. f_equal. induction l as [|x l IH]; [reflexivity|]. cbn [filter count_occ]. destruct (string_dec x "optimize") as [->|Nx].
    - rewrite String.eqb_refl. cbn [List.length]. congruence.
    - apply String.eqb_neq in Nx. rewrite Nx. exact IH.
  Qed.
  Theorem C88_vega_accepted : forall cf gray gens, (forall e, ~ rejected False level_refused cf e) ->
    exists ga, (forall m, started_run cf true false (GenBinary gray gens bparams0) (SelVegaTournament m 3) OnePoint (ga m)) /\
    forall fuel s, vega fuel cf gray gens s =
      match cf_conditions cf with
      | Some l => ga (Z.of_nat (count_occ string_dec l "optimize"%string)) fuel s
      | None => match call1 (cf_objective cf) (map (fun _ => GInt 0) gens) s with
                | Ok (OTuple v) s1 => ga (Z.of_nat (List.length v)) fuel s1
                | Ok (OScalar _) _ => Err TypeError
                | Err e => Err e
                | NoFuel => NoFuel
                end
      end.
  Proof.
    intros cf gray gens N. exists (fun m fuel => ga_optimize fuel cf true (GenBinary gray gens bparams0) VegaHyperbola (SelVegaTournament m 3) OnePoint new_bin false). split.
    - intros m. eapply accepts; [|apply bin_levels|exact N]. split; [tauto|discriminate].
    - intros fuel s. unfold vega. destruct (cf_conditions cf) as [l|].
      + rewrite <- optimize_count. reflexivity.
      + unfold call_list, bind. destruct (call1 (cf_objective cf) _ s) as [[x|l] s1|e'|]; reflexivity.
  Qed.
End C88.

(** *** Examples: three configurations of a two-gene search, each with one fault more than
    the last; the first fault in the order above decides. *)
Local Existing Instance Qops.
Definition setup_gens : list bgene := [((0 : num), (3 : num), (1 : num)); ((0 : num), (3 : num), (1 : num))]%Q.
Definition setup_cf (inp : list (list gv)) (pen : penalty_arg) (conds : option (list string)) (l : lvl) (t : string) : config :=
  mkCfg 3 2 (Obj1 (fun _ _ => inr (OScalar (0 : num)%Q))) TNone None pen conds (9#10)%Q None inp 2 l t false.
Example C88_order :
  let three := [[GNum (0 : num)%Q]; [GNum (1 : num)%Q]; [GNum (2 : num)%Q]] in
  (forall fuel s, binary_ga fuel (setup_cf [] PNone None (LStr "weak") "worst") false setup_gens s = Err (PyException "transfer_parents")) /\
  (forall fuel s, binary_ga fuel (setup_cf [] PNone None (LStr "huge") "worst") false setup_gens s = Err (PyException "mutation level is not expected")) /\
  (forall fuel s, binary_ga fuel (setup_cf [] (PPen (Dynamic (1 : num)%Q (1#2)%Q (natural 1) (natural 1))) (Some ["<="; "<="]%string) (LStr "huge") "worst") false setup_gens s = Err ValueError) /\
  (forall fuel s, binary_ga fuel (setup_cf three PBad None (LStr "huge") "worst") false setup_gens s = Err (PyException "size of input population")) /\
  (forall e, ~ rejected True level_refused (setup_cf [[GNum (0 : num)%Q]] PNone None (LFloat (1#2)%Q) "random") e) /\
  (forall fuel s, categorical_ga fuel (setup_cf [] PNone None (LStr "normal") "worst") [] s = Err AttributeError).
Proof.
  cbv zeta.
  assert (F0 : forall pen c l t, individuals_fit (setup_cf [] pen c l t)) by (intros; left; reflexivity).
  assert (P0 : forall inp c l t, is_penalty (setup_cf inp PNone c l t)) by (intros; discriminate).
  assert (S0 : forall inp c l t, True -> something_to_optimize (setup_cf inp PNone c l t)) by (intros inp c l t _ p C; discriminate C).
  split; [|split; [|split; [|split; [|split]]]].
  - apply C88_binary. apply bad_transfer; auto; [|discriminate..]. intros e C. inversion C as [s N| | |]. apply N. left. reflexivity.
  - apply C88_binary. apply bad_mutation; auto. constructor. intros [C|[C|[C|[]]]]; discriminate C.
  - apply C88_binary. apply nothing; auto; [discriminate|]. intros C. specialize (C _ eq_refl (le_n 2)). destruct C as [C|[C|[]]]; discriminate C.
  - apply C88_binary. apply too_many. intros [C|C]; [discriminate C|]. cbn in C. lia.
  - intros e C. inversion C as [N|I N|I P _ N|e' I P S1 L|I P S1 L N1 N2]; [apply N; right; cbn; lia|apply N; discriminate|apply N; apply S0; exact Logic.I|inversion L as [|x Hx|x Hx|]; discriminate Hx|].
    apply N2. reflexivity.
  - apply C88_categorical. apply bad_mutation; auto. constructor.
Qed.
Print Assumptions C88_binary.
Print Assumptions C88_combinatory.
Print Assumptions C88_categorical.
Print Assumptions C88_ffga.
Print Assumptions C88_vega.
Print Assumptions C88_accepted.
Print Assumptions C88_vega_accepted.
