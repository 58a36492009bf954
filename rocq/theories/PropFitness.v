(** The objective function: how it is called (C48), how its return value is
    interpreted (C46), what happens to the caller's conditions list (C47), and the
    score computed from it (C41). *)
From Coq Require Import String.
From Coq Require Import ZArith QArith Qabs List Bool Lia Lqa Permutation Sorted.
From Verif Require Import Spec Num State Binary Population GaData Crossover Mutation Selection Penalty Fitness NewGeneration Driver
  ListLemmas Rnd Exec Laws PopulationProofs CrossoverProofs MutationProofs SelectionProofs VegaProofs
  NewGenProofs UpdateProofs FitnessProofs AssessProofs StepProofs RunProofs HistoryProofs Runs Fuelless PropRun PropBest Demo.
Import ListNotations.
Open Scope list_scope.
Open Scope Z_scope.

(** *** C48: the arguments *)
Section Calls.
  Context {NO : NumOps}.

  Definition given (d : option pyobj) : option pyobj :=
    match d with Some x => if truthy x then Some x else None | None => None end.
  (** [answers o a k genes res]: the objective, called for the (k+1)-st time and with
      the argument list [genes] or [a, genes], gives [res]. *)
  Inductive answers : objfun -> option pyobj -> nat -> list gv -> exn + oval -> Prop :=
  | answer_1 : forall f k genes, answers (Obj1 f) None k genes (f k genes)
  | answer_1_extra : forall f k d genes, answers (Obj1 f) (Some d) k genes (inl TypeError)
  | answer_2 : forall f k d genes, answers (Obj2 f) (Some d) k genes (f k d genes)
  | answer_2_missing : forall f k genes, answers (Obj2 f) None k genes (inl TypeError)
  | answer_12a : forall f f' k genes, answers (Obj12 f f') None k genes (f k genes)
  | answer_12b : forall f f' k d genes, answers (Obj12 f f') (Some d) k genes (f' k d genes).
  Lemma called_answers : forall f k genes res, called f k genes = res <-> answers (obj_function f) (given (input_data f)) k genes res.
  Proof.
    intros f k genes res. unfold called, given. split.
    - intros <-. destruct (input_data f) as [d|]; [destruct (truthy d)|]; destruct (obj_function f); constructor.
    - intros H. destruct (input_data f) as [d|]; [destruct (truthy d)|]; inversion H; subst; auto.
  Qed.

  (** C48 for one evaluation: an unscored individual is passed to the objective, with
      input_data in front when it is truthy; errors come out unchanged; the call is
      the only one. *)
  Theorem C48_evaluation : forall f gen best r s res, score (heap s r) = SVNone ->
    answers (obj_function f) (given (input_data f)) (length (log s)) (genotype (heap s r)) res ->
    match res with
    | inl e => evaluate f gen best r s = Err e
    | inr v => forall u s', evaluate f gen best r s = Ok u s' -> log s' = (genotype (heap s r), v) :: log s
    end.
  Proof.
    intros f gen best r s res Hn A. apply called_answers in A. pose proof (evaluate_run f gen best r s) as E. rewrite Hn in E. specialize (E eq_refl).
    rewrite A in E. destruct res as [e|v]; auto. intros u s' H. destruct (assess f gen best v (heap s r)) as [e|j]; [congruence|].
    destruct E as (s'' & E & _ & L). rewrite E in H. inversion H; subst. auto.
  Qed.

  (** The calls of a run, oldest first: each is answered by the objective. *)
  Definition genuine (o : objfun) (a : option pyobj) (k : nat) (cs : list (list gv * oval)) : Prop :=
    forall i pt v, nth_error cs i = Some (pt, v) -> answers o a (k + i) pt (inr v).
  Lemma genuine_nil : forall o a k, genuine o a k [].
  Proof. intros o a k [|i] pt v H; discriminate. Qed.
  Lemma genuine_cons : forall o a k pt v cs, answers o a k pt (inr v) -> genuine o a (S k) cs -> genuine o a k ((pt, v) :: cs).
  Proof.
    intros o a k pt v cs A H [|i] pt' v' E; cbn in E.
    - inversion E; subst. rewrite Nat.add_0_r. auto.
    - replace (k + S i)%nat with (S k + i)%nat by lia. apply H. auto.
  Qed.
  Lemma genuine_app : forall o a k cs cs', genuine o a k cs -> genuine o a (k + length cs) cs' -> genuine o a k (cs ++ cs').
  Proof.
    intros o a k cs cs' H H' i pt v E. destruct (lt_dec i (length cs)) as [L|L].
    - rewrite nth_error_app1 in E by auto. auto.
    - rewrite nth_error_app2 in E by lia. apply H' in E. replace (k + i)%nat with (k + length cs + (i - length cs))%nat by lia. auto.
  Qed.
  Lemma genuine_assessed : forall f g gen best h h' k us cs, assessed f g gen best h h' k us cs ->
    genuine (obj_function f) (given (input_data f)) k cs.
  Proof.
    induction 1 as [k|k r us v cs Cv As H IH]; [apply genuine_nil|]. apply genuine_cons; auto. apply called_answers; auto.
  Qed.
  Definition genuine_inv (f : fitness) (lg0 : list (list gv * oval)) (s : st) : Prop :=
    exists cs, cs <> [] /\ log s = rev cs ++ lg0 /\ genuine (obj_function f) (given (input_data f)) (length lg0) cs.

  (** C48 for whole runs. *)
  Theorem C48_run : forall ok, NumOrder NO ok -> forall fuel c gd0 s0,
    single c -> good_scores ok (c_fitness c) -> started gd0 s0 ->
    forall k c' gd' s', at_generation fuel c gd0 s0 k c' gd' s' ->
    exists calls, calls <> [] /\ log s' = rev calls ++ log s0 /\
      genuine (obj_function (c_fitness c)) (given (input_data (c_fitness c))) (length (log s0)) calls.
  Proof.
    intros ok NL fuel c gd0 s0 Si Go St k c' gd' s' H. change (genuine_inv (c_fitness c) (log s0) s').
    destruct (gen_inv ok NL fuel c gd0 s0 Si Go St (fun c1 gd s => genuine_inv (c_fitness c) (log s0) s)) with (k := k) (c' := c') (gd' := gd') (s' := s')
      as (_ & _ & G); auto.
    - intros gd s cs l0 bst md w F G. exists cs. pose proof (fi_eval _ _ _ _ _ _ _ _ _ _ F) as As.
      split; [|split; [exact (fi_log _ _ _ _ _ _ _ _ _ _ F)|eapply genuine_assessed; eauto]].
      intros ->. apply assessed_length in As. destruct (fi_members _ _ _ _ _ _ _ _ _ _ F) as [Em Pm]. apply Permutation_length in Pm.
      rewrite Em, app_length in Pm. cbn in *. lia.
    - intros c1 gd1 s1 c2 gd2 s2 kids els h cs l0 bst md w Sc G1 (cs1 & N1 & L1 & Ge1) S G2. exists (cs1 ++ cs).
      pose proof (st_eval _ _ _ _ _ _ _ _ _ _ _ _ _ _ S) as As. pose proof (st_log _ _ _ _ _ _ _ _ _ _ _ _ _ _ S) as L. destruct Sc as (Ef & _).
      split; [destruct cs1; [congruence|discriminate]|]. split; [rewrite L, L1, rev_app_distr, app_assoc; reflexivity|].
      apply genuine_app; auto. apply genuine_assessed in As. rewrite L1, app_length, rev_length in As.
      rewrite Ef, Nat.add_comm in As || rewrite <- Ef, Nat.add_comm in As. exact As.
  Qed.

  (** A run in which the objective needs two arguments and input_data is falsy, or
      takes one argument and input_data is truthy, never ends normally. *)
  Definition arity_mismatch (o : objfun) (d : option pyobj) : Prop :=
    match o, given d with Obj2 _, None | Obj1 _, Some _ => True | _, _ => False end.
  Theorem C48_mismatch_run : forall fuel c gd0 s0, single c -> started gd0 s0 ->
    arity_mismatch (obj_function (c_fitness c)) (input_data (c_fitness c)) ->
    forall k c' gd' s', ~ at_generation fuel c gd0 s0 k c' gd' s'.
  Proof.
    intros fuel c gd0 s0 Si St Ar k c' gd' s' H.
    assert (NF : forall k genes v, ~ answers (obj_function (c_fitness c)) (given (input_data (c_fitness c))) k genes (inr v)).
    { intros k' genes v A. unfold arity_mismatch in Ar. inversion A as [f k1 g E0 E1|f k1 d g|f k1 d g E0 E1|f k1 g|f f' k1 g E0 E1|f f' k1 d g E0 E1]; subst;
        try rewrite <- E0 in Ar; try rewrite <- E1 in Ar; auto. }
    destruct (C48_run (fun _ => False)) with (fuel := fuel) (c := c) (gd0 := gd0) (s0 := s0) (k := k) (c' := c') (gd' := gd') (s' := s')
      as (calls & Hc & _ & G); auto.
    - constructor; intros; contradiction.
    - intros k' genes gen best v i j C _. apply called_answers in C. destruct (NF _ _ _ C).
    - destruct calls as [|[pt v] calls]; [congruence|]. apply (NF (length (log s0) + 0)%nat pt v). apply G. reflexivity.
  Qed.

  (** The ranking of the multi-objective classes passes the decoded genotype alone,
      whatever input_data is: n(n-1) calls with one argument, and TypeError for an
      objective that needs two. *)
  Definition made_calls (o : objfun) (n : nat) (s s' : st) : Prop :=
    exists cs, log s' = rev cs ++ log s /\ length cs = n /\ genuine o None (length (log s)) cs.
  Lemma made_none : forall o s s', log s' = log s -> made_calls o 0 s s'.
  Proof. intros o s s' E. exists []. split; auto. split; auto. apply genuine_nil. Qed.
  Lemma made_trans : forall o n m s s1 s2, made_calls o n s s1 -> made_calls o m s1 s2 -> made_calls o (n + m) s s2.
  Proof.
    intros o n m s s1 s2 (cs & L & E & G) (cs' & L' & E' & G'). exists (cs ++ cs'). rewrite L', L, rev_app_distr, app_assoc. split; auto.
    split; [rewrite app_length; congruence|]. apply genuine_app; auto. rewrite L, app_length, rev_length in G'. rewrite Nat.add_comm. auto.
  Qed.
  Lemma call_list_made : forall o genes s l s', call_list o genes s = Ok l s' -> made_calls o 1 s s'.
  Proof.
    intros o genes s l s' H. unfold call_list in H. bd H v s1 R. assert (s' = s1) by (destruct v; [discriminate|]; apply ret_ok in H; destruct H; auto). subst s1.
    exists [(genes, v)]. unfold call1, call_logged in R.
    destruct o as [f|f|f f']; [|discriminate|]; destruct (f _ _) as [e|w] eqn:E; inversion R; subst;
      (split; [reflexivity|]; split; [reflexivity|]; apply genuine_cons; [|apply genuine_nil]; rewrite <- E; constructor).
  Qed.
  Lemma phen_of_log : forall r s l s', phen_of r s = Ok l s' -> s' = s.
  Proof.
    intros r s l s' H. unfold phen_of in H. bd H i s1 R. apply get_ok in R. destruct R as [-> ->].
    destruct (phenotype (heap s r)) as [[ph|]|]; try discriminate. apply ret_ok in H. destruct H; auto.
  Qed.
  Lemma compare_pair_made : forall o x y s u s', compare_pair o x y s = Ok u s' -> made_calls o 2 s s'.
  Proof.
    intros o x y s u s' H. unfold compare_pair in H. bd H inf s1 R. unfold inferior in R.
    bd R px sa Ra. apply phen_of_log in Ra. subst sa. bd R xs sb Rb. bd R py sc Rc. apply phen_of_log in Rc. subst sc. bd R ys sd Rd.
    assert (sd = s1). { destruct (lst_eqb xs ys); [apply ret_ok in R; destruct R; auto|]. bd R ms se Re. apply lift_ok in Re. destruct Re as [_ ->]. apply ret_ok in R. destruct R; auto. }
    subst sd. apply call_list_made in Rb. apply call_list_made in Rd. change 2%nat with (1 + 1 + 0)%nat.
    eapply made_trans; [eapply made_trans; eauto|]. apply made_none.
    destruct inf as [r|]; [|apply ret_ok in H; destruct H as [_ ->]; auto]. unfold incr_rank in H. bd H i se Re. apply get_ok in Re. destruct Re as [-> ->].
    destruct (rank (heap s1 r)) as [[|z|z]|]; try discriminate. apply modify_ok in H. subst s'. reflexivity.
  Qed.
  Theorem C48_ranking : forall o l s u s', assign_ranks o l s = Ok u s' ->
    exists calls, log s' = rev calls ++ log s /\ length calls = (length l * (length l - 1))%nat /\ genuine o None (length (log s)) calls.
  Proof.
    intros o l s u s' H. change (made_calls o (length l * (length l - 1)) s s'). unfold assign_ranks in H. bd H u1 s1 R.
    assert (L1 : log s1 = log s).
    { clear - R. revert s R. generalize l. clear l. induction l as [|x l IH]; intros s R; cbn [miter] in R; [apply ret_ok in R; destruct R as [_ ->]; auto|].
      bd R u2 s2 R2. apply modify_ok in R2. subst s2. apply IH in R. rewrite R. reflexivity. }
    change (length l * (length l - 1))%nat with (0 + length l * (length l - 1))%nat. apply made_trans with s1; [apply made_none; auto|].
    clear - H. revert s1 H. induction l as [|x l IH]; intros s H; cbn [compare_all] in H; [apply ret_ok in H; destruct H as [_ ->]; apply made_none; auto|].
    bd H u1 s1 R. apply IH in H. cbn [length]. replace (S (length l) * (S (length l) - 1))%nat with (2 * length l + length l * (length l - 1))%nat.
    2:{ destruct (length l) as [|n]; [reflexivity|]. rewrite !Nat.sub_succ, !Nat.sub_0_r. nia. }
    apply made_trans with s1; auto. clear - R. revert s R. induction l as [|y l IH]; intros s R; cbn [miter] in R; [apply ret_ok in R; destruct R as [_ ->]; apply made_none; auto|].
    bd R u2 s2 R2. apply compare_pair_made in R2. apply IH in R. cbn [length]. replace (2 * S (length l))%nat with (2 + 2 * length l)%nat by lia. eapply made_trans; eauto.
  Qed.
  Theorem C48_ranking_two_args : forall f l s u s', (2 <= length l)%nat -> assign_ranks (Obj2 f) l s <> Ok u s'.
  Proof.
    intros f l s u s' L H. apply C48_ranking in H. destruct H as ([|[pt v] cs] & _ & E & G); [destruct l as [|a [|b l]]; cbn in *; lia|].
    specialize (G 0%nat pt v eq_refl). inversion G.
  Qed.
End Calls.

(** *** C46: the return value *)
Section Returned.
  Context {NO : NumOps} (o : objfun) (d : option pyobj).

  (** Without a penalty, or with fewer than two conditions. *)
  Theorem C46_plain : forall t pen conds f cl' gen best r s v,
    new_fitness Hyperbola o t d pen conds = inr (f, cl') ->
    pen = PNone \/ match conds with Some cl => (length cl <= 1)%nat | None => True end ->
    score (heap s r) = SVNone -> answers o (given d) (length (log s)) (genotype (heap s r)) (inr v) ->
    match v with
    | OTuple l => evaluate f gen best r s = Err (if 1 <? Z.of_nat (length l) then PyException "number of returned values must be 1" else TypeError)
    | OScalar x =>
        let scored y := exists s', evaluate f gen best r s = Ok tt s' /\ obj_score (heap s' r) = SV1 x /\ score (heap s' r) = SV1 y /\
                                   feasible (heap s' r) = feasible (heap s r) in
        match t with
        | TNone => scored (nopp (nadd x nzero))
        | T1 t => let y := nadd (nadd none_ (nabs (nsub t x))) nzero in
                  if neqb y nzero then evaluate f gen best r s = Err ZeroDivisionError else scored (ndiv_raw none_ y)
        | TL _ => evaluate f gen best r s = Err TypeError
        end
    end.
  Proof.
    intros t pen conds f cl' gen best r s v N P Un A. destruct (new_fitness_plain _ _ _ _ _ _ _ _ N P) as (Fk & Nc & _ & <- & Et & <-).
    apply called_answers in A. pose proof (evaluate_run f gen best r s) as E. rewrite Un in E. specialize (E eq_refl). rewrite A in E.
    destruct v as [x|l]; [|rewrite assess_tuple in E; auto].
    rewrite assess_scalar in E; auto. unfold score_of in E. rewrite Et in E. cbv zeta. destruct t as [|t|ts]; auto.
    - destruct E as (s' & E & Eh & _). exists s'. rewrite Eh. auto.
    - unfold hyper, py_div in E. destruct (neqb _ nzero); auto. destruct E as (s' & E & Eh & _). exists s'. rewrite Eh. auto.
  Qed.

  (** With a penalty and two or more conditions: the exact outcome.  [cl] is the
      caller's list of conditions; its first optimize stands between [pre] and [post]. *)
  Theorem C46_conditional : forall t p cl f cl' gen best r s v,
    new_fitness Hyperbola o t d (PPen p) (Some cl) = inr (f, cl') -> (2 <= length cl)%nat ->
    score (heap s r) = SVNone -> answers o (given d) (length (log s)) (genotype (heap s r)) (inr v) ->
    match v with
    | OScalar _ => evaluate f gen best r s = Err (PyException "must return more then 1 value")
    | OTuple l =>
        (length l <> length cl -> evaluate f gen best r s = Err (PyException "number of returned values")) /\
        (forall pre post vpre x vpost, cl = pre ++ "optimize"%string :: post -> ~ In "optimize"%string pre ->
           l = vpre ++ x :: vpost -> length vpre = length pre -> length vpost = length post ->
           match penalty_execute p (pre ++ post) (vpre ++ vpost) gen best with
           | inl e => evaluate f gen best r s = Err e
           | inr pen =>
               match score_of f x pen with
               | inl e => evaluate f gen best r s = Err e
               | inr y => exists s', evaluate f gen best r s = Ok tt s' /\ obj_score (heap s' r) = SV1 x /\ score (heap s' r) = SV1 y
               end
           end)
    end.
  Proof.
    intros t p cl f cl' gen best r s v N L Un A. apply conditional_built in N; auto. destruct N as (pre & post & -> & Hn & K & _ & <- & _ & <-).
    apply called_answers in A. pose proof (evaluate_run f gen best r s) as E. rewrite Un in E. specialize (E eq_refl). rewrite A in E.
    destruct v as [x|l]; [rewrite (assess_cond_scalar _ _ _ _ _ _ _ _ K) in E; auto|]. split.
    - intros Hl. rewrite (assess_cond_length _ _ _ _ _ _ _ _ K) in E; auto. rewrite app_length in *. cbn [length] in *. lia.
    - intros pre' post' vpre x vpost Ec Hn' -> L1 L2.
      assert (pre' = pre /\ post' = post) as [-> ->].
      { clear - Ec Hn Hn'. revert pre' Ec Hn'. induction pre as [|a pre IH]; intros [|b pre'] E Hn'; cbn in E; inversion E; subst; auto.
        - destruct Hn'. left; auto.
        - destruct Hn. left; auto.
        - destruct (IH) with (pre' := pre') as [-> ->]; auto; intros C; [apply Hn|apply Hn']; right; auto. }
      rewrite (assess_cond_exact _ _ _ _ _ _ _ _ _ _ K L1 L2) in E.
      destruct (penalty_execute p (pre ++ post) (vpre ++ vpost) gen best) as [e|pn]; auto. destruct (score_of f x pn) as [e|y]; auto.
      destruct E as (s' & E & Eh & _). exists s'. rewrite Eh. split; auto. split; auto. destruct (forallb2_holds _ _); reflexivity.
  Qed.
End Returned.

(** *** C47: the caller's list *)
Section Consumed.
  Context {NO : NumOps}.

  (** Single-objective, penalty, two or more conditions: the first optimize is gone
      from the caller's list. *)
  Theorem C47_removed : forall o t d p pre post, ~ In "optimize"%string pre -> (1 <= length (pre ++ post))%nat ->
    exists f, new_fitness Hyperbola o t d (PPen p) (Some (pre ++ "optimize"%string :: post)) = inr (f, Some (pre ++ post)).
  Proof.
    intros o t d p pre post Hn L. unfold new_fitness. destruct (index_of_at _ pre post Hn) as [E1 E2]. rewrite E1, E2. cbn [is_multi_kind].
    replace (_ <=? 1) with false; [eauto|]. symmetry. apply Z.leb_gt. rewrite app_length in *. cbn [length]. lia.
  Qed.
  (** Multi-objective: the list is as before. *)
  Theorem C47_multi : forall k o t d p cl f cl', k <> Hyperbola -> new_fitness k o t d p cl = inr (f, cl') -> cl' = cl.
  Proof.
    intros k o t d p cl f cl' Hk H. unfold new_fitness in H. destruct p; [inversion H; auto| |discriminate].
    destruct (_ <=? 1); [inversion H; auto|]. destruct k; [congruence| |]; inversion H; auto.
  Qed.
  Definition with_conditions (cl : option (list string)) (cf : config) : config :=
    mkCfg (cf_num_generations cf) (cf_num_individ cf) (cf_objective cf) (cf_obj_value cf) (cf_input_data cf) (cf_penalty cf) cl
          (cf_children_percent cf) (cf_early_stop cf) (cf_input_population cf) (cf_tournament_size cf) (cf_mutation_lvl cf) (cf_transfer cf) (cf_is_print cf).
  (** The objective returns tuples of the length of the original list. *)
  Definition returns_tuples (o : objfun) (n : nat) : Prop :=
    forall a k genes v, answers o a k genes (inr v) -> exists l, v = OTuple l /\ length l = n.
  Lemma err_bind : forall {A B} (m : M A) (k : A -> M B) s, fuelless m -> (forall a s1, m s = Ok a s1 -> exists e, k a s1 = Err e) -> exists e, bind m k s = Err e.
  Proof. intros A B m k s F H. unfold bind. destruct (m s) as [a s1|e|] eqn:E; eauto. exfalso. eapply F; eauto. Qed.
  Lemma err_first : forall {A B} (m : M A) (k : A -> M B) s, (exists e, m s = Err e) -> exists e, bind m k s = Err e.
  Proof. intros A B m k s (e & H). unfold bind. rewrite H. eauto. Qed.
  Lemma err_lift : forall {A B} (m : exn + A) (k : A -> M B) s, (forall a, m = inr a -> exists e, k a s = Err e) -> exists e, bind (lift m) k s = Err e.
  Proof. intros A B m k s H. unfold bind, lift. destruct m; eauto. Qed.
  (** After a run, the same object is used again: [cl1] is what the first run left of
      its list of conditions.  The second run raises ValueError when three or more
      conditions were given, whatever the generator state; with two it raises too. *)
  Theorem C47_second_run : forall fuel cf g sel ck mk s gd cl1 s1 p cl, objectives_ok sel ->
    ga_optimize fuel cf false g Hyperbola sel ck mk false s = Ok (gd, cl1) s1 ->
    cf_penalty cf = PPen p -> cf_conditions cf = Some cl -> count_occ string_dec cl "optimize"%string = 1%nat ->
    returns_tuples (cf_objective cf) (length cl) -> (2 <= length cl)%nat ->
    forall fuel2 s2,
      ((3 <= length cl)%nat -> ga_optimize fuel2 (with_conditions cl1 cf) false g Hyperbola sel ck mk false s2 = Err ValueError) /\
      exists e, ga_optimize fuel2 (with_conditions cl1 cf) false g Hyperbola sel ck mk false s2 = Err e.
  Proof.
    intros fuel cf g sel ck mk s gd cl1 s1 p cl Ho H Ep Ec Co Rt L fuel2 s2.
    apply optimize_run in H; [|repeat split; auto]. destruct H as (p0 & sa & p' & sb & f & m & ng & c' & Sp & _ & _ & Nf & _).
    rewrite Ep, Ec in Nf. apply conditional_built in Nf; auto. destruct Nf as (pre & post & -> & Hn & _ & -> & _).
    assert (Hn' : ~ In "optimize"%string (pre ++ post)).
    { rewrite count_occ_app in Co. cbn [count_occ] in Co. destruct (string_dec "optimize" "optimize") as [_|C]; [|congruence].
      intros C. apply (count_occ_In string_dec) in C. rewrite count_occ_app in C. lia. }
    rewrite app_length in L. cbn [length] in L.
    assert (First3 : (3 <= length (pre ++ "optimize"%string :: post))%nat ->
      ga_optimize fuel2 (with_conditions (Some (pre ++ post)) cf) false g Hyperbola sel ck mk false s2 = Err ValueError).
    { intros L3. unfold ga_optimize. cbn [with_conditions cf_num_individ cf_input_population cf_objective cf_obj_value cf_input_data cf_penalty cf_conditions].
      unfold bind. destruct (do_seed s2) as [u s3|e|] eqn:D; [|unfold do_seed in D; destruct (rnd_seed s2); discriminate|unfold do_seed in D; destruct (rnd_seed s2); discriminate].
      rewrite Sp. unfold lift at 1. rewrite Ep. unfold new_fitness.
      rewrite app_length in L3. cbn [length] in L3.
      replace (_ <=? 1) with false by (symmetry; apply Z.leb_gt; rewrite app_length; lia). cbn [is_multi_kind].
      destruct (index_of "optimize" (pre ++ post)) as [i|] eqn:Ei; [|reflexivity]. apply index_of_split in Ei. destruct Ei as (a & b & Eab & _).
      exfalso. apply Hn'. rewrite Eab. apply in_or_app. right; left; auto. }
    split; auto. destruct (le_lt_dec 3 (length (pre ++ "optimize"%string :: post))) as [L3|L3]; [exists ValueError; auto|].
    rewrite app_length in L3. cbn [length] in L3. unfold ga_optimize.
    set (cf2 := with_conditions (Some (pre ++ post)) cf).
    apply err_bind; [apply fl_do_seed|]. intros u sa' R1. destruct u. apply err_lift. intros p1 Sp1. apply err_lift. intros [f2 cl2] Nf. apply err_lift. intros m2 Nm. apply err_lift.
    intros ng2 Nn. apply err_bind; [apply fl_fill|]. intros p2 sd Fi. cbv zeta. apply err_first. unfold run_loop. cbn [fst c_fitness].
    cbn [with_conditions cf_objective cf_obj_value cf_input_data cf_penalty cf_conditions cf2] in Nf.
    destruct (new_fitness_plain _ _ _ _ _ _ _ _ Nf) as (Fk & Nc & _ & Eo & _ & _); [right; rewrite app_length; lia|].
    apply err_bind; [apply fl_fitness_execute|]. intros u se R2. apply err_first. destruct (update _ se) as [gd1 s3|e|] eqn:R3; [|eauto|exfalso; eapply fl_update; eauto].
    exfalso.
    assert (NF : forall k genes gen best v i j, called f2 k genes = inr v -> assess f2 gen best v i <> inr j).
    { intros k0 genes gen best v i j Cv As. apply called_answers in Cv. rewrite Eo in Cv. apply Rt in Cv. destruct Cv as (l & -> & _).
      rewrite assess_tuple in As; auto. discriminate. }
    set (gd0 := new_gadata false (cf_num_generations cf2) (cf_children_percent cf2) (resolved_stop cf2) p2) in *.
    set (c := mkComps f2 sel ck m2 ng2).
    assert (Si : single c).
    { split; [exact Fk|]. split; [|exact Ho]. unfold new_newgen in Nn. cbn [c c_newgen]. destruct (String.eqb _ _); [inversion Nn; reflexivity|]. destruct (String.eqb _ _); inversion Nn; reflexivity. }
    assert (St : started gd0 sd).
    { exists (cf_num_individ cf2), g, (cf_input_population cf2), p1, sa', p2, (cf_num_generations cf2), (cf_children_percent cf2), (resolved_stop cf2). auto. }
    assert (A : at_generation fuel2 c gd0 sd 0 c gd1 s3).
    { exists gd1, s3. split; [|constructor]. unfold first_generation, bind. cbn [c_fitness c]. rewrite R2. exact R3. }
    assert (Go : good_scores (fun _ => False) (c_fitness c)).
    { intros k0 genes gen best v i j Cv As. destruct (NF _ _ _ _ _ _ _ Cv As). }
    assert (NL : NumOrder NO (fun _ => False)) by (constructor; intros; contradiction).
    destruct (C37_best_of_all _ NL _ _ _ _ Si Go St Nc _ _ _ _ A) as (calls & i & gi & pt & x & y & El & _ & _ & Iv & _).
    destruct (C48_run _ NL _ _ _ _ Si Go St _ _ _ _ A) as (calls' & _ & El' & Ge).
    rewrite El in El'. apply app_inv_tail in El'. rewrite El' in Iv. apply in_rev in Iv. apply In_nth_error in Iv. destruct Iv as (n & Iv).
    apply Ge in Iv. cbn [c_fitness c] in Iv. rewrite Eo in Iv. apply Rt in Iv. destruct Iv as (l & C & _). discriminate.
  Qed.
End Consumed.

(** *** C41: the score *)
Local Existing Instance Qops.
Definition distance (t x pen : Q) : Q := (Qabs (t - x) + pen)%Q.
Theorem C41_range : forall f i t x pen, fkind f = Hyperbola -> obj_value f = T1 t -> obj_score i = SV1 x -> (0 <= pen)%Q ->
  exists y, get_fitness_score f i pen = inr (SV1 y) /\ (0 < y <= 1)%Q /\ (y == 1 <-> x == t /\ pen == 0)%Q.
Proof.
  intros f i t x pen Fk Et Ex Hp. rewrite (fitness_score_of f i x) by auto. unfold score_of. rewrite Et, hyper_Q by auto.
  eexists. split; [reflexivity|]. pose proof (nabs_Qabs (t - x)%Q) as E. pose proof (nabs_nonneg (t - x)%Q) as N. revert E N. generalize (nabs (t - x)%Q). change (@num Qops) with Q.
  intros a E N. assert (P : (0 < 1 + a + pen)%Q) by lra. split; [split|].
  - apply Qlt_shift_div_l; lra.
  - apply Qle_shift_div_r; lra.
  - assert (K : (1 / (1 + a + pen) == 1 <-> a + pen == 0)%Q).
    { split; intros H.
      - assert (H1 : (1 / (1 + a + pen) * (1 + a + pen) == 1 + a + pen)%Q) by (rewrite H; ring).
        rewrite Qmult_comm, Qmult_div_r in H1 by lra. lra.
      - setoid_replace (1 + a + pen)%Q with 1%Q by lra. reflexivity. }
    rewrite K. split.
    + intros H. assert (a == 0)%Q by lra. split; [|lra]. rewrite E in H0. revert H0. apply Qabs_case; intros; lra.
    + intros [H1 H2]. rewrite E. setoid_replace (t - x)%Q with 0%Q by lra. cbn. lra.
Qed.
Theorem C41_decreasing : forall f i1 i2 t x1 x2 p1 p2 y1 y2, fkind f = Hyperbola -> obj_value f = T1 t ->
  obj_score i1 = SV1 x1 -> obj_score i2 = SV1 x2 -> (0 <= p1)%Q -> (0 <= p2)%Q ->
  get_fitness_score f i1 p1 = inr (SV1 y1) -> get_fitness_score f i2 p2 = inr (SV1 y2) ->
  ((y2 < y1)%Q <-> (distance t x1 p1 < distance t x2 p2)%Q).
Proof.
  intros f i1 i2 t x1 x2 p1 p2 y1 y2 Fk Et E1 E2 H1 H2. rewrite (fitness_score_of f i1 x1), (fitness_score_of f i2 x2) by auto.
  unfold score_of. rewrite Et, !hyper_Q by auto. intros S1 S2. apply inr_inj in S1. apply inr_inj in S2.
  assert (K : forall a b : num, SV1 a = SV1 b -> a = b) by (intros a b E; inversion E; auto). apply K in S1. apply K in S2. subst y1 y2. clear K.
  unfold distance. rewrite <- !nabs_Qabs. pose proof (nabs_nonneg (t - x1)%Q) as A. pose proof (nabs_nonneg (t - x2)%Q) as B. revert A B.
  generalize (nabs (t - x1)%Q) (nabs (t - x2)%Q). change (@num Qops) with Q. intros a b A B. split; intros H.
  - apply Qnot_le_lt. intros C. apply (Qlt_irrefl (1 / (1 + a + p1))). eapply Qle_lt_trans; [|exact H].
    apply Qle_shift_div_l; [lra|]. setoid_replace (1 / (1 + a + p1) * (1 + b + p2))%Q with ((1 + b + p2) / (1 + a + p1))%Q by (field; lra). apply Qle_shift_div_r; lra.
  - apply Qnot_le_lt. intros C. apply inverse_mono in C; lra.
Qed.
Theorem C41_no_target : forall f i1 i2 x1 x2 p1 p2, fkind f = Hyperbola -> obj_value f = TNone -> obj_score i1 = SV1 x1 -> obj_score i2 = SV1 x2 ->
  exists y1 y2, get_fitness_score f i1 p1 = inr (SV1 y1) /\ get_fitness_score f i2 p2 = inr (SV1 y2) /\
    (y1 == - (x1 + p1))%Q /\ ((y2 < y1)%Q <-> (x1 + p1 < x2 + p2)%Q).
Proof.
  intros f i1 i2 x1 x2 p1 p2 Fk Et E1 E2. rewrite (fitness_score_of f i1 x1), (fitness_score_of f i2 x2) by auto.
  unfold score_of. rewrite Et. unfold neg_score. cbn. eexists _, _. split; [reflexivity|]. split; [reflexivity|]. split; [reflexivity|]. split; intros; lra.
Qed.
Lemma hypers_cons : forall {NO : NumOps} t ts x xs pen, hypers (t :: ts) (x :: xs) pen =
  match hyper t x pen with inl e => inl e | inr y => match hypers ts xs pen with inl e => inl e | inr ys => inr (y :: ys) end end.
Proof. reflexivity. Qed.
(** VEGA: component by component, target j against objective j. *)
Theorem C41_vega : forall f i pen ys, fkind f = VegaHyperbola -> (0 <= pen)%Q -> get_fitness_score f i pen = inr (SVL ys) ->
  exists xs, obj_score i = SVL xs /\ length ys = length xs /\
    forall j x y, nth_error xs j = Some x -> nth_error ys j = Some y ->
    match obj_value f with
    | TNone => (y == - (x + pen))%Q
    | T1 _ => False
    | TL ts => exists t, nth_error ts j = Some t /\ (y == 1 / (1 + distance t x pen))%Q
    end.
Proof.
  intros f i pen ys Fk Hp H. unfold get_fitness_score in H. rewrite Fk in H. destruct (obj_value f) as [|t|ts].
  - destruct (obj_score i) as [|x|xs]; try discriminate. inversion H; subst. exists xs. split; auto. split; [apply map_length|].
    intros j x y Hx Hy. apply (map_nth_error (fun x : Q => (- (x + pen))%Q)) in Hx.
    assert (E : Some y = Some (- (x + pen))%Q) by (etransitivity; [symmetry; exact Hy|exact Hx]). inversion E. reflexivity.
  - destruct (obj_score i) as [|x|[|x xs]]; try discriminate. inversion H; subst. exists []. split; auto. split; auto. intros [|j] x y C; discriminate.
  - destruct (obj_score i) as [|x|xs]; try discriminate. exists xs. split; auto. destruct (hypers ts xs pen) as [|ys'] eqn:E; [discriminate|]. inversion H; subst ys'. clear H.
    revert ts ys E. induction xs as [|x xs IH]; intros ts ys E.
    + assert (ys = []) by (destruct ts; inversion E; auto). subst ys. split; [reflexivity|]. intros j x y C. destruct j; discriminate C.
    + destruct ts as [|t ts]; [discriminate|]. rewrite hypers_cons, hyper_Q in E by auto. destruct (hypers ts xs pen) as [|ys'] eqn:E2; [discriminate|].
      destruct (IH _ _ E2) as [L K]. apply inr_inj in E. subst ys. split; [cbn; auto|].
      intros [|j] x' y' Hx Hy; cbn [nth_error] in *; [|apply K; auto]. exists t. split; auto. inversion Hx; subst x'. injection Hy as Hy. subst y'.
      unfold distance. rewrite <- nabs_Qabs. rewrite Qplus_assoc. reflexivity.
Qed.

(** *** Cases *)
Example C41_case : (distance 5 2 1 < distance 5 7 3)%Q /\ get_fitness_score (mkFit Hyperbola demo_obj (T1 5%Q) None None [] false []) (set_obj_score_f (q 2) (ind [] SVNone)) 1%Q = inr (q (1#5)).
Proof. split; [reflexivity|vm_compute; reflexivity]. Qed.
Lemma answers_one : forall f a k genes v, answers (Obj1 f) a k genes (inr v) -> a = None /\ f k genes = inr v.
Proof. intros f a k genes v H. inversion H; auto. Qed.
Definition pair_obj : objfun := Obj12 (fun k genes => inr (OTuple (repeat (inject_Z (Z.of_nat k)) (length genes))))
  (fun k d genes => if obj_id d =? 7 then inr (OScalar 1%Q) else inl ValueError).
(** Three values are returned; without a penalty this raises, with three conditions
    the second value is the objective. *)
Example C46_case : exists f f' cl', new_fitness Hyperbola cond_obj (T1 9%Q) None PNone None = inr (f, None) /\
  new_fitness Hyperbola cond_obj (T1 9%Q) None (PPen (Dynamic 2%Q (1#2) (natural 2) (natural 1))) (Some cond_list) = inr (f', Some cl') /\
  answers cond_obj None 0 (ints [2; 5; 1]) (inr (OTuple [0; 8; 0]%Q)) /\
  evaluate f 3 BNone 0 (world [ind (ints [2; 5; 1]) SVNone] []) = Err (PyException "number of returned values must be 1") /\
  observe (fun _ s => (obj_score (heap s 0%nat), score (heap s 0%nat))) (evaluate f' 3 BNone 0 (world [ind (ints [2; 5; 1]) SVNone] [])) = Some (q 8, q (4 # 8)).
Proof. eexists _, _, _. split; [reflexivity|]. split; [reflexivity|]. split; [exact (proj1 (called_answers (mkFit Hyperbola cond_obj TNone None None [] false []) 0 (ints [2; 5; 1]) _) eq_refl)|]. split; [reflexivity|vm_compute; reflexivity]. Qed.
Example C46_missing_value_case : new_fitness Hyperbola demo_obj TNone None (PPen (Dynamic 2%Q (1#2) (natural 2) (natural 1))) (Some cond_list)
    = inr (mkFit Hyperbola demo_obj TNone None (Some (Dynamic 2%Q (1#2) (natural 2) (natural 1))) ["<="; "!="]%string true [1], Some ["<="; "!="]%string) /\
  evaluate (mkFit Hyperbola demo_obj TNone None (Some (Dynamic 2%Q (1#2) (natural 2) (natural 1))) ["<="; "!="]%string true [1]) 3 BNone 0 (world [ind (ints [2; 5; 1]) SVNone] [])
    = Err (PyException "must return more then 1 value").
Proof. split; reflexivity. Qed.
(** The run of C42_run_case ends normally and leaves two conditions; using the
    configuration again raises. *)
Example C47_case : returns_tuples cond_obj 3 /\ count_occ string_dec cond_list "optimize"%string = 1%nat /\
  observe (fun r _ => snd r) (categorical_ga 50 (cond_cf (Dynamic 2%Q (1#2) (natural 2) (natural 1))) pools fresh_world) = Some (Some ["<="; "!="]%string) /\
  categorical_ga 50 (with_conditions (Some ["<="; "!="]%string) (cond_cf (Dynamic 2%Q (1#2) (natural 2) (natural 1)))) pools fresh_world = Err ValueError.
Proof.
  split; [|split; [reflexivity|split; [run|reflexivity]]]. intros a k genes v H.
  apply answers_one in H. destruct H as [_ E4].
  destruct genes as [|[| |x|] [|[| |y|] [|[| |z|] [|]]]]; try discriminate E4. inversion E4. eexists. split; reflexivity.
Qed.
(** Two conditions: the remaining one is not checked any more, and the tuple returned
    by the objective is refused. *)
Example C47_two_case : let o := Obj1 (fun _ genes => match genes with [GInt a; GInt b; GInt c] => inr (OTuple [inject_Z (a - 2); inject_Z (a + b + c)]) | _ => inl TypeError end) in
  let cf := mkCfg 3 4 o TNone None (PPen (Dynamic 2%Q (1#2) (natural 2) (natural 1))) (Some ["<="; "optimize"]%string) (6#10) None [] 2 (LFloat (1#2)) "best" false in
  observe (fun r _ => snd r) (categorical_ga 50 cf pools fresh_world) = Some (Some ["<="]%string) /\
  match categorical_ga 50 (with_conditions (Some ["<="]%string) cf) pools fresh_world with Err e => Some e | _ => None end = Some (PyException "number of returned values must be 1").
Proof. cbv zeta. split; run. Qed.
Example C48_case : answers pair_obj (given (Some (mkObj true 7))) 3 (ints [1; 2]) (inr (OScalar 1%Q)) /\
  answers pair_obj (given (Some (mkObj false 7))) 3 (ints [1; 2]) (inr (OTuple [3; 3]%Q)) /\
  arity_mismatch (Obj2 (fun _ _ _ => inr (OScalar 1%Q))) (Some (mkObj false 7)).
Proof. split; [|split; [|exact I]].
  - exact (proj1 (called_answers (mkFit Hyperbola pair_obj TNone (Some (mkObj true 7)) None [] false []) 3 (ints [1; 2]) _) eq_refl).
  - exact (proj1 (called_answers (mkFit Hyperbola pair_obj TNone (Some (mkObj false 7)) None [] false []) 3 (ints [1; 2]) _) eq_refl).
 Qed.
(** Ranking three individuals: six one-argument calls. *)
Example C48_ranking_case : observe (fun _ s => (length (log s), map (fun r => rank (heap s r)) [0; 1; 2]%nat))
    (assign_ranks (Obj12 (fun _ genes => match genes with [GInt a; GInt b] => inr (OTuple [inject_Z a; inject_Z b]) | _ => inl TypeError end) (fun _ _ _ => inl ValueError)) [0; 1; 2]%nat
      (world (map (fun g => set_phenotype (Some (Some g)) (ind [] SVNone)) [ints [1; 2]; ints [2; 1]; ints [3; 2]]) []))
  = Some (6%nat, [Some (q 1); Some (q 1); Some (q 3)]).
Proof. run. Qed.

Print Assumptions C41_range.
Print Assumptions C41_decreasing.
Print Assumptions C41_no_target.
Print Assumptions C41_vega.
Print Assumptions C46_plain.
Print Assumptions C46_conditional.
Print Assumptions C47_removed.
Print Assumptions C47_multi.
Print Assumptions C47_second_run.
Print Assumptions C48_evaluation.
Print Assumptions C48_run.
Print Assumptions C48_mismatch_run.
Print Assumptions C48_ranking.
Print Assumptions C48_ranking_two_args.
