(** C97: what optimize prints. *)
From Coq Require Import String.
From Coq Require Import ZArith QArith List Bool Lia Permutation.
From Verif Require Import Spec Num State Binary Population GaData Crossover Mutation Selection Penalty Fitness NewGeneration Driver Report
  ListLemmas Rnd Exec Laws PopulationProofs CrossoverProofs MutationProofs SelectionProofs VegaProofs
  NewGenProofs UpdateProofs FitnessProofs StepProofs RunProofs HistoryProofs Runs AssessProofs RankingProofs MultiProofs MultiRuns
  PropRun PropBest PropPareto PropFfga Demo.
Import ListNotations.
Open Scope list_scope.
Open Scope Z_scope.

Section Report.
  Context {NO : NumOps}.

  (** The record belongs to the class of the data. *)
  Definition right_record (gd : gadata) : Prop :=
    match best_solution gd with
    | BNone => True
    | BSingle _ _ => is_multi gd = false
    | BPareto _ _ => is_multi gd = true
    end.

  (** The exception that ends the printing is the one the run ends with, if any. *)
  Theorem C97_exception : forall gd s, right_record gd ->
    print_best_solution gd s = match snd (report gd) with None => Ok tt s | Some e => Err e end.
  Proof.
    intros gd s R. unfold right_record in R. unfold print_best_solution, report, report_multi, report_single.
    destruct (best_solution gd) as [|i g|set [g|]]; [destruct (is_multi gd); reflexivity| | |]; rewrite R; [destruct (phenotype i); reflexivity| |reflexivity].
    assert (O : forall l, snd (print_list HeadObjectives l label_obj_score done) = None).
    { intros l. cbn. induction l; cbn; auto. }
    specialize (O set). cbn [say snd print_list]. change (snd (print_elems label_phenotype ?l ?r)) with (snd (print_elems label_phenotype l r)).
    set (rest := print_list HeadObjectives set label_obj_score done) in *.
    assert (G : forall l, miter (fun i => match phenotype i with Some _ => ret tt | None => raise KeyError end) l s =
      match snd (print_elems label_phenotype l rest) with None => Ok tt s | Some e => Err e end); [|apply G].
    induction l as [|i l IH]; cbn [miter print_elems]; [rewrite O; reflexivity|].
    unfold label_phenotype at 1. destruct (phenotype i); cbn [option_map say snd]; [|reflexivity]. unfold bind, ret. exact IH.
  Qed.

  (** Before any run nothing but three lines can be printed; the generation is -1. *)
  Theorem C97_before : forall multi ng cp es p,
    report (new_gadata multi ng cp es p) = ([Bar; IndexGeneration (-1); BestSolution], Some TypeError).
  Proof. intros [] ng cp es p; reflexivity. Qed.

  (** The text of a single-objective report. *)
  Definition single_text (last best : Z) (genes : list gv) (ph : option (list gv)) (v o : sval) (b : bool) : list line :=
    [Bar; IndexGeneration last; BestSolution; BestIndex best; PGenotype genes]
    ++ match ph with Some l => [PPhenotype (Some l)] | None => [] end
    ++ [PScore v; PObjective o; PFeasible b].
  (** The text of a multi-objective one. *)
  Definition multi_text (last best : Z) (points : list (list gv)) (values : list (list num)) : list line :=
    [Bar; IndexGeneration last; BestSolution; BestIndex best; HeadPhenotypes]
    ++ map (fun p => ElemPhenotype (Some p)) points ++ [HeadObjectives] ++ map (fun v => ElemObjective (SVL v)) values.

  (** The point shown beside a genotype: the decoded one for a binary population,
      none otherwise. *)
  Definition shown_point (g : gspec) (genes : list gv) (ph : option (list gv)) : Prop :=
    match g with
    | GenBinary gray gens bp => exists pt, ph = Some pt /\ decode_genotype gray gens bp genes = inr pt
    | _ => ph = None
    end.

  Lemma single_report : forall ok, NumOrder NO ok -> forall fuel c gd0 s0, single c -> good_scores ok (c_fitness c) -> started gd0 s0 ->
    forall k c' gd' s' i n, at_generation fuel c gd0 s0 k c' gd' s' -> best_solution gd' = BSingle i n ->
    exists ph, report gd' = (single_text (idx_generation gd' - 1) n (genotype i) ph (score i) (obj_score i) (feasible i), None) /\
      shown_point (gspec_of (population gd0)) (genotype i) ph.
  Proof.
    intros ok NL fuel c gd0 s0 Si Go St k c' gd' s' i n A Eb. pose proof (started_init _ _ St) as In0.
    set (f := c_fitness c) in *. set (gs := gspec_of (population gd0)) in *.
    destruct (gen_inv ok NL fuel c gd0 s0 Si Go St (fun c gd s => just_inv f gs (log s0) c gd s)) with (k := k) (c' := c') (gd' := gd') (s' := s')
      as (G & _ & (_ & cs & _ & _ & b & m & Eb2 & D & _)); auto.
    - intros gd s cs l0 bst md w F G. eapply just_inv_first; eauto.
    - intros c1 gd1 s1 c2 gd2 s2 kids els h cs l0 bst md w Sc G1 I1 S G2. pose proof Sc as (E1 & _).
      apply (just_inv_step ok f gs (log s0) _ _ _ _ _ _ _ _ _ _ _ _ _ _ E1 G1 I1 S).
    - rewrite Eb in Eb2. inversion Eb2; subst b m. clear Eb2. unfold report. rewrite (gi_single _ _ _ G). unfold report_single. rewrite Eb.
      destruct gs as [gray gens bp|gens|a b k0]; cbn [decoded] in D.
      + destruct D as (pt & Ep & Ed). exists (Some pt). rewrite Ep. split; [reflexivity|]. exists pt. auto.
      + exists None. rewrite D. split; reflexivity.
      + exists None. rewrite D. split; reflexivity.
  Qed.
  Lemma shown_spec : forall g genes ph pt, shown_point g genes ph -> spec_point g genes pt -> match ph with Some p => p | None => genes end = pt.
  Proof.
    intros [gray gens bp|gens|a b k] genes ph pt Sh Sp; cbn in *; [|subst; auto|subst; auto]. destruct Sh as (p & -> & E). congruence.
  Qed.

  (** A single-objective run without conditions.  After generation [k] the report is
      complete.  It shows [k], the first generation with the best score, and a genotype,
      a point and scores that belong together: the objective was called during the run
      on the shown point, it returned the shown objective score, the shown fitness score
      is computed from it, and no call led to a higher one. *)
  Theorem C97_single : forall ok, NumOrder NO ok -> forall fuel c gd0 s0, single c -> good_scores ok (c_fitness c) -> started gd0 s0 ->
    is_conditional (c_fitness c) = false ->
    forall k c' gd' s', at_generation fuel c gd0 s0 k c' gd' s' ->
    exists calls xs best genes ph x y b,
      report gd' = (single_text (Z.of_nat k) (Z.of_nat best) genes ph (SV1 y) (SV1 x) b, None) /\
      hist_best gd' = map SV1 xs /\ length xs = S k /\ nth_error xs best = Some y /\
      (forall j z, nth_error xs j = Some z -> nltb y z = false /\ ((j < best)%nat -> nltb z y = true)) /\
      shown_point (gspec_of (population gd0)) genes ph /\ log s' = calls ++ log s0 /\
      In (match ph with Some pt => pt | None => genes end, OScalar x) calls /\ score_of (c_fitness c) x nzero = inr y /\
      (forall pt v, In (pt, v) calls -> exists z w, v = OScalar z /\ score_of (c_fitness c) z nzero = inr w /\ nltb y w = false).
  Proof.
    intros ok NL fuel c gd0 s0 Si Go St Nc k c' gd' s' A.
    destruct (C38_run ok NL fuel c gd0 s0 Si Go St k c' gd' s' A) as (xs & i & g & y & Eh & Lx & Eg & _ & _ & Eb & _ & Es & Nx & Kx).
    destruct (C37_best_of_all ok NL fuel c gd0 s0 Si Go St Nc k c' gd' s' A) as (calls & i1 & g1 & pt & x & y1 & El & Eb1 & Sp & Ic & Eo & Es1 & Sc & _ & Kc).
    rewrite Eb in Eb1. inversion Eb1; subst i1 g1. rewrite Es in Es1. inversion Es1; subst y1. clear Eb1 Es1.
    destruct (single_report ok NL fuel c gd0 s0 Si Go St k c' gd' s' i (Z.of_nat g) A Eb) as (ph & Er & Sh).
    exists calls, xs, g, (genotype i), ph, x, y, (feasible i). split; [rewrite Er, Es, Eo, Eg; f_equal; f_equal; lia|].
    split; auto. split; auto. split; auto. split; auto. split; auto. split; auto. split; [rewrite (shown_spec _ _ _ _ Sh Sp); auto|]. split; auto.
    intros p v Iv. destruct (Kc p v Iv) as (z & w & -> & Sw & _ & L). eauto.
  Qed.

  (** With conditions: the shown objective score is the value returned at the position
      of "optimize", and "feasible region: True" is shown exactly if the values returned
      at the shown point satisfy all conditions. *)
  Theorem C97_conditional : forall ok, NumOrder NO ok -> forall fuel c gd0 s0 o t d p cl cl', single c -> good_scores ok (c_fitness c) -> started gd0 s0 ->
    new_fitness Hyperbola o t d (PPen p) (Some cl) = inr (c_fitness c, cl') -> (2 <= length cl)%nat ->
    exists pre post, cl = pre ++ "optimize"%string :: post /\ ~ In "optimize"%string pre /\
    forall k c' gd' s', at_generation fuel c gd0 s0 k c' gd' s' ->
    exists calls xs best genes ph x y b vpre vpost,
      report gd' = (single_text (Z.of_nat k) (Z.of_nat best) genes ph (SV1 y) (SV1 x) b, None) /\
      hist_best gd' = map SV1 xs /\ length xs = S k /\ nth_error xs best = Some y /\
      (forall j z, nth_error xs j = Some z -> nltb y z = false /\ ((j < best)%nat -> nltb z y = true)) /\
      shown_point (gspec_of (population gd0)) genes ph /\ log s' = calls ++ log s0 /\
      In (match ph with Some pt => pt | None => genes end, OTuple (vpre ++ x :: vpost)) calls /\
      length vpre = length pre /\ length vpost = length post /\ (b = true <-> all_hold pre post vpre vpost).
  Proof.
    intros ok NL fuel c gd0 s0 o t d p cl cl' Si Go St N L.
    destruct (C42_run ok NL fuel c gd0 s0 o t d p cl cl' Si Go St N L) as (pre & post & Ecl & Hn & K). exists pre, post. split; auto. split; auto.
    intros k c' gd' s' A. destruct (K k c' gd' s' A) as (calls & i1 & g1 & El & Eb1 & J).
    destruct (C38_run ok NL fuel c gd0 s0 Si Go St k c' gd' s' A) as (xs & i & g & y & Eh & Lx & Eg & _ & _ & Eb & _ & Es & Nx & Kx).
    rewrite Eb in Eb1. inversion Eb1; subst i1 g1. clear Eb1. destruct (J i (or_introl eq_refl)) as (pt & vpre & x & vpost & Sp & Ic & L1 & L2 & Eo & Hf).
    destruct (single_report ok NL fuel c gd0 s0 Si Go St k c' gd' s' i (Z.of_nat g) A Eb) as (ph & Er & Sh).
    exists calls, xs, g, (genotype i), ph, x, y, (feasible i), vpre, vpost. split; [rewrite Er, Es, Eo, Eg; f_equal; f_equal; lia|].
    split; auto. split; auto. split; auto. split; auto. split; auto. split; auto. split; [rewrite (shown_spec _ _ _ _ Sh Sp); auto|]. auto.
  Qed.

  (** *** Multi-objective runs *)
  (** The values a fitness keeps as objective scores of a returned tuple. *)
  Definition kept (f : fitness) (values : list num) (shown : list num) : Prop :=
    if is_conditional f then exists xs vs, pop_all (idx_opt f) values = inr (xs, vs) /\ shown = xs else shown = values.
  Lemma assess_kept : forall f gen best v i j, is_multi_kind (fkind f) = true -> assess f gen best v i = inr j ->
    exists values shown, v = OTuple values /\ kept f values shown /\ obj_score j = SVL shown /\ phenotype j = phenotype i /\ genotype j = genotype i.
  Proof.
    intros f gen best v i j Mk A. unfold assess, check_input in A. rewrite Mk in A. destruct v as [x|values]; [discriminate|]. exists values. unfold kept.
    destruct (is_conditional f).
    - destruct (fpenalty f) as [p|]; [|discriminate]. unfold take_obj_score in A. rewrite Mk in A. destruct (pop_all (idx_opt f) values) as [|[xs vs]]; [discriminate|].
      destruct (violates _ _) as [|bad]; [discriminate|]. destruct (penalty_execute _ _ _ _ _) as [|pen]; [discriminate|]. cbv zeta in A.
      destruct (get_fitness_score _ _ pen) as [|sc]; [discriminate|]. inversion A. exists xs. cbn [fst].
      split; auto. split; [eauto|]. destruct bad; auto.
    - cbv zeta in A. destruct (get_fitness_score _ _ nzero) as [|sc]; [discriminate|]. inversion A. exists values. auto.
  Qed.
  (** An individual that can be shown: its point was evaluated, and its objective
      scores are what was returned. *)
  Definition told (f : fitness) (g : gspec) (calls : list (list gv * oval)) (i : individ) : Prop :=
    exists pt values shown, phenotype i = Some (Some pt) /\ spec_point g (genotype i) pt /\ In (pt, OTuple values) calls /\
      kept f values shown /\ obj_score i = SVL shown.
  Lemma told_core : forall f g cs cs' i j, incl cs cs' -> same_core i j -> told f g cs i -> told f g cs' j.
  Proof.
    intros f g cs cs' i j Il (E1 & E2 & _ & E4 & _) (pt & v & w & A & B & C & D & E). exists pt, v, w.
    rewrite <- E1, <- E2, <- E4. repeat split; auto.
  Qed.
  Lemma told_new : forall f g gen best h h' k us cs r, is_multi_kind (fkind f) = true -> is_phenotype g = true ->
    assessed f g gen best h h' k us cs -> In r us -> decoded g (h r) -> told f g (rev cs) (h' r).
  Proof.
    intros f g gen best h h' k us cs r Mk Ip As Ir D. destruct (assessed_in _ _ _ _ _ _ _ _ _ _ As Ir) as (v & k' & Ic & _ & A).
    destruct (assess_kept _ _ _ _ _ _ Mk A) as (values & shown & -> & Kp & Eo & E1 & E2). pose proof (decoded_point _ _ D) as Sp.
    destruct (decoded_phen _ _ Ip D) as (pt & Ep). unfold point in Ic, Sp. rewrite Ip, Ep in *. exists pt, values, shown. rewrite E1, E2.
    repeat split; auto. apply in_rev. rewrite rev_involutive. exact Ic.
  Qed.
  Definition told_inv (f : fitness) (g : gspec) (lg0 : list (list gv * oval)) (gd : gadata) (s : st) : Prop :=
    gspec_of (population gd) = g /\ exists cs, log s = cs ++ lg0 /\
      (forall r, In r (members (population gd)) -> told f g cs (heap s r)) /\
      (forall i, In i (old_set (best_solution gd)) -> told f g cs i) /\
      (old_set (best_solution gd) <> [] -> exists n, old_gen (best_solution gd) = Some n /\ no_improve gd = idx_generation gd - 1 - n).
  Lemma told_run : forall ok, NumOrder NO ok -> counting ok -> forall F m fuel c gd0 s0, multi_objective ok c F m -> multi_started gd0 s0 ->
    forall k c' gd' s', at_generation fuel c gd0 s0 k c' gd' s' ->
    is_multi gd' = true /\ told_inv (c_fitness c) (gspec_of (population gd0)) (log s0) gd' s'.
  Proof.
    intros ok NL Ct F m fuel c gd0 s0 Mo St0 k c' gd' s' (gd & s & Hf & S). pose proof (multi_started_init _ _ St0) as I0.
    pose proof (mn_bin _ _ I0) as Ip. set (f := c_fitness c) in *. set (g := gspec_of (population gd0)) in *. pose proof (proj1 Mo) as Mk.
    destruct (multi_run_inv ok NL Ct F m fuel (fun _ gd s => told_inv f g (log s0) gd s) c gd0 s0 gd s Mo I0 Hf) with (k := k) (c' := c') (gd' := gd') (s' := s')
      as (M & _ & T); auto; [| |split; auto; apply (mi_multi _ _ _ M)].
    - intros h2 rc cs front Fi M. split; [rewrite (mf_pop _ _ _ _ _ _ _ _ _ _ Fi); reflexivity|].
      exists (rev cs ++ rev rc). split; [rewrite <- app_assoc; apply (mf_log _ _ _ _ _ _ _ _ _ _ Fi)|].
      assert (T : forall r, In r (members (population gd)) -> told f g (rev cs ++ rev rc) (heap s r)).
      { intros r Ir. apply (Permutation_in _ (mf_perm _ _ _ _ _ _ _ _ _ _ Fi)) in Ir.
        apply (told_core f g (rev cs) _ (heap s r)); [apply incl_appl, incl_refl|apply same_core_refl|].
        eapply told_new; [exact Mk|exact Ip|apply (mf_eval _ _ _ _ _ _ _ _ _ _ Fi)|exact Ir|].
        destruct (mf_ranks _ _ _ _ _ _ _ _ _ _ Fi) as [A _]. rewrite (A r Ir). apply (decoded_core g (heap s0 r)); [repeat split|]. apply (mn_fresh _ _ I0 r Ir). }
      split; auto. rewrite (mf_best _ _ _ _ _ _ _ _ _ _ Fi), (mf_no_improve _ _ _ _ _ _ _ _ _ _ Fi), (mf_gen _ _ _ _ _ _ _ _ _ _ Fi).
      split; [|intros N; destruct (inds_eqb _ _); cbn [old_set old_gen] in *; [congruence|exists 0; auto]].
      intros i Hi. destruct (inds_eqb _ _); cbn [old_set] in Hi; [destruct Hi|]. apply in_map_iff in Hi. destruct Hi as (r & <- & Ir). apply T.
      destruct (mf_front _ _ _ _ _ _ _ _ _ _ Fi) as (rest & E & _). rewrite E. apply in_or_app; auto.
    - intros c1 gd1 s1 c2 gd2 s2 kids els h1 h2 rc cs front Sc M1 (Eg & cs1 & El & T1 & B1 & N1) Stp M2. pose proof Sc as (Ef & _).
      split; [rewrite (ms_pop _ _ _ _ _ _ _ _ _ _ _ _ _ _ Stp); exact Eg|].
      exists (rev cs ++ rev rc ++ cs1). split; [rewrite (ms_log _ _ _ _ _ _ _ _ _ _ _ _ _ _ Stp), El, !app_assoc; reflexivity|].
      assert (Il : incl cs1 (rev cs ++ rev rc ++ cs1)) by (apply incl_appr, incl_appr, incl_refl).
      assert (T : forall r, In r (members (population gd2)) -> told f g (rev cs ++ rev rc ++ cs1) (heap s2 r)).
      { intros r Ir. apply (Permutation_in _ (ms_perm _ _ _ _ _ _ _ _ _ _ _ _ _ _ Stp)) in Ir. apply in_app_or in Ir. destruct Ir as [Ir|Ir].
        - apply (told_core f g (rev cs) _ (heap s2 r)); [apply incl_appl, incl_refl|apply same_core_refl|].
          pose proof (ms_eval _ _ _ _ _ _ _ _ _ _ _ _ _ _ Stp) as As. rewrite Ef, Eg in As. eapply told_new; [exact Mk|exact Ip|exact As|exact Ir|].
          destruct (ms_ranks _ _ _ _ _ _ _ _ _ _ _ _ _ _ Stp) as [A _]. rewrite (A r (in_or_app _ _ _ (or_introl Ir))).
          apply (decoded_core g (h1 r)); [repeat split|]. rewrite <- Eg. apply (ms_fresh _ _ _ _ _ _ _ _ _ _ _ _ _ _ Stp r Ir).
        - apply (ms_els _ _ _ _ _ _ _ _ _ _ _ _ _ _ Stp) in Ir. apply (told_core f g cs1 _ (heap s1 r)); auto.
          apply (ms_core _ _ _ _ _ _ _ _ _ _ _ _ _ _ Stp). apply (mi_alloc _ _ _ M1). exact Ir. }
      split; auto. rewrite (ms_best _ _ _ _ _ _ _ _ _ _ _ _ _ _ Stp), (ms_no_improve _ _ _ _ _ _ _ _ _ _ _ _ _ _ Stp), (ms_gen _ _ _ _ _ _ _ _ _ _ _ _ _ _ Stp).
      split; [|intros N; destruct (inds_eqb _ _); cbn [old_set old_gen] in *; [destruct (N1 N) as (n & -> & ->); exists n; split; auto; lia|eexists; split; [reflexivity|lia]]].
      intros i Hi. destruct (inds_eqb _ _); cbn [old_set] in Hi.
      + apply (told_core f g cs1 _ i); auto. apply same_core_refl.
      + apply in_map_iff in Hi. destruct Hi as (r & <- & Ir). apply T.
        destruct (ms_front _ _ _ _ _ _ _ _ _ _ _ _ _ _ Stp) as (rest & E & _). rewrite E. apply in_or_app; auto.
  Qed.

  (** The printed lists of a set that can be shown. *)
  Lemma printed_objectives : forall f g cs set, (forall i, In i set -> told f g cs i) ->
    exists shown, map obj_score set = map SVL shown /\
      print_list HeadObjectives set label_obj_score done = (HeadObjectives :: map (fun v => ElemObjective (SVL v)) shown, None).
  Proof.
    intros f g cs set H. induction set as [|i set IH]; [exists []; split; reflexivity|].
    destruct IH as (ws & E & P); [intros j Hj; apply H; right; auto|]. destruct (H i (or_introl eq_refl)) as (pt & v & w & _ & _ & _ & _ & Eo).
    exists (w :: ws). split; [cbn [map]; rewrite Eo, E; reflexivity|]. unfold print_list, say in *. cbn [print_elems label_obj_score map]. rewrite Eo.
    inversion P as [[P1 P2]]. unfold say. rewrite P1, P2. reflexivity.
  Qed.
  Lemma printed_phenotypes : forall f g cs set rest, (forall i, In i set -> told f g cs i) ->
    exists points, map phenotype set = map (fun p => Some (Some p)) points /\
      print_elems label_phenotype set rest = (map (fun p => ElemPhenotype (Some p)) points ++ fst rest, snd rest).
  Proof.
    intros f g cs set rest H. induction set as [|i set IH]; [exists []; split; [reflexivity|destruct rest; reflexivity]|].
    destruct IH as (ps & E & P); [intros j Hj; apply H; right; auto|]. destruct (H i (or_introl eq_refl)) as (pt & v & w & Ep & _).
    exists (pt :: ps). split; [cbn [map]; rewrite Ep, E; reflexivity|]. cbn [print_elems]. unfold label_phenotype at 1. rewrite Ep. cbn [option_map].
    rewrite P. reflexivity.
  Qed.

  (** A multi-objective run with a non-empty population.  The report is complete, it
      shows generation [k], the generation since which the set has not changed, and a set in which the [j]-th objective scores are what the
      objective returned on the [j]-th point during the run; the set is the front of
      the current population. *)
  Theorem C97_multi : forall ok, NumOrder NO ok -> counting ok -> forall F m fuel c gd0 s0 k c' gd' s',
    multi_objective ok c F m -> multi_started gd0 s0 -> at_generation fuel c gd0 s0 k c' gd' s' -> members (population gd') <> [] ->
    exists calls best points shown set front,
      report gd' = (multi_text (Z.of_nat k) best points shown, None) /\ 0 <= best <= Z.of_nat k /\ no_improve gd' = Z.of_nat k - best /\
      length points = length shown /\ log s' = calls ++ log s0 /\
      (forall j pt w, nth_error points j = Some pt -> nth_error shown j = Some w ->
         exists values, In (pt, OTuple values) calls /\ kept (c_fitness c) values w) /\
      is_front F (heap s') (members (population gd')) front /\ front <> [] /\
      (set = map (heap s') front \/ Forall2 alike set (map (heap s') front)) /\
      map phenotype set = map (fun p => Some (Some p)) points /\ map obj_score set = map SVL shown.
  Proof.
    intros ok NL Ct F m fuel c gd0 s0 k c' gd' s' Mo St0 A Ne.
    destruct (told_run ok NL Ct F m fuel c gd0 s0 Mo St0 k c' gd' s' A) as (Im & _ & calls & El & _ & B & N).
    destruct (C54_pareto_set ok NL Ct F m fuel c gd0 s0 k c' gd' s' Mo St0 A Ne) as (front & set & g & Fr & Nf & Eb & Hg & Ei & Sf & _).
    rewrite Eb in B, N. cbn [old_set old_gen] in B, N.
    destruct (printed_objectives _ _ _ _ B) as (shown & E2 & P2). destruct (printed_phenotypes _ _ _ _ (print_list HeadObjectives set label_obj_score done) B) as (points & E1 & P1).
    exists calls, g, points, shown, set, front. split.
    { unfold report. rewrite Im. unfold report_multi. rewrite Eb. unfold print_list at 1. rewrite P1, P2. cbn [fst snd]. rewrite Ei.
      replace (Z.of_nat k + 1 - 1) with (Z.of_nat k) by lia. unfold multi_text. cbn [say fst snd]. reflexivity. }
    assert (Ns : set <> []) by (destruct front as [|r fr]; [congruence|]; destruct Sf as [->|Sf]; [discriminate|inversion Sf; discriminate]).
    split; [lia|]. split; [destruct (N Ns) as (n & E & ->); inversion E; subst n; lia|]. split.
    { apply (f_equal (@length _)) in E1. apply (f_equal (@length _)) in E2. rewrite !map_length in *. congruence. }
    split; auto. split; [|split; auto].
    intros j pt w Hp Hw. apply (f_equal (fun l => nth_error l j)) in E1. apply (f_equal (fun l => nth_error l j)) in E2. rewrite !nth_error_map in *.
    rewrite Hp in E1. rewrite Hw in E2. cbn [option_map] in *. destruct (nth_error set j) as [i|] eqn:Ej; [|discriminate]. cbn [option_map] in *.
    inversion E1 as [F1]. inversion E2 as [F2]. destruct (B i (nth_error_In _ _ Ej)) as (p & v & x & Q1 & _ & Q3 & Q4 & Q5). exists v.
    rewrite F1 in Q1. inversion Q1; subst p. rewrite F2 in Q5. inversion Q5; subst x. auto.
  Qed.
  (** With conditions given, the scores shown are those at the positions of "optimize",
      in reverse order. *)
  Theorem C97_kept : forall k o t data p cl f cl' values w, is_multi_kind k = true ->
    (new_fitness k o t data PNone cl' = inr (f, cl') -> kept f values w -> w = values) /\
    ((1 < length cl)%nat -> new_fitness k o t data (PPen p) (Some cl) = inr (f, cl') -> kept f values w -> w = rev (objectives cl values)).
  Proof.
    intros k o t data p cl f cl' values w Mk. split.
    - intros N K. unfold new_fitness in N. inversion N; subst f. exact K.
    - intros L N K. unfold new_fitness in N. destruct (Z.of_nat (length cl) <=? 1) eqn:E; [apply Z.leb_le in E; lia|]. rewrite Mk in N. inversion N; subst f cl'.
      cbn in K. destruct K as (xs & vs & P & ->). apply pop_positions in P. apply P.
  Qed.

  (** An empty Pareto set is reported with the KeyError of its missing generation, and
      a set without phenotypes breaks off below the heading. *)
  Theorem C97_broken : forall gd set g, is_multi gd = true ->
    (best_solution gd = BPareto set None -> report gd = ([Bar; IndexGeneration (idx_generation gd - 1); BestSolution], Some KeyError)) /\
    (forall i, best_solution gd = BPareto (i :: set) (Some g) -> phenotype i = None ->
       report gd = ([Bar; IndexGeneration (idx_generation gd - 1); BestSolution; BestIndex g; HeadPhenotypes], Some KeyError)).
  Proof.
    intros gd set g Im. unfold report. rewrite Im. unfold report_multi. split.
    - intros ->. reflexivity.
    - intros i -> Ep. unfold print_list at 1. cbn [print_elems]. unfold label_phenotype at 1. rewrite Ep. reflexivity.
  Qed.
End Report.

Local Existing Instance Qops.
(** A ready-made single-objective class that returned: with is_print it has printed the
    complete report, and nothing without. *)
Theorem C97_ready : forall fuel cf g sel ck mk s gd' cl s', objectives_ok sel -> cf_penalty cf = PNone ->
  ga_optimize fuel cf false g Hyperbola sel ck mk false s = Ok (gd', cl) s' ->
  (cf_is_print cf = false -> ga_output cf gd' = ([], None)) /\
  (cf_is_print cf = true -> exists calls gs k best genes ph x y b, prepare g = inr gs /\ idx_generation gd' = Z.of_nat (S k) /\ (best <= k)%nat /\
     ga_output cf gd' = (single_text (Z.of_nat k) (Z.of_nat best) genes ph (SV1 y) (SV1 x) b, None) /\
     shown_point gs genes ph /\ log s' = calls ++ log s /\
     In (match ph with Some pt => pt | None => genes end, OScalar x) calls /\
     forall pt v, In (pt, v) calls -> exists z, v = OScalar z /\ no_better (cf_obj_value cf) z x).
Proof.
  intros fuel cf g sel ck mk s gd' cl s' Ho Pn H. unfold ga_output. split; intros ->; [reflexivity|].
  destruct (C37_best_point fuel cf g sel ck mk s gd' cl s' Ho Pn H) as (calls & i & gen & gs & pt & x & El & Eg & Eb & Sp & Ic & Eo & K).
  apply optimize_run in H; [|repeat split; auto].
  destruct H as (p & s1 & p' & s2 & f & m & ng & c' & Sp' & _ & Fi & Nf & _ & _ & L & _ & Si & St & R). apply run_ends in R. destruct R as (k & A).
  rewrite Pn in Nf. destruct (new_fitness_plain _ _ _ _ _ _ _ _ Nf (or_introl eq_refl)) as (_ & Nc & _).
  destruct (C97_single _ Qorder _ _ _ _ Si (good_scores_any _ (proj1 Si)) St Nc _ _ _ _ A) as (_ & xs & best & genes & ph & x' & y & b & Er & _ & Lx & Nx & _ & Sh & _).
  pose proof (C38_run _ Qorder _ _ _ _ Si (good_scores_any _ (proj1 Si)) St _ _ _ _ A) as (_ & _ & _ & _ & _ & _ & Ei & _).
  destruct (single_report _ Qorder _ _ _ _ Si (good_scores_any _ (proj1 Si)) St _ _ _ _ _ _ A Eb) as (ph' & Er' & Sh'). rewrite Er in Er'.
  assert (Eq : gspec_of p' = gs).
  { apply set_params_inv in Sp'. destruct Sp' as [_ ->]. apply fill_ok in Fi. destruct Fi as (g' & Pg & Q). cbv zeta in Q. destruct Q as (-> & _). cbn. cbn in Pg. congruence. }
  cbn [new_gadata population] in Sh, Sh'. rewrite Eq in *.
  assert (E : genes = genotype i /\ ph = ph' /\ SV1 x' = obj_score i).
  { unfold single_text in Er'. cbn [app] in Er'. destruct ph, ph'; inversion Er'; auto. }
  destruct E as (-> & -> & Ex). rewrite Eo in Ex. inversion Ex; subst x'.
  exists calls, gs, k, best, (genotype i), ph', x, y, b. split; auto. split; auto.
  split; [assert (nth_error xs best <> None) by congruence; apply nth_error_Some in H; lia|].
  split; auto. split; auto. split; auto. split; auto. rewrite (shown_spec _ _ _ _ Sh' Sp). exact Ic.
Qed.

(** CategoricalGA shows no phenotype line, BinaryGA does, FFGA shows two lists; the
    first two meet the hypotheses of C97_ready, the third those of C97_multi
    (C54_objective). *)
Definition text_of (cf : config) (r : gadata * option (list string)) (s : st) := ga_output cf (fst r).
Definition loud (cf : config) : config := mkCfg (cf_num_generations cf) (cf_num_individ cf) (cf_objective cf) (cf_obj_value cf) (cf_input_data cf) (cf_penalty cf)
  (cf_conditions cf) (cf_children_percent cf) (cf_early_stop cf) (cf_input_population cf) (cf_tournament_size cf) (cf_mutation_lvl cf) (cf_transfer cf) true.
Example C97_categorical : observe (text_of (loud (demo_cf (LFloat (1#2)) 5 6 None))) (categorical_ga 50 (loud (demo_cf (LFloat (1#2)) 5 6 None)) pools fresh_world) =
  Some (single_text 5 3 (ints [2; 0; 1]) None (q (-1)) (q 1) true, None).
Proof. run. Qed.
Definition far_obj : objfun := Obj1 (fun _ genes => inr (OScalar (match genes with [GNum a; GNum b] => (a + b)%Q | _ => 100%Q end))).
Definition far_cf (loud : bool) : config := mkCfg 4 3 far_obj TNone None PNone None (6#10) None [] 2 (LFloat (1#2)) "best" loud.
Example C97_binary : observe (text_of (far_cf true)) (binary_ga 50 (far_cf true) true two_genes wide_world) =
    Some (single_text 3 0 [GBit false; GBit false; GBit true; GBit true] (Some [GNum (0#3); GNum (6#3)]) (q (-18#9)) (q (18#9)) true, None) /\
  observe (text_of (far_cf false)) (binary_ga 50 (far_cf false) true two_genes wide_world) = Some ([], None).
Proof. split; run. Qed.
Example C97_front : observe (fun r _ => report (fst r)) (ffga 50 (trade_cf "best" 6 5) true two_genes wide_world) =
  Some (multi_text 4 4 [[GNum (0#3); GNum (0#3)]; [GNum (3#3); GNum (6#3)]; [GNum (9#3); GNum (3#3)]; [GNum (3#3); GNum (6#3)]; [GNum (3#3); GNum (6#3)]]
          [[0; 9]; [3; 6]; [10; 1]; [3; 6]; [3; 6]]%Q, None).
Proof. run. Qed.

Print Assumptions C97_exception.
Print Assumptions C97_before.
Print Assumptions C97_single.
Print Assumptions C97_conditional.
Print Assumptions C97_multi.
Print Assumptions C97_kept.
Print Assumptions C97_broken.
Print Assumptions C97_ready.
