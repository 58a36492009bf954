(** Statement C72: FFGA with transfer_parents='best' never loses a good point: every
    point it ever evaluated is matched or dominated by a reported one.  VEGA loses some. *)
From Coq Require Import String.
From Coq Require Import ZArith QArith List Bool Lia Lqa Permutation Sorted.
From Verif Require Import Spec Num State Binary Population GaData Crossover Mutation Selection Penalty Fitness NewGeneration Driver
  ListLemmas Rnd Exec Laws PopulationProofs CrossoverProofs MutationProofs SelectionProofs VegaProofs
  NewGenProofs UpdateProofs FitnessProofs StepProofs RunProofs HistoryProofs Runs RankingProofs MultiProofs MultiRuns PropPareto Demo PropResume.
Import ListNotations.
Open Scope list_scope.
Open Scope Z_scope.

Section Archive.
  Context {NO : NumOps} (ok : num -> Prop) (NL : NumOrder NO ok) (Ct : counting ok) (F : list gv -> list num) (m : nat) (fuel : nat).

  (** The point of an individual of a binary population. *)
  Definition ph (i : individ) : list gv := match phenotype i with Some (Some pt) => pt | _ => [] end.
  (** No conditions and no input data: the objective is called with one argument and
      all its values are objectives. *)
  Definition unconditional (f : fitness) : Prop :=
    is_conditional f = false /\ match input_data f with Some d => truthy d = false | None => True end.

  Lemma assess_unconditional : forall f k gen best v i j pt, is_multi_kind (fkind f) = true -> steady (obj_function f) F -> unconditional f ->
    called f k pt = inr v -> assess f gen best v i = inr j -> v = OTuple (F pt) /\ obj_score j = SVL (F pt).
  Proof.
    intros f k gen best v i j pt Mk Sy [Uc Ud] Hc Ha. unfold assess, check_input in Ha. rewrite Mk, Uc in Ha. destruct v as [x|l]; [discriminate|].
    assert (El : l = F pt).
    { apply (Sy k pt). unfold called in Hc. unfold one_arg. destruct (input_data f) as [d|]; [rewrite Ud in Hc|]; destruct (obj_function f); try discriminate; auto. }
    subst l. split; auto. cbv zeta in Ha. destruct (get_fitness_score _ _ _) as [|sc] in Ha; [discriminate|]. inversion Ha. destruct i; reflexivity.
  Qed.

  (** What is known of the calls and of the recorded values at a generation. *)
  Record archive (lg : list (list gv * oval)) (c : comps) (gd : gadata) (s : st) : Prop := {
    ar_calls : exists calls, log s = calls ++ lg /\ forall pt v, In (pt, v) calls ->
      (unconditional (c_fitness c) -> v = OTuple (F pt)) /\
      (ng_multi (c_newgen c) = true -> ng_transfer (c_newgen c) = TBest -> plain_selection (c_selection c) ->
         exists r, In r (members (population gd)) /\ no_greater (F (phen (heap s) r)) (F pt));
    ar_values : unconditional (c_fitness c) -> forall r, In r (members (population gd)) -> obj_score (heap s r) = SVL (F (phen (heap s) r));
    ar_set : unconditional (c_fitness c) -> forall set g, best_solution gd = BPareto set g -> forall i, In i set -> obj_score i = SVL (F (ph i))
  }.

  Lemma point_phen : forall g h r, is_phenotype g = true -> point g (h r) = phen h r.
  Proof. intros g h r E. unfold point, phen. rewrite E. reflexivity. Qed.
  Lemma first_archive : forall c gd0 s0 gd s h2 rc cs front, multi_objective ok c F m -> MInit gd0 s0 ->
    MFirst F (c_fitness c) gd0 s0 gd s h2 rc cs front -> archive (log s0) c gd s.
  Proof.
    intros c gd0 s0 gd s h2 rc cs front (Mk & Sy & Sz & _) I0 Fi.
    pose proof (mf_eval _ _ _ _ _ _ _ _ _ _ Fi) as Ev. pose proof (mf_perm _ _ _ _ _ _ _ _ _ _ Fi) as Pm. pose proof (mn_bin _ _ I0) as Eb.
    assert (Ph : forall r, In r (members (population gd0)) -> phen (heap s) r = phen h2 r /\ phen (heap s) r = phen (heap s0) r).
    { intros r Hr. destruct (assessed_in _ _ _ _ _ _ _ _ _ _ Ev Hr) as (v & k & _ & _ & A). apply assess_keeps in A. destruct A as (_ & A & _).
      pose proof (mf_ranks _ _ _ _ _ _ _ _ _ _ Fi) as [Rk _]. unfold phen. rewrite A, (Rk r Hr). split; reflexivity. }
    assert (Vals : unconditional (c_fitness c) -> forall r, In r (members (population gd)) -> obj_score (heap s r) = SVL (F (phen (heap s) r))).
    { intros Un r Hr. apply (Permutation_in _ Pm) in Hr. destruct (assessed_in _ _ _ _ _ _ _ _ _ _ Ev Hr) as (v & k & _ & Cv & A).
      destruct (assess_unconditional _ _ _ _ _ _ _ _ Mk Sy Un Cv A) as [_ ->]. rewrite point_phen by auto. rewrite (proj1 (Ph r Hr)). reflexivity. }
    constructor; auto.
    - exists (rev cs ++ rev rc). rewrite (mf_log _ _ _ _ _ _ _ _ _ _ Fi), app_assoc. split; auto. intros pt v Hin.
      assert (Q : exists r, In r (members (population gd0)) /\ phen (heap s) r = pt /\ (unconditional (c_fitness c) -> v = OTuple (F pt))).
      { apply in_app_or in Hin. destruct Hin as [Hin|Hin]; apply in_rev in Hin.
        - destruct (assessed_call _ _ _ _ _ _ _ _ _ _ Ev Hin) as (r & Hr & E & A). cbn [fst snd] in *. exists r. split; auto.
          rewrite point_phen in E by auto. split; [rewrite E; apply Ph; auto|]. intros Un.
          destruct (assessed_in _ _ _ _ _ _ _ _ _ _ Ev Hr) as (v' & k & _ & Cv & A').
          clear - Mk Sy Un Ev Hin. revert Ev Hin. generalize (length rc + length (log s0))%nat. intros n Ev. induction Ev as [|n r us w cs Cw Aw Ev IH]; intros Hin; [destruct Hin|].
          destruct Hin as [E|Hin]; [|auto]. inversion E; subst. destruct (assess_unconditional _ _ _ _ _ _ _ _ Mk Sy Un Cw Aw) as [-> _]. reflexivity.
        - destruct (mf_rank_points _ _ _ _ _ _ _ _ _ _ Fi pt v Hin) as (-> & r & Hr & E). exists r. split; auto. split; auto. rewrite (proj2 (Ph r Hr)). unfold phen. rewrite E. reflexivity. }
      destruct Q as (r & Hr & E & U). split; auto. intros _ _ _. exists r. split; [eapply Permutation_in; [apply Permutation_sym; exact Pm|auto]|].
      rewrite E. apply (ng_refl ok NL). apply Sz.
    - intros Un set g E i Hi. rewrite (mf_best _ _ _ _ _ _ _ _ _ _ Fi) in E. destruct (inds_eqb [] (map (heap s) front)); inversion E; subst; [destruct Hi|].
      apply in_map_iff in Hi. destruct Hi as (r & <- & Hr). apply (Vals Un r). destruct (mf_front _ _ _ _ _ _ _ _ _ _ Fi) as (rest & El & _). rewrite El. apply in_or_app; auto.
  Qed.
  Lemma step_archive : forall lg c gd s c' gd' s' kids els h1 h2 rc cs front, is_multi_kind (fkind (c_fitness c)) = true -> steady (obj_function (c_fitness c)) F -> sized ok F m ->
    MI F gd s -> archive lg c gd s -> MStep F c gd s c' gd' s' kids els h1 h2 rc cs front -> archive lg c' gd' s'.
  Proof.
    intros lg c gd s c' gd' s' kids els h1 h2 rc cs front Mk Sy Sz M1 [(calls & El & Hc) Hv Hs] St.
    destruct (ms_comps _ _ _ _ _ _ _ _ _ _ _ _ _ _ St) as (m' & -> & _).
    pose proof (ms_eval _ _ _ _ _ _ _ _ _ _ _ _ _ _ St) as Ev. pose proof (ms_perm _ _ _ _ _ _ _ _ _ _ _ _ _ _ St) as Pm. pose proof (mi_bin _ _ _ M1) as Eb.
    pose proof (ms_ranks _ _ _ _ _ _ _ _ _ _ _ _ _ _ St) as [Rk _]. pose proof (ms_els _ _ _ _ _ _ _ _ _ _ _ _ _ _ St) as Ie.
    assert (Ph : forall r, In r (kids ++ els) -> phen (heap s') r = phen h2 r /\ phen (heap s') r = phen h1 r).
    { intros r Hr. assert (E : phenotype (h2 r) = phenotype (h1 r)) by (rewrite (Rk r Hr); destruct (h1 r); reflexivity).
      apply in_app_or in Hr. destruct Hr as [Hr|Hr].
      - destruct (assessed_in _ _ _ _ _ _ _ _ _ _ Ev Hr) as (v & k & _ & _ & A). apply assess_keeps in A. destruct A as (_ & A & _). unfold phen. rewrite A, E. auto.
      - unfold phen. rewrite (ms_els_heap _ _ _ _ _ _ _ _ _ _ _ _ _ _ St r Hr), E. auto. }
    assert (Old : forall r, In r (members (population gd)) -> phen (heap s') r = phen (heap s) r /\ obj_score (heap s' r) = obj_score (heap s r)).
    { intros r Hr. apply (mi_alloc _ _ _ M1) in Hr. destruct (ms_core _ _ _ _ _ _ _ _ _ _ _ _ _ _ St r Hr) as [(_ & A & _ & B & _) _]. unfold phen. rewrite A. auto. }
    assert (Vals : unconditional (c_fitness c) -> forall r, In r (members (population gd')) -> obj_score (heap s' r) = SVL (F (phen (heap s') r))).
    { intros Un r Hr. apply (Permutation_in _ Pm) in Hr. pose proof Hr as Hr'. apply in_app_or in Hr. destruct Hr as [Hr|Hr].
      - destruct (assessed_in _ _ _ _ _ _ _ _ _ _ Ev Hr) as (v & k & _ & Cv & A).
        destruct (assess_unconditional _ _ _ _ _ _ _ _ Mk Sy Un Cv A) as [_ ->]. rewrite point_phen by auto. rewrite (proj1 (Ph r Hr')). reflexivity.
      - apply Ie in Hr. destruct (Old r Hr) as [-> ->]. apply Hv; auto. }
    constructor; cbn [c_fitness c_newgen c_selection set_mutation]; auto.
    - exists (rev cs ++ rev rc ++ calls). rewrite (ms_log _ _ _ _ _ _ _ _ _ _ _ _ _ _ St), El, !app_assoc. split; auto. intros pt v Hin. rewrite <- app_assoc in Hin.
      apply in_app_or in Hin. destruct Hin as [Hin|Hin]; [|apply in_app_or in Hin; destruct Hin as [Hin|Hin]].
      + apply in_rev in Hin. split.
        * intros Un. clear - Mk Sy Un Ev Hin. revert Ev Hin. generalize (length rc + length (log s))%nat. intros n Ev. induction Ev as [|n r us w cs Cw Aw Ev IH]; intros Hin; [destruct Hin|].
          destruct Hin as [E|Hin]; [|auto]. inversion E; subst. destruct (assess_unconditional _ _ _ _ _ _ _ _ Mk Sy Un Cw Aw) as [-> _]. reflexivity.
        * intros _ _ _. destruct (assessed_call _ _ _ _ _ _ _ _ _ _ Ev Hin) as (r & Hr & E & A). cbn [fst] in E. rewrite point_phen in E by auto. exists r.
          assert (Ik : In r (kids ++ els)) by (apply in_or_app; auto). split; [eapply Permutation_in; [apply Permutation_sym; exact Pm|auto]|].
          rewrite E, <- (proj1 (Ph r Ik)). apply (ng_refl ok NL). apply Sz.
      + apply in_rev in Hin. destruct (ms_rank_points _ _ _ _ _ _ _ _ _ _ _ _ _ _ St pt v Hin) as (-> & r & Hr & E). split; auto. intros _ _ _. exists r.
        split; [eapply Permutation_in; [apply Permutation_sym; exact Pm|auto]|]. rewrite (proj2 (Ph r Hr)). unfold phen. rewrite E. apply (ng_refl ok NL). apply Sz.
      + destruct (Hc pt v Hin) as [A B]. split; auto. intros Nm Nt Pl. destruct (B Nm Nt Pl) as (r & Hr & N).
        destruct (front_covers ok NL F m Sz (heap s) _ r Hr) as (e & Ir & Fr & Ng).
        pose proof (ms_taken _ _ _ _ _ _ _ _ _ _ _ _ _ _ St Nm Pl) as T. unfold multi_taken in T. rewrite Nt in T. destruct T as (rest & Em & _ & T2).
        exists e. assert (Iel : In e els).
        { rewrite Em in Ir. apply in_app_or in Ir. destruct Ir as [Ir|Ir]; auto. destruct (T2 e Ir) as (y & Iy & D). destruct (Fr y Iy D). }
        split; [eapply Permutation_in; [apply Permutation_sym; exact Pm|]; apply in_or_app; auto|]. rewrite (proj1 (Old e (Ie e Iel))).
        destruct (Sz (phen (heap s) e)), (Sz (phen (heap s) r)), (Sz pt). eapply (ng_trans ok NL) with (b := F (phen (heap s) r)); auto; congruence.
    - intros Un set g E i Hi. rewrite (ms_best _ _ _ _ _ _ _ _ _ _ _ _ _ _ St) in E. destruct (inds_eqb _ _); inversion E; subst.
      + destruct (best_solution gd) as [| |set' g'] eqn:Eb'; cbn [old_set] in Hi; try destruct Hi. eapply Hs; eauto.
      + apply in_map_iff in Hi. destruct Hi as (r & <- & Hr). apply (Vals Un r). destruct (ms_front _ _ _ _ _ _ _ _ _ _ _ _ _ _ St) as (rest & Em & _). rewrite Em. apply in_or_app; auto.
  Qed.
  Lemma run_archive : forall c gd0 s0 k c' gd' s', multi_objective ok c F m -> multi_started gd0 s0 -> at_generation fuel c gd0 s0 k c' gd' s' ->
    same_comps c c' /\ archive (log s0) c' gd' s'.
  Proof.
    intros c gd0 s0 k c' gd' s' Mo St0 (gd & s & Hf & S). pose proof (multi_started_init _ _ St0) as I0.
    destruct (multi_run_inv ok NL Ct F m fuel (fun c' gd' s' => archive (log s0) c' gd' s') c gd0 s0 gd s Mo I0 Hf) with (k := k) (c' := c') (gd' := gd') (s' := s') as (_ & Sc & X); auto.
    - intros h2 rc cs front Fi _. eapply first_archive; eauto.
    - intros c1 gd1 s1 c2 gd2 s2 kids els h1 h2 rc cs front (E1 & E2 & E3 & E4) M1 A St _. destruct Mo as (Mk & Sy & Sz & _).
      eapply step_archive; [rewrite E1; exact Mk|rewrite E1; exact Sy|exact Sz|exact M1|exact A|exact St].
  Qed.

  (** C72, at every generation of a run that keeps the front (multi-objective
      replacement, transfer_parents='best', a selection that leaves the ranks alone):
      every point on which the objective was ever called is matched or dominated by a
      member of the current front. *)
  Theorem C72_front : forall c gd0 s0 k c' gd' s', multi_objective ok c F m ->
    ng_multi (c_newgen c) = true -> ng_transfer (c_newgen c) = TBest -> plain_selection (c_selection c) ->
    multi_started gd0 s0 -> at_generation fuel c gd0 s0 k c' gd' s' -> members (population gd') <> [] ->
    exists calls front, log s' = calls ++ log s0 /\ is_front F (heap s') (members (population gd')) front /\
      forall pt v, In (pt, v) calls -> exists r, In r front /\ no_greater (F (phen (heap s') r)) (F pt).
  Proof.
    intros c gd0 s0 k c' gd' s' Mo Nm Nt Pl St0 At Ne. pose proof Mo as (_ & _ & Sz & _).
    destruct (run_archive _ _ _ _ _ _ _ Mo St0 At) as ((E1 & E2 & E3 & E4) & [(calls & El & Hc) _ _]).
    destruct (C54_pareto_set ok NL Ct F m fuel c gd0 s0 k c' gd' s' Mo St0 At Ne) as (front & _ & _ & A & _).
    exists calls, front. split; auto. split; auto. intros pt v Hin. destruct (Hc pt v Hin) as [_ B]. rewrite E2, E4 in B. destruct (B Nm Nt Pl) as (r & Hr & N).
    destruct (front_covers ok NL F m Sz (heap s') _ r Hr) as (e & Ie & Fe & Ng). exists e. destruct A as (rest & Em & _ & A2). split.
    - rewrite Em in Ie. apply in_app_or in Ie. destruct Ie as [Ie|Ie]; auto. destruct (A2 e Ie) as (y & Iy & D). destruct (Fe y Iy D).
    - destruct (Sz (phen (heap s') e)), (Sz (phen (heap s') r)), (Sz pt). eapply (ng_trans ok NL) with (b := F (phen (heap s') r)); auto; congruence.
  Qed.

  (** What FFGA.optimize reports for an unconditional task: the recorded objective values
      are those of the recorded points, and no value the objective ever returned is better
      than all of them. *)
  Theorem C72_ffga : forall cf gray gens s gd' cl s', steady (cf_objective cf) F -> sized ok F m ->
    cf_transfer cf = "best"%string -> cf_penalty cf = PNone -> (match cf_input_data cf with Some d => truthy d = false | None => True end) ->
    ffga fuel cf gray gens s = Ok (gd', cl) s' -> members (population gd') <> [] ->
    exists calls set g, log s' = calls ++ log s /\ best_solution gd' = BPareto set (Some g) /\
      (forall i, In i set -> obj_score i = SVL (F (ph i))) /\
      forall pt v, In (pt, v) calls -> v = OTuple (F pt) /\ exists i, In i set /\ no_greater (F (ph i)) (F pt).
  Proof.
    intros cf gray gens s gd' cl s' Sy Sz Tr Pn Dt H Ne. unfold ffga in H. apply multi_optimize_run in H.
    destruct H as (c & gd0 & s0 & k & c' & At & St & L & Es & _ & _ & Ek & Eo & _ & Nn & Nf).
    assert (Mo : multi_objective ok c F m) by (repeat split; [rewrite Ek; reflexivity|rewrite Eo; exact Sy|apply Sz|apply Sz|rewrite Es; exact I]).
    rewrite Tr in Nn. cbn in Nn. inversion Nn as [En]. rewrite Pn in Nf. cbn [new_fitness] in Nf. inversion Nf as [[Ef Ec]].
    assert (Un : unconditional (c_fitness c)) by (rewrite <- Ef; split; [reflexivity|exact Dt]).
    destruct (run_archive _ _ _ _ _ _ _ Mo St At) as ((E1 & E2 & E3 & E4) & [(calls & El & Hc) Hv Hs]). rewrite <- E1 in Un.
    destruct (C72_front c gd0 s0 k c' gd' s' Mo) as (calls' & front & El' & A & B); auto; [rewrite <- En; reflexivity|rewrite <- En; reflexivity|rewrite Es; exact I|].
    rewrite El in El'. apply app_inv_tail in El'. subst calls'.
    destruct (C54_pareto_set ok NL Ct F m fuel c gd0 s0 k c' gd' s' Mo St At Ne) as (front' & set & g & A' & _ & Eb & _ & _ & Al & _).
    exists calls, set, g. rewrite <- L. split; auto. split; auto. split; [exact (Hs Un set _ Eb)|].
    intros pt v Hin. split; [apply (Hc pt v Hin); auto|].
    destruct (B pt v Hin) as (r & Ir & N).
    assert (Ir' : In r front').
    { destruct A as (rest & Em & A1 & _). destruct A' as (rest' & Em' & _ & A2). assert (Im : In r (members (population gd'))) by (rewrite Em; apply in_or_app; auto).
      pose proof Im as Im'. rewrite Em' in Im'. apply in_app_or in Im'. destruct Im' as [|Q]; auto. destruct (A2 r Q) as (y & Iy & D). destruct (A1 r Ir y Iy D). }
    destruct Al as [-> |Al].
    - exists (heap s' r). split; [apply in_map; auto|exact N].
    - assert (Q : exists i, In i set /\ alike i (heap s' r)).
      { clear - Al Ir'. revert Al. generalize set. induction front' as [|x l IH]; intros st Al; [destruct Ir'|]. cbn [map] in Al. inversion Al as [|i y st' l' Hi Al']; subst.
        destruct Ir' as [->|Ir']; [exists i; split; [left; auto|auto]|]. destruct (IH Ir' _ Al') as (j & Ij & Hj). exists j. split; [right; auto|auto]. }
      destruct Q as (i & Ii & Hi). exists i. split; auto.
      pose proof (al_obj_score _ _ Hi) as Es'. rewrite (Hs Un set _ Eb i Ii) in Es'.
      assert (Im : In r (members (population gd'))) by (destruct A as (rest & Em & _); rewrite Em; apply in_or_app; auto).
      rewrite (Hv Un r Im) in Es'. cbn [sv_same] in Es'.
      destruct (Sz (ph i)) as [L1 O1], (Sz (phen (heap s') r)) as [L2 O2], (Sz pt) as [L3 O3].
      eapply (ng_trans ok NL) with (b := F (phen (heap s') r)); auto; try congruence.
      clear - NL Es' O1 O2. induction Es' as [|x y a b E Es' IH]; cbn; auto. inversion O1; inversion O2; subst. split; auto.
      apply (no_eq _ _ NL) in E; tauto.
  Qed.
End Archive.

Section Exact.
  Local Existing Instance Qops.
  Definition archive_view (r : gadata * option (list string)) (s : st) :=
    (nth_error (log s) 46, match best_solution (fst r) with BPareto set g => (map (fun i => (phenotype i, obj_score i)) set, g) | _ => ([], None) end).

  Definition seen_value : (option (list gv * oval) * (list (option (option (list gv)) * sval) * option Z)) :=
    (Some ([GNum (3#3); GNum (6#3)], OTuple [3; 6]%Q),
     ([(Some (Some [GNum (9#3); GNum (6#3)]), SVL [11; 2]%Q); (Some (Some [GNum (0#3); GNum (0#3)]), SVL [0; 9]%Q); (Some (Some [GNum (3#3); GNum (9#3)]), SVL [4; 7]%Q)], Some 4)).
  Lemma seen_facts : forall gd' cl s', archive_view (gd', cl) s' = seen_value -> exists set, best_solution gd' = BPareto set (Some 4) /\
    exists pt i, In (pt, OTuple (trade_off pt)) (log s') /\ In i set /\ dominates (trade_off pt) (trade_off (ph i)) /\ forall j, In j set -> ~ no_greater (trade_off (ph j)) (trade_off pt).
  Proof.
    intros gd' cl s' V. unfold archive_view, seen_value in V. cbn [fst] in V. destruct (best_solution gd') as [| |set g]; [inversion V|inversion V|].
    apply pair_equal_spec in V. destruct V as [V1 V]. apply pair_equal_spec in V. destruct V as [V2 V3]. subst g. apply nth_error_In in V1. exists set. split; auto.
    destruct set as [|i1 [|i2 [|i3 [|]]]]; try discriminate V2. cbn [map] in V2. injection V2 as P1 _ P2 _ P3 _.
    exists [@GNum Qops (3#3); @GNum Qops (6#3)], i3. split; [exact V1|]. split; [right; right; left; reflexivity|]. unfold ph. rewrite P3. split.
    - split; vm_compute; auto.
    - intros j [<-|[<-|[<-|[]]]]; [rewrite P1|rewrite P2|rewrite P3]; vm_compute; intros [A B]; try discriminate; destruct B; discriminate.
  Qed.
  Lemma seen_run : observe archive_view (vega 50 (trade_cf "best" 6 5) true two_genes wide_world) = Some seen_value.
  Proof. run. Qed.

  (** The statement fails for VEGA.optimize, also with transfer_parents='best': a run of
      six individuals and five generations reports the point (1, 3) with the values
      [4; 7] although it had evaluated (1, 2) with the values [3; 6]. *)
  Theorem C72_vega_refuted : exists cf gens s fuel F gd' cl s' set g,
    steady (cf_objective cf) F /\ sized (fun _ => True) F 2 /\ cf_transfer cf = "best"%string /\ cf_penalty cf = PNone /\ cf_input_data cf = None /\
    vega fuel cf true gens s = Ok (gd', cl) s' /\ best_solution gd' = BPareto set (Some g) /\
    exists pt i, In (pt, OTuple (F pt)) (log s') /\ In i set /\ dominates (F pt) (F (ph i)) /\ forall j, In j set -> ~ no_greater (F (ph j)) (F pt).
  Proof.
    pose proof seen_run as V. apply observe_some in V. destruct V as ([gd' cl] & s' & Ev & V). apply seen_facts in V. destruct V as (set & Eb & R).
    exists (trade_cf "best" 6 5), two_genes, wide_world, 50%nat, trade_off, gd', cl, s', set, 4.
    split; [intros k genes v H; inversion H; reflexivity|]. split; [intros genes; split; [reflexivity|apply Forall_forall; auto]|].
    split; [reflexivity|]. split; [reflexivity|]. split; [reflexivity|]. split; [exact Ev|]. split; [exact Eb|exact R].
  Qed.

  (** FFGA on the same task: 444 calls, the reported set covers every value returned. *)
  Definition covered (l : list Q) (set : list individ) : bool :=
    existsb (fun i => match obj_score i with SVL a => forallb (fun p => Qle_bool (fst p) (snd p)) (combine a l) | _ => false end) set.
  Example C72_case : observe (fun r s => (length (log s), match best_solution (fst r) with BPareto set _ => (map obj_score set, forallb (fun p => match snd p with OTuple l => covered l set | _ => false end) (log s)) | _ => ([], false) end))
      (ffga 50 (trade_cf "best" 6 5) true two_genes wide_world) =
    Some (444%nat, ([SVL [0; 9]; SVL [3; 6]; SVL [10; 1]; SVL [3; 6]; SVL [3; 6]]%Q, true)).
  Proof. run. Qed.
  (** ... and the hypotheses of [C72_ffga] hold of it. *)
  Example C72_hypotheses : steady (cf_objective (trade_cf "best" 6 5)) trade_off /\ sized (fun _ => True) trade_off 2 /\ @counting Qops (fun _ => True).
  Proof.
    split; [intros k genes v H; inversion H; reflexivity|]. split; [intros genes; split; [reflexivity|apply Forall_forall; auto]|]. exact counting_exact.
  Qed.
End Exact.

Print Assumptions C72_front.
Print Assumptions C72_ffga.
Print Assumptions C72_vega_refuted.
