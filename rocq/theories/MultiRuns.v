(** Whole multi-objective runs (Driver.v with MultiGaData): the first generation, the
    later ones, and how VEGA.optimize and FFGA.optimize relate to them. *)
From Coq Require Import String.
From Coq Require Import ZArith QArith List Bool Lia Permutation Sorted.
From Verif Require Import Spec Num State Binary Population GaData Crossover Mutation Selection Penalty Fitness NewGeneration Driver
  ListLemmas Rnd Exec Laws PopulationProofs CrossoverProofs MutationProofs SelectionProofs VegaProofs
  NewGenProofs UpdateProofs FitnessProofs StepProofs RunProofs HistoryProofs Runs RankingProofs MultiProofs.
Import ListNotations.
Open Scope list_scope.
Open Scope Z_scope.

Section MultiRuns.
  Context {NO : NumOps}.

  (** What VEGA.optimize and FFGA.optimize (and CollectorGA.set_population with a
      MultiGaData) hand to the main loop. *)
  Definition multi_started (gd : gadata) (s : st) : Prop :=
    exists n gray gens bp inp p s0 p' ng cp es, set_params n (GenBinary gray gens bp) inp = inr p /\ fill p s0 = Ok p' s /\
      gd = new_gadata true ng cp es p'.
  (** The components such a run needs: a multi-objective fitness, one-argument
      objectives that always return the same tuple for the same point. *)
  Definition multi_objective (ok : num -> Prop) (c : comps) (F : list gv -> list num) (m : nat) : Prop :=
    is_multi_kind (fkind (c_fitness c)) = true /\ steady (obj_function (c_fitness c)) F /\ sized ok F m /\ objectives_ok (c_selection c).

  Record MInit (gd : gadata) (s : st) : Prop := {
    mn_multi : is_multi gd = true;
    mn_unsorted : is_sorted (population gd) = false;
    mn_bin : is_phenotype (gspec_of (population gd)) = true;
    mn_nodup : NoDup (members (population gd));
    mn_alloc : forall r, In r (members (population gd)) -> (r < next s)%nat;
    mn_fresh : forall r, In r (members (population gd)) ->
      fresh (gspec_of (population gd)) (heap s r) /\ decoded (gspec_of (population gd)) (heap s r);
    mn_gen : idx_generation gd = 0 /\ no_improve gd = 0 /\ best_solution gd = BNone /\ hist_pareto gd = []
  }.
  Lemma multi_started_init : forall gd s, multi_started gd s -> MInit gd s.
  Proof.
    intros gd s (n & gray & gens & bp & inp & p & s0 & p' & ng & cp & es & Sp & F & ->).
    assert (I : Init (new_gadata false ng cp es p') s).
    { eapply fill_init; [|exact F]. apply set_params_inv in Sp. destruct Sp as [_ ->]. reflexivity. }
    destruct I as [_ I2 I3 I4 I5 _ _]. constructor; auto.
    assert (Eg : gspec_of p = GenBinary gray gens bp) by (apply set_params_inv in Sp; destruct Sp as [_ ->]; reflexivity).
    apply fill_ok in F. destruct F as (g & Hg & F). cbv zeta in F. destruct F as (-> & _). cbn [new_gadata population gspec_of set_members set_gspec].
    rewrite Eg in Hg. cbn [prepare] in Hg. destruct (get_gens_params gens) as [e|bp']; inversion Hg; reflexivity.
  Qed.

  (** The first generation. *)
  Record MFirst (F : list gv -> list num) (f : fitness) (gd : gadata) (s : st) (gd' : gadata) (s' : st)
         (h2 : nat -> individ) (rc cs : list (list gv * oval)) (front : list nat) : Prop := {
    mf_ranks : ranks (members (population gd)) (rank_count F (heap s) (members (population gd))) (heap s) h2;
    mf_rank_calls : Z.of_nat (length rc) = Z.of_nat (length (members (population gd))) * (Z.of_nat (length (members (population gd))) - 1);
    mf_rank_points : forall pt v, In (pt, v) rc -> v = OTuple (F pt) /\
      exists r, In r (members (population gd)) /\ phenotype (heap s r) = Some (Some pt);
    mf_log : log s' = rev cs ++ rev rc ++ log s;
    mf_eval : assessed f (gspec_of (population gd)) 0 BNone h2 (heap s') (length rc + length (log s)) (members (population gd)) cs;
    mf_frame : forall r, ~ In r (members (population gd)) -> heap s' r = heap s r;
    mf_quiet : quiet s s';
    mf_perm : Permutation (members (population gd')) (members (population gd));
    mf_pop : population gd' = set_members (members (population gd')) (population gd);
    mf_front : front_first F (heap s') (members (population gd')) front;
    mf_gen : idx_generation gd' = 1;
    mf_hist : hist_pareto gd' = [front];
    mf_best : best_solution gd' = if inds_eqb [] (map (heap s') front) then BPareto [] None else BPareto (map (heap s') front) (Some 0);
    mf_no_improve : no_improve gd' = if inds_eqb [] (map (heap s') front) then 1 else 0;
    mf_params : num_generations gd' = num_generations gd /\ early_stop gd' = early_stop gd /\ children_percent gd' = children_percent gd
  }.
  Lemma multi_first_ok : forall ok F m f gd s gd' s', NumOrder NO ok -> counting ok ->
    is_multi_kind (fkind f) = true -> steady (obj_function f) F -> sized ok F m -> MInit gd s ->
    first_generation f gd s = Ok gd' s' ->
    exists h2 rc cs front, MFirst F f gd s gd' s' h2 rc cs front /\ MI F gd' s'.
  Proof.
    intros ok F m f gd s gd' s' NL Ct Mk Stdy Sz I H. destruct I as [Im Iu Ib Ind Ia If (Ig & Ini & Ibs & Ih)].
    unfold first_generation in H. bd H u s1 R.
    assert (Un : forall r, In r (members (population gd)) -> unscored s r = true).
    { intros r Hr. destruct (If r Hr) as [(E & _) _]. unfold unscored. rewrite E. reflexivity. }
    apply (multi_fitness_ok ok NL _ F m) in R; auto.
    2:{ intros r Hr _. apply (NoDup_count_occ' Nat.eq_dec); auto. }
    assert (En : news s (members (population gd)) = members (population gd)).
    { rewrite <- (app_nil_r (members (population gd))) at 1. apply news_app; auto. intros r []. }
    rewrite En, Ig, Ibs in R. destruct R as (h1 & h2 & rc & cs & Fh & Fo & Rks & Lrc & Rpt & Q & L & As & O).
    assert (Hh : forall r, h1 r = heap s r).
    { intros r. destruct (in_dec Nat.eq_dec r (members (population gd))) as [i|i]; [|auto]. eapply filled_same; [|apply Fh; auto]. apply If; auto. }
    assert (Rks' : ranks (members (population gd)) (rank_count F (heap s) (members (population gd))) (heap s) h2).
    { destruct Rks as [A B]. split; intros r Hr.
      - rewrite A, Hh by auto. do 4 f_equal. apply rank_count_ext; auto. intros x _. unfold phen. rewrite Hh. auto.
      - rewrite B, Hh by auto. auto. }
    pose proof Rks' as [A B].
    assert (Keep : forall r, In r (members (population gd)) -> genotype (heap s1 r) = genotype (heap s r) /\ phenotype (heap s1 r) = phenotype (heap s r) /\
        rank (heap s1 r) = Some (SV1 (ones (rank_count F (heap s) (members (population gd)) r))) /\ unscored s1 r = false).
    { intros r Hr. destruct (assessed_in _ _ _ _ _ _ _ _ _ _ As Hr) as (v & k' & _ & Cv & Av). pose proof Av as Av'. apply assess_keeps in Av. destruct Av as (A1 & A2 & _ & A4).
      rewrite A1, A2, A4, A by auto. cbn. repeat split; auto. apply assess_scored in Av'. exact Av'. }
    assert (Wr1 : well_ranked F s1 (members (population gd))).
    { intros r Hr. destruct (Keep r Hr) as (_ & _ & -> & _). do 3 f_equal. apply rank_count_ext; auto. intros x Hx. unfold phen. destruct (Keep x Hx) as (_ & -> & _). auto. }
    unfold update in H. rewrite Im in H. apply (update_multi_ok ok NL Ct F) in H; auto. destruct H as (-> & l & front & Pm & Asc & FF & ->).
    exists h2, rc, cs, front. split.
    - constructor; cbn [multi_updated population members set_members idx_generation hist_pareto best_solution no_improve num_generations early_stop children_percent]; auto.
      + intros pt v Hin. destruct (Rpt pt v Hin) as (Ev & r & Hr & Ph). rewrite Hh in Ph. eauto.
      + intros r Hr. rewrite O, B by auto. auto.
      + rewrite Ig. auto.
      + rewrite Ih. auto.
      + rewrite Ibs, Ig. auto.
      + rewrite Ibs, Ini. auto.
    - constructor; cbn [multi_updated population members set_members is_sorted is_multi gspec_of]; auto.
      + intros r Hr. apply (Permutation_in _ Pm) in Hr. destruct Q as (Qn & _). rewrite Qn. auto.
      + intros r Hr. apply (Permutation_in _ Pm) in Hr. destruct (Keep r Hr) as (K1 & K2 & _ & K4). split; auto.
        destruct (If r Hr) as [_ D]. unfold decoded in *. rewrite K1, K2. auto.
      + intros r Hr. rewrite (rank_count_perm F (heap s1) _ _ r Pm). apply Wr1. eapply Permutation_in; eauto.
  Qed.

  (** *** Induction over the generations of a run *)
  Lemma mstep_same_comps : forall F c gd s c' gd' s' kids els h1 h2 rc cs front, MStep F c gd s c' gd' s' kids els h1 h2 rc cs front -> same_comps c c'.
  Proof. intros F c gd s c' gd' s' kids els h1 h2 rc cs front St. destruct (ms_comps _ _ _ _ _ _ _ _ _ _ _ _ _ _ St) as (m' & -> & _). repeat split. Qed.
  Section Induction.
    Context (ok : num -> Prop) (NL : NumOrder NO ok) (Ct : counting ok) (F : list gv -> list num) (m : nat) (fuel : nat).
    Lemma multi_run_inv : forall (Inv : comps -> gadata -> st -> Prop) c gd0 s0 gd s,
      multi_objective ok c F m -> MInit gd0 s0 -> first_generation (c_fitness c) gd0 s0 = Ok gd s ->
      (forall h2 rc cs front, MFirst F (c_fitness c) gd0 s0 gd s h2 rc cs front -> MI F gd s -> Inv c gd s) ->
      (forall c1 gd1 s1 c2 gd2 s2 kids els h1 h2 rc cs front, same_comps c c1 -> MI F gd1 s1 -> Inv c1 gd1 s1 ->
         MStep F c1 gd1 s1 c2 gd2 s2 kids els h1 h2 rc cs front -> MI F gd2 s2 -> Inv c2 gd2 s2) ->
      forall k c' gd' s', steps fuel c gd s k c' gd' s' -> MI F gd' s' /\ same_comps c c' /\ Inv c' gd' s'.
    Proof.
      intros Inv c gd0 s0 gd s (Mk & Stdy & Sz & Ho) I0 Hf Hb HI.
      destruct (multi_first_ok ok F m (c_fitness c) gd0 s0 gd s NL Ct Mk Stdy Sz I0 Hf) as (h2 & rc & cs & front & Fi & G).
      intros k c' gd' s' S. induction S as [|k c1 gd1 s1 c2 gd2 s2 S IH R].
      - split; auto. split; [repeat split|]. eapply Hb; eauto.
      - destruct IH as (G1 & C1 & I1). destruct C1 as (E1 & E2 & E3 & E4).
        destruct (multi_step_ok ok fuel F m c1 gd1 s1 c2 gd2 s2) as (kids & els & k1 & k2 & rc' & cs' & front' & St & G2);
          [exact NL|exact Ct|rewrite E1; exact Mk|rewrite E1; exact Stdy|exact Sz|rewrite E2; exact Ho|exact G1|exact R|].
        split; auto. pose proof (mstep_same_comps _ _ _ _ _ _ _ _ _ _ _ _ _ _ St) as (F1 & F2 & F3 & F4).
        split; [repeat split; congruence|]. eapply HI; [| |exact I1|exact St|exact G2]; auto. repeat split; auto.
    Qed.
    (** One generation of a run. *)
    Lemma multi_generation : forall c gd0 s0 k c1 gd1 s1 c2 gd2 s2,
      multi_objective ok c F m -> MInit gd0 s0 ->
      at_generation fuel c gd0 s0 k c1 gd1 s1 -> ga_step fuel c1 gd1 s1 = Ok (c2, gd2) s2 ->
      MI F gd1 s1 /\ same_comps c c1 /\ exists kids els h1 h2 rc cs front, MStep F c1 gd1 s1 c2 gd2 s2 kids els h1 h2 rc cs front /\ MI F gd2 s2.
    Proof.
      intros c gd0 s0 k c1 gd1 s1 c2 gd2 s2 Mo I0 (gd & s & Hf & S) R.
      destruct (multi_run_inv (fun _ _ _ => True) c gd0 s0 gd s Mo I0 Hf) with (k := k) (c' := c1) (gd' := gd1) (s' := s1) as (G1 & C1 & _); auto.
      split; auto. split; auto. destruct C1 as (E1 & E2 & E3 & E4). destruct Mo as (Mk & Stdy & Sz & Ho).
      destruct (multi_step_ok ok fuel F m c1 gd1 s1 c2 gd2 s2) as (kids & els & k1 & k2 & rc' & cs' & front' & St & G2);
        [exact NL|exact Ct|rewrite E1; exact Mk|rewrite E1; exact Stdy|exact Sz|rewrite E2; exact Ho|exact G1|exact R|]. eauto 12.
    Qed.
  End Induction.

  (** optimize of the ready-made multi-objective classes is such a run. *)
  Lemma multi_optimize_run : forall fuel cf gray gens bp fk sel ck mk ngm s gd' cl s',
    ga_optimize fuel cf true (GenBinary gray gens bp) fk sel ck mk ngm s = Ok (gd', cl) s' ->
    exists c gd0 s0 k c', at_generation fuel c gd0 s0 k c' gd' s' /\ multi_started gd0 s0 /\ log s0 = log s /\
      c_selection c = sel /\ c_crossover c = ck /\ mk (cf_mutation_lvl cf) = inr (c_mutation c) /\
      fkind (c_fitness c) = fk /\ obj_function (c_fitness c) = cf_objective cf /\ obj_value (c_fitness c) = cf_obj_value cf /\
      new_newgen ngm (cf_transfer cf) = inr (c_newgen c) /\
      new_fitness fk (cf_objective cf) (cf_obj_value cf) (cf_input_data cf) (cf_penalty cf) (cf_conditions cf) = inr (c_fitness c, cl).
  Proof.
    intros fuel cf gray gens bp fk sel ck mk ngm s gd' cl s' H. unfold ga_optimize in H.
    bd H u s1 R1. destruct u. bd H p sx R2. apply lift_ok in R2. destruct R2 as [Sp ->].
    bd H fc sy R3. apply lift_ok in R3. destruct R3 as [Nf ->]. bd H mt sz R4. apply lift_ok in R4. destruct R4 as [Nm ->].
    bd H ng sw R5. apply lift_ok in R5. destruct R5 as [Nn ->]. bd H p' s2 R6. cbv zeta in H. bd H r s3 R7. destruct r as [c' gd1].
    bd H u1 s4 R8. apply ret_ok in H. destruct H as [E ->]. inversion E; subst gd1 cl. clear E. destruct fc as [f cl].
    cbn [fst snd] in *.
    assert (s4 = s3).
    { destruct (cf_is_print cf); [|apply ret_ok in R8; destruct R8; auto]. unfold print_best_solution in R8.
      destruct (best_solution gd') as [|i k|l [k|]]; try discriminate; [apply ret_ok in R8; destruct R8; auto|].
      clear - R8. induction l as [|x l IH]; cbn [miter] in R8; [apply ret_ok in R8; destruct R8; auto|]. destruct (phenotype x); [|discriminate].
      bd R8 u s1 R. apply ret_ok in R. destruct R as [_ ->]. auto. }
    subst s4. apply run_ends in R7. destruct R7 as (k & At).
    exists (mkComps f sel ck mt ng), (new_gadata true (cf_num_generations cf) (cf_children_percent cf) (resolved_stop cf) p'), s2, k, c'.
    split; auto. split.
    { exists (cf_num_individ cf), gray, gens, bp, (cf_input_population cf), p, s1, p', (cf_num_generations cf), (cf_children_percent cf), (resolved_stop cf). auto. }
    pose proof R1 as R1'. apply extends_do_seed in R1'. destruct R1' as ((_ & L1 & _ & _) & _).
    pose proof R6 as R6'. apply fill_ok in R6'. destruct R6' as (g' & _ & K). cbv zeta in K. destruct K as (_ & _ & (_ & L2 & _ & _) & _).
    split; [congruence|]. cbn [c_selection c_crossover c_mutation c_fitness c_newgen]. split; auto. split; auto. split; auto.
    assert (A : fkind f = fk /\ obj_function f = cf_objective cf /\ obj_value f = cf_obj_value cf).
    { unfold new_fitness in Nf. destruct (cf_penalty cf); [inversion Nf; auto| |discriminate]. destruct (_ <=? 1); [inversion Nf; auto|].
      destruct (is_multi_kind fk); [|destruct (index_of "optimize" _)]; inversion Nf; auto. }
    destruct A as (A1 & A2 & A3). auto.
  Qed.
End MultiRuns.
