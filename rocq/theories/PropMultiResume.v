(** Property C96: CollectorGA.optimize called again with multi-objective components. *)
From Coq Require Import String.
From Coq Require Import ZArith QArith List Bool Lia Permutation Sorted.
From Verif Require Import Spec Num State Binary Population GaData Crossover Mutation Selection Penalty Fitness NewGeneration Driver
  ListLemmas Rnd Exec Laws PopulationProofs CrossoverProofs MutationProofs SelectionProofs VegaProofs
  NewGenProofs UpdateProofs FitnessProofs StepProofs RunProofs HistoryProofs Runs RankingProofs MultiProofs MultiRuns PropRun PropPareto PropResume Demo.
Import ListNotations.
Open Scope list_scope.
Open Scope Z_scope.

Section MultiResume.
  Context {NO : NumOps} (ok : num -> Prop) (NL : NumOrder NO ok) (Ct : counting ok).
  Context (F : list gv -> list num) (m : nat) (fuel : nat).

  (** A list in ascending order is not changed by sorting. *)
  Lemma sort_keeps : forall k l s l' s', asc k s l -> sort_by_dict k l s = Ok l' s' -> l' = l.
  Proof.
    intros k l s l' s' A H. unfold sort_by_dict in H. bd H kv s1 R. apply read_keys_ok in R. destruct R as (-> & <- & K).
    destruct (comparable (map fst kv)); [|apply raise_ok in H; contradiction]. apply ret_ok in H. destruct H as [-> _]. f_equal. apply sort_by_id.
    clear - A K. induction kv as [|p kv IH]; [constructor|]. cbn [map] in A. inversion A as [|? ? A1 A2]; subst. inversion K as [|? ? K1 K2]; subst.
    constructor; [apply IH; auto|]. rewrite Forall_forall in A2, K2 |- *. intros q Hq. specialize (A2 (snd q) (in_map snd _ _ Hq)). cbv beta in A2.
    unfold key_lt in A2. rewrite (K2 q Hq), K1 in A2. exact A2.
  Qed.
  Lemma set_rank_same : forall v i, rank i = v -> set_rank v i = i.
  Proof. intros v [] <-. reflexivity. Qed.
  Lemma front_unique : forall h l a b, front_first F h l a -> front_first F h l b -> a = b.
  Proof.
    intros h l a b (r1 & E1 & A1 & B1) (r2 & E2 & A2 & B2).
    assert (Gn : forall (a b a' b' : list nat), a ++ b = a' ++ b' -> (forall z, In z a -> ~ In z b') -> (forall z, In z a' -> ~ In z b) -> a = a').
    { clear. induction a as [|z a IHa]; intros b [|z' a'] b' E N1 N2; auto.
      - cbn in E. subst b. destruct (N2 z'); left; auto.
      - cbn in E. subst b'. destruct (N1 z); left; auto.
      - cbn in E. inversion E; subst. f_equal. eapply IHa; eauto; intros w Hw; [apply N1|apply N2]; right; auto. }
    apply (Gn a r1 b r2).
    - congruence.
    - intros z Hz C. destruct (B2 z C) as (y & Iy & D). apply (A1 z Hz y Iy D).
    - intros z Hz C. destruct (B1 z C) as (y & Iy & D). apply (A2 z Hz y Iy D).
  Qed.

  (** What holds between the generations and between the calls. *)
  Definition archive (gd : gadata) (s : st) (front : list nat) : Prop :=
    front_first F (heap s) (members (population gd)) front /\ 0 < idx_generation gd /\
    (exists older, hist_pareto gd = older ++ [front] /\ Z.of_nat (length older) + 1 = idx_generation gd) /\
    exists set g, best_solution gd = BPareto set g /\ (set = map (heap s) front \/ Forall2 alike set (map (heap s) front)) /\
      (set <> [] -> exists n, g = Some n /\ 0 <= n < idx_generation gd).
  Definition surveyed (gd : gadata) (s : st) : Prop := MI F gd s /\ exists front, archive gd s front.

  Lemma surveyed_first : forall c gd0 s0 gd s, multi_objective ok c F m -> MInit gd0 s0 -> first_generation (c_fitness c) gd0 s0 = Ok gd s -> surveyed gd s.
  Proof.
    intros c gd0 s0 gd s (Mk & Sy & Sz & Ho) I H. destruct (multi_first_ok ok F m (c_fitness c) gd0 s0 gd s NL Ct Mk Sy Sz I H) as (h2 & rc & cs & front & Fi & M).
    split; auto. exists front. split; [apply (mf_front _ _ _ _ _ _ _ _ _ _ Fi)|]. rewrite (mf_gen _ _ _ _ _ _ _ _ _ _ Fi). split; [lia|]. split.
    - exists []. rewrite (mf_hist _ _ _ _ _ _ _ _ _ _ Fi). auto.
    - rewrite (mf_best _ _ _ _ _ _ _ _ _ _ Fi). destruct (inds_eqb [] (map (heap s) front)) eqn:E.
      + exists [], None. split; auto. split; [right; apply inds_eqb_alike; auto|congruence].
      + exists (map (heap s) front), (Some 0). split; auto. split; auto. intros _. exists 0. split; auto. lia.
  Qed.
  Lemma surveyed_step : forall c gd s c' gd' s', multi_objective ok c F m -> surveyed gd s -> ga_step fuel c gd s = Ok (c', gd') s' ->
    surveyed gd' s' /\ same_comps c c' /\ exists kids els h1 h2 rc cs front, MStep F c gd s c' gd' s' kids els h1 h2 rc cs front.
  Proof.
    intros c gd s c' gd' s' (Mk & Sy & Sz & Ho) (M & front0 & _ & Pg & (older & Hh & Lh) & set & g & Eb & _ & Hg) R.
    destruct (multi_step_ok ok fuel F m c gd s c' gd' s' NL Ct Mk Sy Sz Ho M R) as (kids & els & h1 & h2 & rc & cs & front & St & M2).
    split; [|split; [eapply mstep_same_comps; eauto|eauto 10]]. split; auto. exists front. split; [apply (ms_front _ _ _ _ _ _ _ _ _ _ _ _ _ _ St)|].
    pose proof (ms_gen _ _ _ _ _ _ _ _ _ _ _ _ _ _ St) as Eg. split; [lia|]. split.
    - exists (hist_pareto gd). rewrite (ms_hist _ _ _ _ _ _ _ _ _ _ _ _ _ _ St). split; auto. rewrite Hh, app_length. cbn [length]. lia.
    - pose proof (ms_best _ _ _ _ _ _ _ _ _ _ _ _ _ _ St) as Eb2. rewrite Eb in Eb2. cbn [old_set old_gen] in Eb2. destruct (inds_eqb set (map (heap s') front)) eqn:E.
      + exists set, g. split; auto. split; [right; apply inds_eqb_alike; auto|]. intros Ns. destruct (Hg Ns) as (n & -> & Hn). exists n. split; auto. lia.
      + exists (map (heap s') front), (Some (idx_generation gd)). split; auto. split; auto. intros _. eexists; split; [reflexivity|lia].
  Qed.
  Lemma objective_same : forall c c', same_comps c c' -> multi_objective ok c F m -> multi_objective ok c' F m.
  Proof. intros c c' (E1 & E2 & _) Mo. unfold multi_objective in *. rewrite E1, E2. exact Mo. Qed.
  Lemma same_comps_trans : forall a b c, same_comps a b -> same_comps b c -> same_comps a c.
  Proof. intros a b c (A1 & A2 & A3 & A4) (B1 & B2 & B3 & B4). repeat split; congruence. Qed.
  Lemma surveyed_steps : forall c gd s k c' gd' s', multi_objective ok c F m -> surveyed gd s -> steps fuel c gd s k c' gd' s' ->
    surveyed gd' s' /\ same_comps c c' /\ idx_generation gd' = idx_generation gd + Z.of_nat k /\
    num_generations gd' = num_generations gd /\ early_stop gd' = early_stop gd /\
    (next s <= next s')%nat /\ forall r, (r < next s)%nat -> same_core (heap s r) (heap s' r).
  Proof.
    intros c gd s k c' gd' s' Mo Sv T. induction T as [|k c1 gd1 s1 c2 gd2 s2 T IH R].
    - split; auto. split; [repeat split|]. split; [lia|]. repeat split; auto.
    - destruct IH as (S1 & Sc & G & Pn & Pe & Nx & Co). destruct (surveyed_step c1 gd1 s1 c2 gd2 s2 (objective_same _ _ Sc Mo) S1 R) as (S2 & Sc2 & kids & els & h1 & h2 & rc & cs & front & St).
      split; auto. split; [eapply same_comps_trans; eauto|]. pose proof (ms_gen _ _ _ _ _ _ _ _ _ _ _ _ _ _ St) as Eg. split; [lia|].
      destruct (ms_params _ _ _ _ _ _ _ _ _ _ _ _ _ _ St) as (Q1 & Q2 & _). split; [congruence|]. split; [congruence|].
      destruct (ms_kids _ _ _ _ _ _ _ _ _ _ _ _ _ _ St) as (a & _ & La & Ln). split; [lia|].
      intros r Hr. eapply same_core_trans; [apply Co; auto|]. apply (ms_core _ _ _ _ _ _ _ _ _ _ _ _ _ _ St). lia.
  Qed.

  (** The beginning of a further call. *)
  Record reranked (gd : gadata) (s : st) (gd' : gadata) (s' : st) (front : list nat) (rc : list (list gv * oval)) : Prop := {
    rr_heap : forall r, heap s' r = heap s r;
    rr_quiet : quiet s s';
    rr_log : log s' = rc ++ log s;
    rr_count : Z.of_nat (length rc) = Z.of_nat (length (members (population gd))) * (Z.of_nat (length (members (population gd))) - 1);
    rr_calls : forall pt v, In (pt, v) rc -> v = OTuple (F pt) /\ exists r, In r (members (population gd)) /\ phenotype (heap s r) = Some (Some pt);
    rr_pop : population gd' = population gd;
    rr_gen : idx_generation gd' = idx_generation gd + 1;
    rr_hist : hist_pareto gd' = hist_pareto gd ++ [front];
    rr_alike : forall set g, best_solution gd = BPareto set g -> Forall2 alike set (map (heap s) front) ->
      best_solution gd' = best_solution gd /\ no_improve gd' = no_improve gd + 1;
    rr_params : num_generations gd' = num_generations gd /\ early_stop gd' = early_stop gd
  }.
  Lemma again_multi : forall c gd s gd' s' front, multi_objective ok c F m -> MI F gd s -> archive gd s front ->
    first_generation (c_fitness c) gd s = Ok gd' s' -> exists rc, reranked gd s gd' s' front rc /\ surveyed gd' s'.
  Proof.
    intros c gd s gd' s' front (Mk & Sy & Sz & Ho) M Ar H. pose proof M as [Im Iu Ib Ia It Ir Iasc]. unfold first_generation in H. bd H u s1 R.
    apply (multi_fitness_ok ok NL _ F m) in R; auto. 2:{ intros r Hr U. rewrite (proj1 (It r Hr)) in U. discriminate. }
    destruct R as (h1 & h2 & rc & cs & Fh & Fo & Rks & Lrc & Rpt & Q & L & As & O).
    assert (En : news s (members (population gd)) = []).
    { destruct (news s (members (population gd))) as [|r l] eqn:E; auto. assert (I : In r (news s (members (population gd)))) by (rewrite E; left; auto).
      apply news_in in I. destruct I as [I U]. rewrite (proj1 (It r I)) in U. discriminate. }
    rewrite En in As, O. inversion As; subst. cbn [rev app] in L.
    assert (H1 : forall r, h1 r = heap s r).
    { intros r. destruct (in_dec Nat.eq_dec r (members (population gd))) as [i|i]; [|auto]. eapply filled_same; [|apply Fh; auto]. apply It; auto. }
    assert (Hh : forall r, heap s1 r = heap s r).
    { intros r. rewrite O by (intros []). destruct Rks as [A B]. destruct (in_dec Nat.eq_dec r (members (population gd))) as [i|i]; [|rewrite B; auto].
      rewrite A, H1 by auto. apply set_rank_same. rewrite Ir by auto. do 3 f_equal. apply rank_count_ext; auto. intros x _. unfold phen. rewrite H1. auto. }
    assert (Ef : forall x, phen (heap s1) x = phen (heap s) x) by (intros x; unfold phen; rewrite Hh; auto).
    assert (Wr1 : well_ranked F s1 (members (population gd))).
    { intros r Hr. rewrite Hh, Ir by auto. do 3 f_equal. apply rank_count_ext; auto. }
    assert (As1 : asc KRank s1 (members (population gd))).
    { eapply asc_heap; [|exact Iasc]. intros r Hr. cbn [key_of]. rewrite Hh. auto. }
    unfold update in H. rewrite Im in H.
    assert (Hm := H). unfold update_multi in Hm. rewrite Iu in Hm. bd Hm l3 s3 R3. pose proof (sort_keeps _ _ _ _ _ As1 R3) as E3. subst l3.
    assert (Em : members (population gd') = members (population gd)).
    { clear - Hm. bd Hm refs s4 R4. bd Hm set s5 R5. bd Hm r s6 R6. destruct r as [old g]. apply ret_ok in Hm. destruct Hm as [-> _]. reflexivity. }
    apply (update_multi_ok ok NL Ct F) in H; auto. destruct H as (-> & l & fr & Pm & Asc & FF & ->).
    cbn [multi_updated population set_members members] in Em. subst l.
    destruct Ar as (Af & Pg & (older & Eo & Lo) & set & g & Eb & Es & Hg).
    assert (FF' : front_first F (heap s) (members (population gd)) fr).
    { destruct FF as (rest & El & A & B). exists rest. split; auto. unfold beats in *. split.
      - intros r Hr y Hy C. apply (A r Hr y Hy). rewrite !Ef. auto.
      - intros r Hr. destruct (B r Hr) as (y & Hy & C). exists y. rewrite !Ef in C. auto. }
    pose proof (front_unique _ _ _ _ FF' Af) as E. subst fr.
    assert (Mp : map (heap s1) front = map (heap s) front) by (apply map_ext; auto).
    assert (Ep : set_members (members (population gd)) (population gd) = population gd) by (destruct (population gd); reflexivity).
    rewrite Mp, Eb. cbn [old_set old_gen]. unfold multi_updated. rewrite Ep.
    exists (rev rc). split.
    - constructor; cbn [population idx_generation hist_pareto best_solution no_improve num_generations early_stop]; auto.
      + rewrite rev_length. auto.
      + intros pt v Hin. apply in_rev in Hin. destruct (Rpt pt v Hin) as (Ev & r & Hr & Ph). rewrite H1 in Ph. eauto.
      + intros set' g' E' Al. rewrite Eb in E'. inversion E'; subst. apply inds_eqb_alike in Al. rewrite Al. split; [auto|reflexivity].
    - split.
      + constructor; cbn [is_multi population]; auto.
        * intros r Hr. destruct Q as (-> & _). auto.
        * intros r Hr. unfold unscored. rewrite Hh. apply It; auto.
      + exists front. unfold archive. cbn [population idx_generation hist_pareto best_solution]. split; [auto|]. split; [lia|]. split.
        * exists (hist_pareto gd). split; auto. rewrite Eo, app_length. cbn [length]. lia.
        * rewrite Mp. destruct (inds_eqb set (map (heap s) front)).
          -- exists set, g. split; auto. split; auto. intros Ns. destruct (Hg Ns) as (n & -> & Hn). exists n. split; auto. lia.
          -- exists (map (heap s) front), (Some (idx_generation gd)). split; auto. split; auto. intros _. eexists; split; [reflexivity|lia].
  Qed.

  Section Start.
    Context (c : comps) (gd0 : gadata) (s0 : st).
    Context (Multi : multi_objective ok c F m) (Start : multi_started gd0 s0).

    Definition msess_inv (n : nat) (c1 : comps) (gd1 : gadata) (s1 : st) : Prop :=
      same_comps c c1 /\ surveyed gd1 s1 /\ num_generations gd1 = num_generations gd0 /\ early_stop gd1 = early_stop gd0 /\
      Z.of_nat n <= idx_generation gd1 <= Z.of_nat n * Z.max 1 (num_generations gd0).
    Lemma msession_inv : forall n c1 gd1 s1, sessions fuel c gd0 s0 n c1 gd1 s1 -> msess_inv n c1 gd1 s1.
    Proof.
      intros n c1 gd1 s1 H. induction H as [c1 gd1 s1 H|n c1 gd1 s1 c2 gd2 s2 H IH R].
      - apply collector_run, run_steps in H. destruct H as (gd & s & k & H & Lk & T & _). pose proof (multi_started_init _ _ Start) as I0.
        pose proof (surveyed_first c gd0 s0 gd s Multi I0 H) as S1. destruct (surveyed_steps c gd s k c1 gd1 s1 Multi S1 T) as (S2 & Sc & G & Pn & Pe & _).
        destruct Multi as (Mk & Sy & Sz & Ho). destruct (multi_first_ok ok F m (c_fitness c) gd0 s0 gd s NL Ct Mk Sy Sz I0 H) as (h2 & rc & cs & front & Fi & _).
        destruct (mf_params _ _ _ _ _ _ _ _ _ _ Fi) as (Q1 & Q2 & _). rewrite (mf_gen _ _ _ _ _ _ _ _ _ _ Fi) in G. rewrite Q1 in Lk.
        split; auto. split; auto. split; [congruence|]. split; [congruence|]. lia.
      - apply collector_run, run_steps in R. destruct R as (gd & s & k & R & Lk & T & _). destruct IH as (Sc & (M & front & Ar) & Pn & Pe & Hg).
        destruct (again_multi c1 gd1 s1 gd s front (objective_same _ _ Sc Multi) M Ar R) as (rc & Rr & S1).
        destruct (surveyed_steps c1 gd s k c2 gd2 s2 (objective_same _ _ Sc Multi) S1 T) as (S2 & Sc2 & G & Qn & Qe & _).
        destruct (rr_params _ _ _ _ _ _ Rr) as (Q1 & Q2). rewrite (rr_gen _ _ _ _ _ _ Rr) in G. rewrite Q1, Pn in Lk.
        split; [eapply same_comps_trans; eauto|]. split; auto. split; [congruence|]. split; [congruence|]. nia.
    Qed.

    (** C96.  After n calls the reported set is the non-dominated part of the current
        population, and there is one entry of the history per generation. *)
    Theorem C96_calls : forall n c1 gd1 s1, sessions fuel c gd0 s0 n c1 gd1 s1 -> members (population gd1) <> [] ->
      exists front set g, is_front F (heap s1) (members (population gd1)) front /\ front <> [] /\
        best_solution gd1 = BPareto set (Some g) /\ 0 <= g < idx_generation gd1 /\
        (set = map (heap s1) front \/ Forall2 alike set (map (heap s1) front)) /\
        (exists older, hist_pareto gd1 = older ++ [front] /\ Z.of_nat (length older) + 1 = idx_generation gd1) /\
        Z.of_nat n <= idx_generation gd1 <= Z.of_nat n * Z.max 1 (num_generations gd0).
    Proof.
      intros n c1 gd1 s1 H Ne. apply msession_inv in H. destruct H as (_ & (_ & front & Af & Pg & Hh & set & g & Eb & Es & Hg) & _ & _ & Hi).
      destruct Multi as (_ & _ & Sz & _). assert (Nf : front <> []).
      { intros ->. destruct (members (population gd1)) as [|x l] eqn:E; [congruence|].
        destruct (front_covers ok NL F m Sz (heap s1) (x :: l) x (or_introl eq_refl)) as (r & Ir & Hr & _).
        destruct Af as (rest & El & _ & B). cbn [app] in El. rewrite El in Ir. destruct (B r Ir) as (y & Iy & D). destruct (Hr y Iy D). }
      assert (Ns : set <> []).
      { intros ->. destruct Es as [Es|Es]; [destruct front; [congruence|discriminate]|]. inversion Es as [E|]. destruct front; [congruence|discriminate]. }
      destruct (Hg Ns) as (k & -> & Hk). exists front, set, k. split; [exact Af|]. split; auto.
    Qed.

    (** A further call, exactly: the population is ranked again, which costs n (n - 1)
        calls of the objective on points evaluated before and changes no individual; the
        generation is recorded once more with the same front; then come up to
        num_generations - 1 generations. *)
    Theorem C96_further_call : forall n c1 gd1 s1 c2 gd2 s2, sessions fuel c gd0 s0 n c1 gd1 s1 -> collector_optimize fuel c1 gd1 s1 = Ok (c2, gd2) s2 ->
      exists front gdr sr rc k, is_front F (heap s1) (members (population gd1)) front /\
        (exists older, hist_pareto gd1 = older ++ [front]) /\ reranked gd1 s1 gdr sr front rc /\
        steps fuel c1 gdr sr k c2 gd2 s2 /\ (k <= Z.to_nat (num_generations gd0 - 1))%nat /\
        idx_generation gd2 = idx_generation gd1 + 1 + Z.of_nat k /\
        (forall r, (r < next s1)%nat -> same_core (heap s1 r) (heap s2 r)) /\
        (forall j c3 gd3 s3, (0 < j < k)%nat -> steps fuel c1 gdr sr j c3 gd3 s3 -> exists e, early_stop gd0 = Some e /\ no_improve gd3 <= e) /\
        ((k < Z.to_nat (num_generations gd0 - 1))%nat -> (0 < k)%nat /\ exists e, early_stop gd0 = Some e /\ e < no_improve gd2).
    Proof.
      intros n c1 gd1 s1 c2 gd2 s2 H R. apply msession_inv in H. destruct H as (Sc & (M & front & Ar) & Pn & Pe & Hg).
      apply collector_run, run_steps in R. destruct R as (gd & s & k & R & Lk & T & Mid & _ & End).
      pose proof (objective_same _ _ Sc Multi) as Mo. destruct (again_multi c1 gd1 s1 gd s front Mo M Ar R) as (rc & Rr & S1).
      destruct (surveyed_steps c1 gd s k c2 gd2 s2 Mo S1 T) as (S2 & Sc2 & G & Qn & Qe & Nx & Co). destruct (rr_params _ _ _ _ _ _ Rr) as (Q1 & Q2).
      rewrite (rr_gen _ _ _ _ _ _ Rr) in G. rewrite Q1, Pn in Lk, End. destruct Ar as (Af & _ & (older & Eo & _) & _).
      exists front, gd, s, rc, k. split; [exact Af|]. split; [eauto|]. split; auto. split; auto. split; auto. split; auto. split; [|split].
      - intros r Hr. rewrite <- (rr_heap _ _ _ _ _ _ Rr). apply Co. destruct (rr_quiet _ _ _ _ _ _ Rr) as (-> & _). auto.
      - intros j c3 gd3 s3 Hj Tj. destruct (Mid j c3 gd3 s3 Hj Tj) as (e & Ee & Le). destruct (surveyed_steps c1 gd s j c3 gd3 s3 Mo S1 Tj) as (_ & _ & _ & _ & Qe3 & _).
        exists e. split; [congruence|auto].
      - intros Lt. destruct End as [->|(Hp & e & Ee & Le)]; [lia|]. split; auto. exists e. split; [congruence|auto].
    Qed.

    (** Where every number equals itself, the repeated generation counts as one without
        improvement; so a collector that stopped early makes one new generation per call,
        unless this generation changes the front. *)
    Lemma alike_refl : (forall x : num, neqb x x = true) -> forall i, alike i i.
    Proof.
      intros Re. assert (Gv : forall v, gv_same v v) by (intros []; cbn; auto).
      assert (Gl : forall l, Forall2 gv_same l l) by (induction l; auto).
      assert (Sv : forall v, sv_same v v) by (intros [|x|l]; cbn; auto; induction l; auto).
      intros i. constructor; auto.
      - destruct (phenotype i) as [[ph|]|]; cbn; auto.
      - destruct (rank i); cbn; auto.
    Qed.
    Theorem C96_repeated : (forall x : num, neqb x x = true) -> forall n c1 gd1 s1 c2 gd2 s2, sessions fuel c gd0 s0 n c1 gd1 s1 ->
      collector_optimize fuel c1 gd1 s1 = Ok (c2, gd2) s2 ->
      exists front gdr sr rc k, reranked gd1 s1 gdr sr front rc /\ steps fuel c1 gdr sr k c2 gd2 s2 /\
        best_solution gdr = best_solution gd1 /\ no_improve gdr = no_improve gd1 + 1.
    Proof.
      intros Re n c1 gd1 s1 c2 gd2 s2 H R. destruct (C96_further_call _ _ _ _ _ _ _ H R) as (front & gdr & sr & rc & k & Af & (older & Eo) & Rr & T & _).
      exists front, gdr, sr, rc, k. split; auto. split; auto. apply msession_inv in H. destruct H as (_ & (_ & fr & Af' & _ & _ & set & g & Eb & Es & _) & _).
      pose proof (front_unique _ _ _ _ Af Af') as E. subst fr. apply (rr_alike _ _ _ _ _ _ Rr set g Eb). destruct Es as [->|Es]; auto.
      clear - Re. induction front; cbn [map]; constructor; auto. apply alike_refl; auto.
    Qed.
    Theorem C96_stopped : (forall x : num, neqb x x = true) -> forall n c1 gd1 s1 c2 gd2 s2 e, sessions fuel c gd0 s0 n c1 gd1 s1 ->
      early_stop gd0 = Some e -> e <= no_improve gd1 + 1 -> collector_optimize fuel c1 gd1 s1 = Ok (c2, gd2) s2 ->
      idx_generation gd2 <= idx_generation gd1 + 2 \/
      exists gdr sr c3 gd3 s3 set g front, ga_step fuel c1 gdr sr = Ok (c3, gd3) s3 /\ population gdr = population gd1 /\ (forall r, heap sr r = heap s1 r) /\
        best_solution gd1 = BPareto set g /\ is_front F (heap s3) (members (population gd3)) front /\ ~ Forall2 alike set (map (heap s3) front).
    Proof.
      intros Re n c1 gd1 s1 c2 gd2 s2 e H Es Le R.
      pose proof (msession_inv _ _ _ _ H) as (Sc & (M & fr & Ar) & Pn & Pe & Hg). pose proof (objective_same _ _ Sc Multi) as Mo.
      pose proof Ar as (Af & _ & _ & set & g & Eb & Ea & _).
      apply collector_run, run_steps in R. destruct R as (gdr & sr & k & R & Lk & T & Mid & _).
      destruct (again_multi c1 gd1 s1 gdr sr fr Mo M Ar R) as (rc & Rr & S1).
      destruct (rr_alike _ _ _ _ _ _ Rr set g Eb) as [Br Nr].
      { destruct Ea as [->|Ea]; auto. clear - Re. induction fr; cbn [map]; constructor; auto. apply alike_refl; auto. }
      destruct (surveyed_steps c1 gdr sr k c2 gd2 s2 Mo S1 T) as (_ & _ & G & _). rewrite (rr_gen _ _ _ _ _ _ Rr) in G.
      destruct (Nat.le_gt_cases k 1) as [K|K]; [left; lia|right].
      destruct (steps_prefix _ _ _ _ _ _ _ _ T 1%nat) as (c3 & gd3 & s3 & T1 & _); [lia|]. destruct (Mid 1%nat c3 gd3 s3) as (e' & Ee & Ln); [lia|auto|].
      inversion T1 as [|k0 c4 gd4 s4 c5 gd5 s5 T0 R3]; subst. inversion T0; subst.
      destruct (surveyed_step c4 gd4 s4 c3 gd3 s3 Mo S1 R3) as (_ & _ & kids & els & h1 & h2 & rc3 & cs & front & St).
      exists gd4, s4, c3, gd3, s3, set, g, front. split; auto. split; [apply (rr_pop _ _ _ _ _ _ Rr)|]. split; [apply (rr_heap _ _ _ _ _ _ Rr)|]. split; auto.
      split; [exact (ms_front _ _ _ _ _ _ _ _ _ _ _ _ _ _ St)|]. intros C. apply inds_eqb_alike in C.
      pose proof (ms_no_improve _ _ _ _ _ _ _ _ _ _ _ _ _ _ St) as En. rewrite Br, Eb in En. cbn [old_set] in En. rewrite C in En.
      destruct (ms_params _ _ _ _ _ _ _ _ _ _ _ _ _ _ St) as (_ & Q2 & _). destruct (rr_params _ _ _ _ _ _ Rr) as (_ & Q3).
      assert (e' = e) by congruence. lia.
    Qed.

    (** FFGA's elitism over calls: every member of the population after n calls is matched
        or beaten by a member of the front after any number of further calls. *)
    Lemma surveyed_cover : forall gd s, surveyed gd s -> forall x, In x (members (population gd)) ->
      exists front r, is_front F (heap s) (members (population gd)) front /\ In r front /\ no_greater (F (phen (heap s) r)) (F (phen (heap s) x)).
    Proof.
      intros gd s (_ & front & Af & _) x Ix. destruct Multi as (_ & _ & Sz & _).
      destruct (front_covers ok NL F m Sz (heap s) _ x Ix) as (r & Ir & Hr & Ng). exists front, r. split; [exact Af|]. split; auto.
      destruct Af as (rest & El & _ & B). rewrite El in Ir. apply in_app_or in Ir. destruct Ir as [Ir|Ir]; auto. destruct (B r Ir) as (y & Iy & D). destruct (Hr y Iy D).
    Qed.
    Definition covered (h : nat -> individ) (l : list nat) (pt : list num) : Prop := exists r, In r l /\ no_greater (F (phen h r)) pt.
    Lemma covered_front : forall gd s pt, surveyed gd s -> length pt = m -> Forall ok pt -> covered (heap s) (members (population gd)) pt ->
      exists front r, is_front F (heap s) (members (population gd)) front /\ In r front /\ no_greater (F (phen (heap s) r)) pt.
    Proof.
      intros gd s pt Sv Lp Op (x & Ix & Nx). destruct (surveyed_cover gd s Sv x Ix) as (front & r & Af & Ir & N). exists front, r. split; auto. split; auto.
      destruct Multi as (_ & _ & Sz & _). destruct (Sz (phen (heap s) r)), (Sz (phen (heap s) x)). eapply (ng_trans ok NL) with (b := F (phen (heap s) x)); auto; congruence.
    Qed.
    Lemma covered_steps : forall c1 gd s k c2 gd2 s2 pt, same_comps c c1 -> ng_multi (c_newgen c) = true -> ng_transfer (c_newgen c) = TBest -> plain_selection (c_selection c) ->
      length pt = m -> Forall ok pt -> surveyed gd s -> covered (heap s) (members (population gd)) pt -> steps fuel c1 gd s k c2 gd2 s2 ->
      covered (heap s2) (members (population gd2)) pt.
    Proof.
      intros c1 gd s k c2 gd2 s2 pt Sc Nm Nt Pl Lp Op Sv Cv T. induction T as [|k c2 gd2 s2 c3 gd3 s3 T IH R]; auto.
      destruct (surveyed_steps c1 gd s k c2 gd2 s2 (objective_same _ _ Sc Multi) Sv T) as (S2 & Sc2 & _).
      assert (Sc' : same_comps c c2) by (eapply same_comps_trans; eauto). destruct (covered_front gd2 s2 pt S2 Lp Op IH) as (front & r & Af & Ir & N).
      destruct (surveyed_step c2 gd2 s2 c3 gd3 s3 (objective_same _ _ Sc' Multi) S2 R) as (_ & _ & kids & els & h1 & h2 & rc & cs & fr & St).
      destruct Sc' as (E1 & E2 & E3 & E4). pose proof (ms_taken _ _ _ _ _ _ _ _ _ _ _ _ _ _ St) as Tk. rewrite E4, E2 in Tk. specialize (Tk Nm Pl).
      unfold multi_taken in Tk. rewrite Nt in Tk. pose proof (front_unique _ _ _ _ Af Tk) as E. subst els.
      exists r. split.
      - eapply Permutation_in; [apply Permutation_sym; apply (ms_perm _ _ _ _ _ _ _ _ _ _ _ _ _ _ St)|]. apply in_or_app; auto.
      - destruct S2 as (M2 & _). pose proof (mi_alloc _ _ _ M2) as Ia. assert (Lr : (r < next s2)%nat) by (apply Ia; destruct Af as (rest & -> & _); apply in_or_app; auto).
        destruct (ms_core _ _ _ _ _ _ _ _ _ _ _ _ _ _ St r Lr) as [Cr _]. rewrite <- (phen_core _ _ _ Cr). exact N.
    Qed.
    Theorem C96_elitism : ng_multi (c_newgen c) = true -> ng_transfer (c_newgen c) = TBest -> plain_selection (c_selection c) ->
      forall n c1 gd1 s1, sessions fuel c gd0 s0 n c1 gd1 s1 -> forall k c2 gd2 s2, sessions fuel c1 gd1 s1 k c2 gd2 s2 ->
      forall x, In x (members (population gd1)) ->
      exists front r, is_front F (heap s2) (members (population gd2)) front /\ In r front /\ no_greater (F (phen (heap s2) r)) (F (phen (heap s1) x)).
    Proof.
      intros Nm Nt Pl n c1 gd1 s1 H k c2 gd2 s2 T x Ix. pose proof Multi as (_ & _ & Sz & _).
      pose proof (msession_inv _ _ _ _ H) as (Sc1 & S1 & _).
      assert (One : forall ca gda sa cb gdb sb, same_comps c ca -> surveyed gda sa -> covered (heap sa) (members (population gda)) (F (phen (heap s1) x)) ->
        collector_optimize fuel ca gda sa = Ok (cb, gdb) sb -> same_comps c cb /\ surveyed gdb sb /\ covered (heap sb) (members (population gdb)) (F (phen (heap s1) x))).
      { intros ca gda sa cb gdb sb Sc (M & fr & Ar) Cv R. apply collector_run, run_steps in R. destruct R as (gdr & sr & j & R & _ & St & _).
        pose proof (objective_same _ _ Sc Multi) as Mo. destruct (again_multi ca gda sa gdr sr fr Mo M Ar R) as (rc & Rr & Sr).
        destruct (surveyed_steps ca gdr sr j cb gdb sb Mo Sr St) as (Sb & Scb & _). split; [eapply same_comps_trans; eauto|]. split; auto.
        eapply (covered_steps ca gdr sr j cb gdb sb); eauto; try apply Sz.
        destruct Cv as (r & Ir & N). exists r. rewrite (rr_pop _ _ _ _ _ _ Rr). split; auto. unfold phen at 1. rewrite (rr_heap _ _ _ _ _ _ Rr). exact N. }
      assert (G : same_comps c c2 /\ surveyed gd2 s2 /\ covered (heap s2) (members (population gd2)) (F (phen (heap s1) x))).
      { assert (C1 : covered (heap s1) (members (population gd1)) (F (phen (heap s1) x))) by (exists x; split; auto; apply (ng_refl ok NL); apply Sz).
        induction T as [c2 gd2 s2 R|k c2 gd2 s2 c3 gd3 s3 T IH R].
        - eapply One; eauto.
        - destruct IH as (A & B & C). eapply One; eauto. }
      destruct G as (_ & S2 & Cv). apply covered_front; auto; apply Sz.
    Qed.
  End Start.
End MultiResume.

Local Existing Instance Qops.
Lemma Qself : forall x : @num Qops, neqb x x = true.
Proof. intros x. apply Qeq_bool_iff. reflexivity. Qed.

(** An FFGA collector asked to optimize twice: 4 initial individuals, at most 3
    generations per call, early_stop 0. *)
Definition front_collector : M gadata := collector_set_population true 4 3 (GenBinary true two_genes bparams0) [] (6#10) (Some 0).
Definition twice : M (list gadata) :=
  gd <- front_collector ;; r1 <- collector_optimize 50 (trade_comps TBest) gd ;; r2 <- collector_optimize 50 (fst r1) (snd r1) ;; ret [snd r1; snd r2].
Definition fronts_view (l : list gadata) (s : st) :=
  (map (fun gd => (idx_generation gd, no_improve gd, map (@length nat) (hist_pareto gd), length (members (population gd)))) l, length (log s)).
(** The second call records the front of three once more (with 5 * 4 calls of the
    objective for the ranking) and then makes two generations. *)
Example C96_case : observe fronts_view (twice wide_world) =
  Some ([(3, 0, [3; 3; 3]%nat, 5%nat); (6, 0, [3; 3; 3; 3; 2; 2]%nat, 4%nat)], 116%nat).
Proof. run. Qed.
Lemma collector_started : forall {NO : NumOps} n ng gray gens bp inp cp es s gd s',
  collector_set_population true n ng (GenBinary gray gens bp) inp cp es s = Ok gd s' -> multi_started gd s'.
Proof.
  intros NO n ng gray gens bp inp cp es s gd s' H. unfold collector_set_population in H. bd H u s1 D. bd H p s2 P. bd H p' s3 L. apply ret_ok in H. destruct H as [-> ->].
  unfold lift in P. destruct (set_params n (GenBinary gray gens bp) inp) as [e|p0] eqn:E; [discriminate|]. apply ret_ok in P. destruct P as [-> ->].
  exists n, gray, gens, bp, inp, p0, s1, p', ng, cp, es. auto.
Qed.
Lemma twice_calls : forall s l s', twice s = Ok l s' -> exists gd0 s0 c1 gd1 s1 c2 gd2, multi_started gd0 s0 /\ l = [gd1; gd2] /\
  sessions 50 (trade_comps TBest) gd0 s0 1 c1 gd1 s1 /\ sessions 50 (trade_comps TBest) gd0 s0 2 c2 gd2 s' /\ sessions 50 c1 gd1 s1 1 c2 gd2 s'.
Proof.
  intros s l s' H. unfold twice in H. bd H gd0 s0 P. bd H r1 s1 R1. destruct r1 as [c1 gd1]. bd H r2 s2 R2. destruct r2 as [c2 gd2]. apply ret_ok in H. destruct H as [-> ->].
  apply collector_started in P. exists gd0, s0, c1, gd1, s1, c2, gd2. split; auto. split; auto. cbn [fst snd] in R2.
  split; [constructor; auto|]. split; [econstructor; [constructor; eauto|auto]|constructor; auto].
Qed.
(** So the theorems apply to these two calls. *)
Example C96_hypotheses : exists gd0 s0 c1 gd1 s1 c2 gd2 s2, multi_objective (fun _ => True) (trade_comps TBest) trade_off 2 /\ multi_started gd0 s0 /\
  ng_multi (c_newgen (trade_comps TBest)) = true /\ plain_selection (c_selection (trade_comps TBest)) /\
  sessions 50 (trade_comps TBest) gd0 s0 1 c1 gd1 s1 /\ sessions 50 (trade_comps TBest) gd0 s0 2 c2 gd2 s2 /\ sessions 50 c1 gd1 s1 1 c2 gd2 s2 /\
  length (members (population gd1)) = 5%nat /\ length (members (population gd2)) = 4%nat.
Proof.
  destruct (observe_some _ _ _ C96_case) as (l & s2 & E & V). destruct (twice_calls _ _ _ E) as (gd0 & s0 & c1 & gd1 & s1 & c2 & gd2 & St & -> & A & B & C).
  exists gd0, s0, c1, gd1, s1, c2, gd2, s2. split; [apply C54_objective|]. split; auto. split; auto. split; [exact Logic.I|]. split; auto. split; auto. split; auto.
  unfold fronts_view in V. cbn [map] in V. inversion V. auto.
Qed.

Print Assumptions C96_calls.
Print Assumptions C96_further_call.
Print Assumptions C96_repeated.
Print Assumptions C96_stopped.
Print Assumptions C96_elitism.
