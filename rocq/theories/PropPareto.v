(** The Pareto set kept by MultiGaData (C54) and FFGA's elitism (C55). *)
From Coq Require Import String.
From Coq Require Import ZArith QArith List Bool Lia Lqa Permutation Sorted.
From Verif Require Import Spec Num State Binary Population GaData Crossover Mutation Selection Penalty Fitness NewGeneration Driver
  ListLemmas Rnd Exec Laws PopulationProofs CrossoverProofs MutationProofs SelectionProofs VegaProofs
  NewGenProofs UpdateProofs FitnessProofs StepProofs RunProofs HistoryProofs Runs RankingProofs PropMulti MultiProofs MultiRuns Demo.
Import ListNotations.
Open Scope list_scope.
Open Scope Z_scope.

Section Pareto.
  Context {NO : NumOps}.

  (** *** Equality of individuals as Python's == on the dicts decides it *)
  Definition gv_same (a b : gv) : Prop :=
    match a, b with
    | GNum x, GNum y => neqb x y = true
    | GNum x, GInt z | GInt z, GNum x => ntrunc x = Some z /\ neqb x (nofZ z) = true
    | GNum _, _ | _, GNum _ => False
    | _, _ => a = b
    end.
  Definition sv_same (v w : sval) : Prop :=
    match v, w with
    | SVNone, SVNone => True
    | SV1 x, SV1 y => neqb x y = true
    | SVL a, SVL b => Forall2 (fun x y => neqb x y = true) a b
    | _, _ => False
    end.
  Definition opt_same {A} (R : A -> A -> Prop) (x y : option A) : Prop :=
    match x, y with None, None => True | Some a, Some b => R a b | _, _ => False end.
  Record alike (x y : individ) : Prop := {
    al_genotype : Forall2 gv_same (genotype x) (genotype y);
    al_phenotype : opt_same (opt_same (Forall2 gv_same)) (phenotype x) (phenotype y);
    al_score : sv_same (score x) (score y);
    al_obj_score : sv_same (obj_score x) (obj_score y);
    al_feasible : feasible x = feasible y;
    al_idx : idx_individ x = idx_individ y;
    al_rank : opt_same sv_same (rank x) (rank y)
  }.
  Lemma gv_eqb_same : forall a b, gv_eqb a b = true <-> gv_same a b.
  Proof.
    intros [x|x|x|x] [y|y|y|y]; cbn; try (split; [discriminate|intros H; discriminate H || contradiction]); try reflexivity.
    - rewrite Bool.eqb_true_iff. split; [intros ->; auto|intros H; inversion H; auto].
    - split; [apply int_eqb_inv|intros []; apply int_eqb_intro; auto].
    - split; [apply int_eqb_inv|intros []; apply int_eqb_intro; auto].
    - rewrite Z.eqb_eq. split; [intros ->; auto|intros H; inversion H; auto].
    - rewrite String.eqb_eq. split; [intros ->; auto|intros H; inversion H; auto].
  Qed.
  Lemma gvs_eqb_same : forall a b, gvs_eqb a b = true <-> Forall2 gv_same a b.
  Proof.
    induction a as [|x a IH]; intros [|y b]; cbn [gvs_eqb]; try (split; [discriminate|intros H; inversion H]); [split; auto|].
    rewrite andb_true_iff, gv_eqb_same, IH. split; [intros []; constructor; auto|intros H; inversion H; auto].
  Qed.
  Lemma lst_eqb_same : forall a b, lst_eqb a b = true <-> Forall2 (fun x y => neqb x y = true) a b.
  Proof.
    induction a as [|x a IH]; intros [|y b]; cbn [lst_eqb]; try (split; [discriminate|intros H; inversion H]); [split; auto|].
    rewrite andb_true_iff, IH. split; [intros []; constructor; auto|intros H; inversion H; auto].
  Qed.
  Lemma sv_eqb_same : forall v w, sv_eqb v w = true <-> sv_same v w.
  Proof. intros [|x|a] [|y|b]; cbn; try (split; [discriminate|contradiction]); try reflexivity; [split; auto|apply lst_eqb_same]. Qed.
  Lemma opt_eqb_same : forall {A} (f : A -> A -> bool) (R : A -> A -> Prop), (forall a b, f a b = true <-> R a b) ->
    forall x y, opt_eqb f x y = true <-> opt_same R x y.
  Proof. intros A f R H [a|] [b|]; cbn; auto; split; (discriminate || contradiction || auto). Qed.
  Lemma inds_eqb_alike : forall a b, inds_eqb a b = true <-> Forall2 alike a b.
  Proof.
    assert (I : forall x y, ind_eqb x y = true <-> alike x y).
    { intros x y. unfold ind_eqb. rewrite !andb_true_iff, gvs_eqb_same, !sv_eqb_same, Bool.eqb_true_iff.
      rewrite (opt_eqb_same _ _ (opt_eqb_same _ _ gvs_eqb_same)), (opt_eqb_same _ _ Z.eqb_eq), (opt_eqb_same _ _ sv_eqb_same).
      split.
      - intros ((((((A & B) & C) & D) & E) & G) & H). constructor; auto. destruct (idx_individ x), (idx_individ y); cbn in G; try contradiction; congruence.
      - intros [A B C D E G H]. rewrite G. repeat split; auto. destruct (idx_individ y); cbn; auto. }
    induction a as [|x a IH]; intros [|y b]; cbn [inds_eqb]; try (split; [discriminate|intros H; inversion H]); [split; auto|].
    rewrite andb_true_iff, I, IH. split; [intros []; constructor; auto|intros H; inversion H; auto].
  Qed.

  (** *** C54: the update by itself, whatever the ranks mean *)
  (** The set recorded before: empty at the first update. *)
  Definition recorded (b : best_sol) (set : list individ) : Prop :=
    match b with BNone => set = [] | BPareto l _ => set = l | BSingle _ _ => False end.
  Theorem C54_update : forall ok, NumOrder NO ok -> ok none_ -> forall gd s gd' s' (rk : nat -> num) old,
    is_multi gd = true -> is_sorted (population gd) = false -> recorded (best_solution gd) old ->
    (forall r, In r (members (population gd)) -> rank (heap s r) = Some (SV1 (rk r)) /\ ok (rk r) /\ nltb (rk r) none_ = false) ->
    update gd s = Ok gd' s' ->
    s' = s /\ exists front rest, members (population gd') = front ++ rest /\ Permutation (front ++ rest) (members (population gd)) /\
      StronglySorted (fun a b => nltb (rk b) (rk a) = false) (front ++ rest) /\
      (forall r, In r front -> neqb (rk r) none_ = true) /\ (forall r, In r rest -> nltb none_ (rk r) = true) /\
      idx_generation gd' = idx_generation gd + 1 /\ hist_pareto gd' = hist_pareto gd ++ [front] /\
      (Forall2 alike old (map (heap s) front) -> no_improve gd' = no_improve gd + 1 /\ recorded (best_solution gd') old /\
         (best_solution gd <> BNone -> best_solution gd' = best_solution gd)) /\
      (~ Forall2 alike old (map (heap s) front) -> no_improve gd' = 0 /\ best_solution gd' = BPareto (map (heap s) front) (Some (idx_generation gd))).
  Proof.
    intros ok NL O1 gd s gd' s' rk old Im So Ro Hr H. unfold update in H. rewrite Im in H. unfold update_multi in H. rewrite So in H.
    bd H l s1 R1. apply sort_ok in R1. destruct R1 as (-> & Pm & Sa). destruct (Sa ok NL) as [Asc _].
    { intros r Ir. exists (rk r). destruct (Hr r Ir) as (A & B & _). auto. }
    assert (Hr' : forall r, In r l -> rank (heap s r) = Some (SV1 (rk r)) /\ ok (rk r) /\ nltb (rk r) none_ = false).
    { intros r Ir. apply Hr. eapply Permutation_in; eauto. }
    assert (Ss : StronglySorted (fun a b => nltb (rk b) (rk a) = false) l).
    { unfold asc in Asc. clear - Asc Hr'. induction Asc as [|x l Sl IH Fx]; constructor.
      - apply IH. intros r Ir. apply Hr'. right; auto.
      - apply Forall_forall. intros b Ib. rewrite Forall_forall in Fx. specialize (Fx b Ib). unfold key_lt in Fx. cbn [key_of] in Fx.
        rewrite (proj1 (Hr' b (or_intror Ib))) in Fx. rewrite (proj1 (Hr' x (or_introl eq_refl))) in Fx. exact Fx. }
    bd H front s1 R1.
    assert (P : forall l, (forall r, In r l -> rank (heap s r) = Some (SV1 (rk r)) /\ ok (rk r) /\ nltb (rk r) none_ = false) ->
      StronglySorted (fun a b => nltb (rk b) (rk a) = false) l -> forall front s1, rank1_prefix l s = Ok front s1 ->
      s1 = s /\ exists rest, l = front ++ rest /\ (forall r, In r front -> neqb (rk r) none_ = true) /\ (forall r, In r rest -> nltb none_ (rk r) = true)).
    { clear - NL O1. induction l as [|x l IH]; intros Hr S front s1 H; cbn [rank1_prefix] in H.
      - apply ret_ok in H. destruct H as [-> ->]. split; auto. exists []. repeat split; auto; intros r [].
      - unfold rank_is_1 in H. bd H b s2 R. bd R i s3 R1. apply get_ok in R1. destruct R1 as [-> ->].
        bd R v s3 R1. apply lift_opt_ok in R1. destruct R1 as [E ->]. apply ret_ok in R. destruct R as [-> ->].
        destruct (Hr x (or_introl eq_refl)) as (Ex & Ox & Gx). rewrite Ex in E. inversion E; subst v. cbn [sv_eqb] in H.
        inversion S as [|x0 l0 Sl Fx]; subst. destruct (neqb (rk x) none_) eqn:Eq.
        + bd H t s2 R1. apply ret_ok in H. destruct H as [-> ->]. apply IH in R1; [|intros r Ir; apply Hr; right; auto|auto].
          destruct R1 as (-> & rest & -> & A & B). split; auto. exists rest. split; auto. split; auto. intros r [<-|Ir]; auto.
        + apply ret_ok in H. destruct H as [-> ->]. split; auto. exists (x :: l). split; auto. split; [intros r []|].
          assert (Lx : nltb none_ (rk x) = true).
          { destruct (nltb none_ (rk x)) eqn:L; auto. assert (neqb (rk x) none_ = true) by (apply (no_eq _ _ NL); auto). congruence. }
          intros r [<-|Ir]; auto. rewrite Forall_forall in Fx. specialize (Fx r Ir). destruct (Hr r (or_intror Ir)) as (_ & Or & _).
          destruct (nltb none_ (rk r)) eqn:L; auto. pose proof (no_negtrans _ _ NL _ _ _ O1 Or Ox L Fx) as C. congruence. }
    destruct (P l Hr' Ss front s1 R1) as (-> & rest & El & A & B). clear P R1.
    bd H set s1 R2. rewrite mmap_get in R2. inversion R2; subst set s1. clear R2.
    bd H p s1 R2.
    assert (E2 : s1 = s /\ fst p = old /\ (best_solution gd <> BNone -> best_solution gd = BPareto (fst p) (snd p))).
    { destruct (best_solution gd) as [|i g|l0 g]; cbn [recorded] in Ro; try contradiction; apply ret_ok in R2; destruct R2 as [-> ->]; cbn; auto.
      split; auto. split; auto. congruence. }
    destruct E2 as (-> & E2 & E3). destruct p as [old' g]. cbn [fst snd] in *. subst old'. apply ret_ok in H. destruct H as [-> ->].
    split; auto. exists front, rest. cbn [population members set_members idx_generation hist_pareto no_improve best_solution]. rewrite <- El.
    split; auto. split; auto. split; auto. split; auto. split; auto. split; auto. split; auto.
    rewrite <- inds_eqb_alike. destruct (inds_eqb old (map (heap s) front)) eqn:Eq; split; intros X; try congruence; cbn [recorded]; auto.
    split; auto. split; auto. intros N. rewrite (E3 N). auto.
  Qed.

  (** *** C54: along a run *)
  (** [front] are the members nobody dominates, and they come first. *)
  Definition is_front (F : list gv -> list num) (h : nat -> individ) (l front : list nat) : Prop :=
    exists rest, l = front ++ rest /\
      (forall r, In r front -> forall y, In y l -> ~ dominates (F (phen h y)) (F (phen h r))) /\
      (forall r, In r rest -> exists y, In y l /\ dominates (F (phen h y)) (F (phen h r))).

  Theorem C54_pareto_set : forall ok, NumOrder NO ok -> counting ok -> forall F m fuel c gd0 s0 k c' gd' s',
    multi_objective ok c F m -> multi_started gd0 s0 -> at_generation fuel c gd0 s0 k c' gd' s' -> members (population gd') <> [] ->
    exists front set g, is_front F (heap s') (members (population gd')) front /\ front <> [] /\
      best_solution gd' = BPareto set (Some g) /\ 0 <= g < idx_generation gd' /\ idx_generation gd' = Z.of_nat k + 1 /\
      (set = map (heap s') front \/ Forall2 alike set (map (heap s') front)) /\
      exists older, hist_pareto gd' = older ++ [front] /\ length older = k.
  Proof.
    intros ok NL Ct F m fuel c gd0 s0 k c' gd' s' Mo St0 (gd & s & Hf & S) Ne.
    pose proof (multi_started_init _ _ St0) as I0.
    assert (Fr : forall l front h, l <> [] -> (forall r, In r l -> True) -> front_first F h l front -> front <> []).
    { intros l front h Nl _ (rest & El & A & B) ->. cbn [app] in El. subst rest.
      destruct (minimal ok NL F l m (phen h)) with (xs := l) as (r & Ir & Hr); [intros; apply (proj1 (proj2 (proj2 Mo)))|apply incl_refl|auto|].
      destruct (B r Ir) as (y & Iy & D). assert (dom F (phen h) y r = true) by (apply dom_true; auto). rewrite Hr in H by auto. discriminate. }
    set (Inv := fun (_ : comps) (gd' : gadata) (s' : st) => members (population gd') <> [] ->
      exists front set g, is_front F (heap s') (members (population gd')) front /\ front <> [] /\
      best_solution gd' = BPareto set (Some g) /\ 0 <= g < idx_generation gd' /\
      (set = map (heap s') front \/ Forall2 alike set (map (heap s') front)) /\
      exists older, hist_pareto gd' = older ++ [front] /\ Z.of_nat (length older) + 1 = idx_generation gd').
    assert (G : idx_generation gd' = Z.of_nat k + 1 /\ 0 < idx_generation gd').
    { revert Ne. revert S. clear Inv. intros S _. destruct (multi_first_ok ok F m (c_fitness c) gd0 s0 gd s NL Ct (proj1 Mo) (proj1 (proj2 Mo)) (proj1 (proj2 (proj2 Mo))) I0 Hf) as (h2 & rc & cs & front & Fi & _).
      assert (at_generation fuel c gd0 s0 k c' gd' s') by (exists gd, s; auto).
      clear - NL Ct Mo I0 S Fi Hf. induction S as [|k c1 gd1 s1 c2 gd2 s2 S IH R].
      - rewrite (mf_gen _ _ _ _ _ _ _ _ _ _ Fi). lia.
      - destruct (multi_generation ok NL Ct F m fuel c gd0 s0 k c1 gd1 s1 c2 gd2 s2 Mo I0) as (_ & _ & kids & els & h1 & h3 & rc' & cs' & front' & St & _); [exists gd, s; auto|auto|].
        rewrite (ms_gen _ _ _ _ _ _ _ _ _ _ _ _ _ _ St). lia. }
    destruct G as [G G0].
    destruct (multi_run_inv ok NL Ct F m fuel (fun c1 gd1 s1 => Inv c1 gd1 s1 /\ 0 < idx_generation gd1 /\ (exists set g, best_solution gd1 = BPareto set g /\ (set <> [] -> exists g', g = Some g' /\ 0 <= g' < idx_generation gd1)) /\ Z.of_nat (length (hist_pareto gd1)) = idx_generation gd1) c gd0 s0 gd s Mo I0 Hf) with (k := k) (c' := c') (gd' := gd') (s' := s') as (_ & _ & (X & _)); auto.
    - intros h2 rc cs front Fi M. pose proof (mf_best _ _ _ _ _ _ _ _ _ _ Fi) as Eb. pose proof (mf_gen _ _ _ _ _ _ _ _ _ _ Fi) as Eg.
      pose proof (mf_hist _ _ _ _ _ _ _ _ _ _ Fi) as Eh. pose proof (mf_front _ _ _ _ _ _ _ _ _ _ Fi) as Ef. split; [|split; [lia|split]].
      + intros Ne0. exists front, (map (heap s) front), 0. split; [exact Ef|]. pose proof (Fr _ _ _ Ne0 (fun _ _ => Logic.I) Ef) as Nf. split; auto.
        rewrite Eb. destruct front as [|r front]; [congruence|]. cbn [map inds_eqb]. split; auto. split; [lia|]. split; auto. exists []. rewrite Eh. split; [reflexivity|cbn; lia].
      + rewrite Eb. destruct (inds_eqb [] (map (heap s) front)); [exists [], None; split; auto; congruence|].
        exists (map (heap s) front), (Some 0). split; auto. intros _. exists 0. split; auto. lia.
      + rewrite Eh, Eg. reflexivity.
    - intros c1 gd1 s1 c2 gd2 s2 kids els h1 h2 rc cs front Sc M1 (I1 & P1 & (set & g & B1 & B2) & L1) St M2.
      pose proof (ms_best _ _ _ _ _ _ _ _ _ _ _ _ _ _ St) as Eb. pose proof (ms_gen _ _ _ _ _ _ _ _ _ _ _ _ _ _ St) as Eg.
      pose proof (ms_hist _ _ _ _ _ _ _ _ _ _ _ _ _ _ St) as Eh. pose proof (ms_front _ _ _ _ _ _ _ _ _ _ _ _ _ _ St) as Ef.
      rewrite B1 in Eb. cbn [old_set old_gen] in Eb. split; [|split; [lia|split]].
      + intros Ne0. pose proof (Fr _ _ _ Ne0 (fun _ _ => Logic.I) Ef) as Nf.
        destruct (inds_eqb set (map (heap s2) front)) eqn:Eq.
        * apply inds_eqb_alike in Eq. assert (Ns : set <> []) by (intros ->; inversion Eq as [E|]; destruct front; [congruence|discriminate]).
          destruct (B2 Ns) as (g' & -> & Hg). exists front, set, g'. split; [exact Ef|]. split; auto. split; auto. split; [lia|]. split; auto.
          exists (hist_pareto gd1). split; auto. lia.
        * exists front, (map (heap s2) front), (idx_generation gd1). split; [exact Ef|]. split; auto. split; auto. split; [lia|]. split; auto.
          exists (hist_pareto gd1). split; auto. lia.
      + destruct (inds_eqb set (map (heap s2) front)).
        * exists set, g. split; auto. intros Ns. destruct (B2 Ns) as (g' & -> & Hg). exists g'. split; auto. lia.
        * exists (map (heap s2) front), (Some (idx_generation gd1)). split; auto. intros _. exists (idx_generation gd1). split; auto. lia.
      + rewrite Eh, app_length, Nat2Z.inj_add, L1, Eg. reflexivity.
    - destruct (X Ne) as (front & set & g & A1 & A2 & A3 & A4 & A5 & older & A6 & A7). exists front, set, g.
      split; auto. split; auto. split; auto. split; auto. split; auto. split; auto. exists older. split; auto. lia.
  Qed.

  (** From one generation to the next: the counter and the recorded set. *)
  Theorem C54_counter : forall ok, NumOrder NO ok -> counting ok -> forall F m fuel c gd0 s0 k c1 gd1 s1 c2 gd2 s2,
    multi_objective ok c F m -> multi_started gd0 s0 -> at_generation fuel c gd0 s0 k c1 gd1 s1 -> ga_step fuel c1 gd1 s1 = Ok (c2, gd2) s2 ->
    exists set g front, best_solution gd1 = BPareto set g /\ is_front F (heap s2) (members (population gd2)) front /\
      (Forall2 alike set (map (heap s2) front) -> no_improve gd2 = no_improve gd1 + 1 /\ best_solution gd2 = best_solution gd1) /\
      (~ Forall2 alike set (map (heap s2) front) -> no_improve gd2 = 0 /\
         best_solution gd2 = BPareto (map (heap s2) front) (Some (idx_generation gd1)) /\ idx_generation gd2 = idx_generation gd1 + 1).
  Proof.
    intros ok NL Ct F m fuel c gd0 s0 k c1 gd1 s1 c2 gd2 s2 Mo St0 At R. pose proof (multi_started_init _ _ St0) as I0.
    destruct (multi_generation ok NL Ct F m fuel c gd0 s0 k c1 gd1 s1 c2 gd2 s2 Mo I0 At R) as (M1 & _ & kids & els & h1 & h2 & rc & cs & front & St & _).
    assert (B : exists set g, best_solution gd1 = BPareto set g).
    { destruct At as (gd & s & Hf & S). destruct (multi_run_inv ok NL Ct F m fuel (fun _ gd' _ => exists set g, best_solution gd' = BPareto set g) c gd0 s0 gd s Mo I0 Hf) with (k := k) (c' := c1) (gd' := gd1) (s' := s1) as (_ & _ & X); auto.
      - intros k2 rc' cs' front' Fi _. rewrite (mf_best _ _ _ _ _ _ _ _ _ _ Fi). destruct (inds_eqb _ _); eauto.
      - intros ca ga sa cb gb sb kids' els' j1 j2 rc' cs' front' _ _ _ St' _. rewrite (ms_best _ _ _ _ _ _ _ _ _ _ _ _ _ _ St'). destruct (inds_eqb _ _); eauto. }
    destruct B as (set & g & B). exists set, g, front. split; auto. split; [exact (ms_front _ _ _ _ _ _ _ _ _ _ _ _ _ _ St)|].
    pose proof (ms_best _ _ _ _ _ _ _ _ _ _ _ _ _ _ St) as Eb. pose proof (ms_no_improve _ _ _ _ _ _ _ _ _ _ _ _ _ _ St) as En.
    rewrite B in Eb, En. cbn [old_set old_gen] in Eb, En. rewrite <- inds_eqb_alike.
    destruct (inds_eqb set (map (heap s2) front)); split; intros X; try congruence; [rewrite B; auto|].
    split; auto. split; auto. exact (ms_gen _ _ _ _ _ _ _ _ _ _ _ _ _ _ St).
  Qed.

  (** What VEGA.optimize and FFGA.optimize report. *)
  Corollary C54_reported : forall ok, NumOrder NO ok -> counting ok -> forall F m fuel cf gray gens s gd' cl s',
    steady (cf_objective cf) F -> sized ok F m ->
    (vega fuel cf gray gens s = Ok (gd', cl) s' \/ ffga fuel cf gray gens s = Ok (gd', cl) s') -> members (population gd') <> [] ->
    exists front set g, is_front F (heap s') (members (population gd')) front /\ front <> [] /\ best_solution gd' = BPareto set (Some g) /\
      (set = map (heap s') front \/ Forall2 alike set (map (heap s') front)).
  Proof.
    intros ok NL Ct F m fuel cf gray gens s gd' cl s' Sy Sz H Ne.
    assert (G : exists c gd0 s0 k c', at_generation fuel c gd0 s0 k c' gd' s' /\ multi_started gd0 s0 /\ objectives_ok (c_selection c) /\
      is_multi_kind (fkind (c_fitness c)) = true /\ obj_function (c_fitness c) = cf_objective cf).
    { destruct H as [H|H].
      - unfold vega in H. bd H n s1 R. apply multi_optimize_run in H. destruct H as (c & gd0 & s0 & k & c' & At & St & _ & Es & _ & _ & Ek & Eo & _).
        exists c, gd0, s0, k, c'. split; auto. split; auto. rewrite Es, Ek. cbn. auto.
      - apply multi_optimize_run in H. destruct H as (c & gd0 & s0 & k & c' & At & St & _ & Es & _ & _ & Ek & Eo & _).
        exists c, gd0, s0, k, c'. split; auto. split; auto. rewrite Es, Ek. cbn. auto. }
    destruct G as (c & gd0 & s0 & k & c' & At & St & Os & Ek & Eo).
    destruct (C54_pareto_set ok NL Ct F m fuel c gd0 s0 k c' gd' s') as (front & set & g & A & B & C & _ & _ & D & _); auto.
    - split; auto. split; [rewrite Eo; auto|]. split; auto.
    - exists front, set, g. auto.
  Qed.

  (** *** C55 *)
  (** FFGA's population: the children and exactly the front of the last population. *)
  Theorem C55_population : forall ok, NumOrder NO ok -> counting ok -> forall F m fuel c gd0 s0 k c1 gd1 s1 c2 gd2 s2,
    multi_objective ok c F m -> ng_multi (c_newgen c) = true -> ng_transfer (c_newgen c) = TBest -> plain_selection (c_selection c) ->
    multi_started gd0 s0 -> at_generation fuel c gd0 s0 k c1 gd1 s1 -> ga_step fuel c1 gd1 s1 = Ok (c2, gd2) s2 ->
    exists kids front, is_front F (heap s1) (members (population gd1)) front /\ Permutation (members (population gd2)) (kids ++ front) /\
      NoDup kids /\ (forall r, In r kids -> (next s1 <= r < next s2)%nat) /\ num_pairs (c_selection c) gd1 (length kids) /\
      length (members (population gd2)) = (length kids + length front)%nat /\
      (* the members carried over are the same points *)
      forall r, In r front -> genotype (heap s2 r) = genotype (heap s1 r) /\ phenotype (heap s2 r) = phenotype (heap s1 r).
  Proof.
    intros ok NL Ct F m fuel c gd0 s0 k c1 gd1 s1 c2 gd2 s2 Mo Nm Nt Pl St0 At R. pose proof (multi_started_init _ _ St0) as I0.
    destruct (multi_generation ok NL Ct F m fuel c gd0 s0 k c1 gd1 s1 c2 gd2 s2 Mo I0 At R) as (M1 & (_ & E2 & _ & E4) & kids & els & h1 & h2 & rc & cs & front & St & _).
    exists kids, els. rewrite <- E4 in Nm, Nt. rewrite <- E2 in Pl |- *.
    pose proof (ms_taken _ _ _ _ _ _ _ _ _ _ _ _ _ _ St Nm Pl) as T. unfold multi_taken in T. rewrite Nt in T. split; [exact T|].
    pose proof (ms_perm _ _ _ _ _ _ _ _ _ _ _ _ _ _ St) as P. split; auto. destruct (ms_kids _ _ _ _ _ _ _ _ _ _ _ _ _ _ St) as (a & Ek & La & Na).
    split; [rewrite Ek; apply seq_NoDup|]. split; [intros r Hr; rewrite Ek in Hr; apply in_seq in Hr; lia|].
    split; [exact (ms_count _ _ _ _ _ _ _ _ _ _ _ _ _ _ St)|]. split; [rewrite (Permutation_length P); apply app_length|].
    intros r Hr. apply (ms_els _ _ _ _ _ _ _ _ _ _ _ _ _ _ St) in Hr. apply (mi_alloc _ _ _ M1) in Hr.
    destruct (ms_core _ _ _ _ _ _ _ _ _ _ _ _ _ _ St r Hr) as [(A & B & _) _]. auto.
  Qed.

  Lemma ng_refl : forall ok, NumOrder NO ok -> forall a, Forall ok a -> no_greater a a.
  Proof. intros ok NL a Fa. induction Fa as [|x a Ox Fa IH]; cbn; auto. split; auto. apply (no_irrefl _ _ NL); auto. Qed.
  (** Every member is matched or beaten by somebody on the front. *)
  Lemma front_covers : forall ok, NumOrder NO ok -> forall F m, sized ok F m -> forall h l x, In x l ->
    exists r, In r l /\ (forall y, In y l -> ~ dominates (F (phen h y)) (F (phen h r))) /\ no_greater (F (phen h r)) (F (phen h x)).
  Proof.
    intros ok NL F m Sz h l x Ix.
    set (below := filter (fun y => if no_greater_dec (F (phen h y)) (F (phen h x)) then true else false) l).
    assert (Ib : forall y, In y below <-> In y l /\ no_greater (F (phen h y)) (F (phen h x))).
    { intros y. unfold below. rewrite filter_In. destruct (no_greater_dec _ _); split; intros []; split; auto; discriminate. }
    assert (Xb : In x below). { apply Ib. split; auto. apply (ng_refl ok NL). apply Sz. }
    destruct (minimal ok NL F l m (phen h)) with (xs := below) as (r & Ir & Hr).
    - intros; apply Sz.
    - intros y Hy. apply Ib in Hy. tauto.
    - intros E. rewrite E in Xb. destruct Xb.
    - exists r. pose proof Ir as Ir'. apply Ib in Ir'. destruct Ir' as [Rl Rn]. split; auto. split; auto. intros y Iy D.
      assert (In y below).
      { apply Ib. split; auto. destruct (Sz (phen h y)), (Sz (phen h r)), (Sz (phen h x)). eapply (ng_trans ok NL) with (b := F (phen h r)); auto; try congruence. apply D. }
      assert (E : dom F (phen h) y r = true) by (apply dom_true; auto). rewrite Hr in E by auto. discriminate.
  Qed.

  Theorem C55_elitism : forall ok, NumOrder NO ok -> counting ok -> forall F m fuel c gd0 s0 k c1 gd1 s1,
    multi_objective ok c F m -> ng_multi (c_newgen c) = true -> ng_transfer (c_newgen c) = TBest -> plain_selection (c_selection c) ->
    multi_started gd0 s0 -> at_generation fuel c gd0 s0 k c1 gd1 s1 ->
    forall j c2 gd2 s2, steps fuel c1 gd1 s1 j c2 gd2 s2 ->
    forall x, In x (members (population gd1)) ->
    exists front r, is_front F (heap s2) (members (population gd2)) front /\ In r front /\
      no_greater (F (phen (heap s2) r)) (F (phen (heap s1) x)).
  Proof.
    intros ok NL Ct F m fuel c gd0 s0 k c1 gd1 s1 Mo Nm Nt Pl St0 At. pose proof Mo as (_ & _ & Sz & _).
    assert (Cov : forall k' c' gd' s', at_generation fuel c gd0 s0 k' c' gd' s' -> exists front, is_front F (heap s') (members (population gd')) front /\
      forall x, In x (members (population gd')) -> exists r, In r front /\ no_greater (F (phen (heap s') r)) (F (phen (heap s') x))).
    { intros k' c' gd' s' At'. assert (Fr : exists front, is_front F (heap s') (members (population gd')) front).
      { destruct (members (population gd')) as [|y l] eqn:E.
        - exists [], []. split; auto. split; intros r [].
        - destruct (C54_pareto_set ok NL Ct F m fuel c gd0 s0 k' c' gd' s') as (front & _ & _ & A & _); auto; [rewrite E; discriminate|]. exists front. rewrite <- E. auto. }
      destruct Fr as (front & A). exists front. split; auto. intros x Ix.
      destruct (front_covers ok NL F m Sz (heap s') _ x Ix) as (r & Ir & Hr & Ng). exists r. split; auto.
      destruct A as (rest & El & _ & B). rewrite El in Ir. apply in_app_or in Ir. destruct Ir as [Ir|Ir]; auto.
      destruct (B r Ir) as (y & Iy & D). destruct (Hr y Iy D). }
    intros j c2 gd2 s2 S. induction S as [|j c2 gd2 s2 c3 gd3 s3 S IH R]; intros x Ix.
    - destruct (Cov k c1 gd1 s1 At) as (front & A & B). destruct (B x Ix) as (r & Ir & N). eauto.
    - destruct (IH x Ix) as (front & r & A & Ir & N). destruct At as (gd & s & Hf & S1).
      assert (At2 : at_generation fuel c gd0 s0 (k + j) c2 gd2 s2) by (exists gd, s; split; auto; eapply steps_trans; eauto).
      assert (At3 : at_generation fuel c gd0 s0 (Datatypes.S (k + j)) c3 gd3 s3) by (exists gd, s; split; auto; econstructor; [eapply steps_trans; eauto|eauto]).
      destruct (C55_population ok NL Ct F m fuel c gd0 s0 (k + j) c2 gd2 s2 c3 gd3 s3 Mo Nm Nt Pl St0 At2 R) as (kids & front' & A' & P & _ & _ & _ & _ & Kp).
      assert (front' = front).
      { destruct A as (rest & El & B1 & B2). destruct A' as (rest' & El' & B1' & B2'). rewrite El in El'.
        clear - El' El B1 B2 B1' B2'. assert (Gn : forall (a b a' b' : list nat), a ++ b = a' ++ b' -> (forall z, In z a -> ~ In z b') -> (forall z, In z a' -> ~ In z b) -> a' = a).
        { induction a as [|z a IHa]; intros b [|z' a'] b' E N1 N2; auto.
          - cbn in E. subst b. destruct (N2 z'); left; auto.
          - cbn in E. subst b'. destruct (N1 z); left; auto.
          - cbn in E. inversion E; subst. f_equal. eapply IHa; eauto; intros w Hw; [apply N1|apply N2]; right; auto. }
        apply (Gn _ _ _ _ El').
        - intros z Hz C. destruct (B2' z C) as (y & Iy & D). apply (B1 z Hz y Iy D).
        - intros z Hz C. destruct (B2 z C) as (y & Iy & D). apply (B1' z Hz y Iy D). }
      subst front'. destruct (Cov (Datatypes.S (k + j)) c3 gd3 s3 At3) as (front3 & A3 & B3).
      destruct (B3 r) as (r3 & Ir3 & N3). { eapply Permutation_in; [apply Permutation_sym; exact P|]. apply in_or_app; auto. }
      exists front3, r3. split; auto. split; auto. assert (Ep : phen (heap s3) r = phen (heap s2) r) by (unfold phen; rewrite (proj2 (Kp r Ir)); auto). rewrite Ep in N3.
      destruct (Sz (phen (heap s3) r3)), (Sz (phen (heap s2) r)), (Sz (phen (heap s1) x)).
      eapply (ng_trans ok NL) with (b := F (phen (heap s2) r)); auto; congruence.
  Qed.

  (** Random transfer: ten members drawn without replacement from all but the last, and
      the last, whose rank nobody exceeds. *)
  Theorem C55_random : forall ok, NumOrder NO ok -> counting ok -> forall F m fuel c gd0 s0 k c1 gd1 s1 c2 gd2 s2,
    multi_objective ok c F m -> ng_multi (c_newgen c) = true -> ng_transfer (c_newgen c) = TRandom -> plain_selection (c_selection c) ->
    multi_started gd0 s0 -> at_generation fuel c gd0 s0 k c1 gd1 s1 -> ga_step fuel c1 gd1 s1 = Ok (c2, gd2) s2 ->
    exists kids others worst drawn, members (population gd1) = others ++ [worst] /\ picks 10 others drawn /\
      Permutation (members (population gd2)) (kids ++ drawn ++ [worst]) /\ NoDup kids /\ (forall r, In r kids -> (next s1 <= r < next s2)%nat) /\
      forall r, In r others -> exists x y, rank (heap s1 r) = Some (SV1 x) /\ rank (heap s1 worst) = Some (SV1 y) /\ nltb y x = false.
  Proof.
    intros ok NL Ct F m fuel c gd0 s0 k c1 gd1 s1 c2 gd2 s2 Mo Nm Nt Pl St0 At R. pose proof (multi_started_init _ _ St0) as I0.
    destruct (multi_generation ok NL Ct F m fuel c gd0 s0 k c1 gd1 s1 c2 gd2 s2 Mo I0 At R) as (M1 & (_ & E2 & _ & E4) & kids & els & h1 & h2 & rc & cs & front & St & _).
    rewrite <- E4 in Nm, Nt. rewrite <- E2 in Pl.
    pose proof (ms_taken _ _ _ _ _ _ _ _ _ _ _ _ _ _ St Nm Pl) as T. unfold multi_taken in T. rewrite Nt in T. destruct T as (l0 & b & e & El & P & ->).
    exists kids, l0, b, e. split; auto. split; auto. split; [exact (ms_perm _ _ _ _ _ _ _ _ _ _ _ _ _ _ St)|].
    destruct (ms_kids _ _ _ _ _ _ _ _ _ _ _ _ _ _ St) as (a & Ek & La & Na).
    split; [rewrite Ek; apply seq_NoDup|]. split; [intros r Hr; rewrite Ek in Hr; apply in_seq in Hr; lia|].
    intros r Hr. pose proof (mi_ranked _ _ _ M1) as Wr. rewrite El in Wr. pose proof (mi_asc _ _ _ M1) as Asc. rewrite El in Asc.
    do 2 eexists. split; [apply Wr; apply in_or_app; left; auto|]. split; [apply Wr; apply in_or_app; right; left; auto|].
    unfold asc in Asc. assert (K : key_lt KRank (heap s1 b) (heap s1 r) = false).
    { clear - Asc Hr. induction l0 as [|z l0 IH]; [destruct Hr|]. cbn [app] in Asc. inversion Asc as [|z0 l1 S1 F1]; subst. destruct Hr as [->|Hr]; [|apply IH; auto].
      rewrite Forall_forall in F1. apply F1. apply in_or_app; right; left; auto. }
    unfold key_lt in K. cbn [key_of] in K. rewrite (Wr b) in K by (apply in_or_app; right; left; auto). rewrite (Wr r) in K by (apply in_or_app; left; auto). exact K.
  Qed.
End Pareto.

Section Exact.
  Local Existing Instance Qops.
  Lemma counting_exact : @counting Qops (fun _ => True).
  Proof.
    intros n. split; auto. intros H. change (@nltb Qops) with Qltb. apply Qltb_iff. change (@none_ Qops) with 1%Q. change (@num Qops) with Q.
    pose proof (ones_value n) as V. rewrite V. change 1%Q with (inject_Z 1). rewrite <- Zlt_Qlt. lia.
  Qed.

  (** Two objectives on two genes with values 0..3: F(x, y) = (x^2 + y, (3 - x)^2 + y). *)
  Definition two_genes : list (Q * Q * Q) := [(0%Q, 3%Q, 1%Q); (0%Q, 3%Q, 1%Q)].
  Definition gene_value (g : gv) : Q := match g with GNum x => x | GInt z => inject_Z z | _ => 0%Q end.
  Definition trade_off (genes : list gv) : list num :=
    let x := gene_value (nth 0 genes (GInt 0)) in let y := gene_value (nth 1 genes (GInt 0)) in
    [Qred (x * x + y); Qred ((3 - x) * (3 - x) + y)].
  Definition trade_obj : objfun := Obj1 (fun _ genes => inr (OTuple (trade_off genes))).
  Definition trade_cf (tr : string) (n g : Z) : config :=
    mkCfg g n trade_obj TNone None PNone None (8#10) None [] 2 (LFloat (1#4)) tr false.
  (** A state whose entropy source yields values spread over the 53 bits. *)
  Definition wide (k i : nat) : Z := (mixed k i * 636413622384679) mod 9007199254740992.
  Definition wide_world : st := mkSt (fun _ => blank_individ) 0 (fun _ => 0) wide None (fun _ _ => 0) [].
  (** The hypotheses of the theorems hold for these components. *)
  Definition trade_comps (tr : transfer) : comps :=
    mkComps (mkFit Ffga trade_obj TNone None None ["optimize"]%string false []) SelBalanced OnePoint (MutBin (LFloat (1#4))) (mkNG true tr).
  Example C54_objective : forall tr, multi_objective (fun _ => True) (trade_comps tr) trade_off 2.
  Proof.
    intros tr. split; [reflexivity|]. split; [intros k genes v H; inversion H; reflexivity|]. split; [|reflexivity || exact Logic.I].
    intros genes. split; [reflexivity|]. apply Forall_forall. auto.
  Qed.

  (** The objective values and ranks of the final population, the recorded set with its
      generation, the fronts of all generations and the counter. *)
  Definition pareto_view (r : gadata * option (list string)) (s : st) :=
    (map (fun r => (trade_off (phen (heap s) r), match rank (heap s r) with Some (SV1 x) => Qred x | _ => 0%Q end)) (members (population (fst r))),
     match best_solution (fst r) with BPareto set g => (map obj_score set, g) | _ => ([], None) end, hist_pareto (fst r), no_improve (fst r)).
  (** FFGA with six individuals: the final population has nine members (four children
      and a front of five), and the recorded set is its first five. *)
  Example C55_case : observe pareto_view (ffga 50 (trade_cf "best" 6 5) true two_genes wide_world) =
    Some ([([0; 9], 1); ([3; 6], 1); ([10; 1], 1); ([3; 6], 1); ([3; 6], 1); ([11; 2], 2); ([4; 7], 4); ([3; 12], 5); ([3; 12], 5)]%Q,
          ([SVL [0; 9]%Q; SVL [3; 6]%Q; SVL [10; 1]%Q; SVL [3; 6]%Q; SVL [3; 6]%Q], Some 4),
          [[0; 1; 3; 4]; [14; 15; 16; 17; 0; 1; 3; 4]; [28; 29; 14; 15; 16; 17; 1; 4]; [38; 40; 28; 29; 15]; [38; 40; 28; 29; 15]]%nat, 0).
  Proof. run. Qed.
  Example C54_case : observe pareto_view (vega 50 (trade_cf "best" 6 5) true two_genes wide_world) =
    Some ([([11; 2], 1); ([0; 9], 1); ([4; 7], 1); ([1; 10], 2); ([2; 11], 3); ([2; 11], 3); ([3; 12], 5)]%Q,
          ([SVL [11; 2]%Q; SVL [0; 9]%Q; SVL [4; 7]%Q], Some 4),
          [[0; 1; 3; 4]; [14; 15; 16; 3; 4]; [28; 29; 3]; [41; 28]; [51; 53; 40]]%nat, 0).
  Proof. run. Qed.
  (** Random transfer: nine children, ten drawn members, and a member of the highest
      rank. *)
  Example C55_random_case : observe (fun r s => (map (fun r => (trade_off (phen (heap s) r), match rank (heap s r) with Some (SV1 x) => Qred x | _ => 0%Q end)) (members (population (fst r))), length (members (population (fst r)))))
      (ffga 50 (trade_cf "random" 12 2) true two_genes wide_world) =
    Some ([([0; 9], 1); ([7; 4], 1); ([9; 0], 1); ([7; 4], 1); ([2; 11], 2); ([11; 2], 2); ([2; 11], 2); ([2; 11], 2); ([2; 11], 2);
           ([12; 3], 3); ([12; 3], 3); ([12; 3], 3); ([12; 3], 3); ([12; 3], 3); ([12; 3], 3);
           ([3; 12], 6); ([3; 12], 6); ([3; 12], 6); ([3; 12], 6); ([3; 12], 6)]%Q, 20%nat).
  Proof. run. Qed.
End Exact.

Print Assumptions C54_update.
Print Assumptions C54_pareto_set.
Print Assumptions C54_counter.
Print Assumptions C54_reported.
Print Assumptions C55_population.
Print Assumptions C55_elitism.
Print Assumptions C55_random.
