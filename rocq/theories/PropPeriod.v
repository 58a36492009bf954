(** C95: with a fixed seed, every run on a finite search space ends in a cycle or by an
    exception within a number of generations that can be computed in advance. *)
From Coq Require Import String.
From Coq Require Import ZArith QArith List Bool Lia Permutation.
From Verif Require Import Spec Num State Binary Population GaData Crossover Mutation Selection Penalty Fitness NewGeneration Driver
  ListLemmas Rnd Exec Laws PopulationProofs MutationProofs SelectionProofs NewGenProofs FitnessProofs AssessProofs UpdateProofs StepProofs HistoryProofs RunProofs Runs DomainProofs CycleProofs PeriodProofs
  PropRun PropBest PropFitness PropDomain PropInvariance PropResume PropCycle Demo.
Import ListNotations.
Open Scope list_scope.
Open Scope Z_scope.

Section Period.
  Context {NO : NumOps}.
  Context (ok : num -> Prop) (NL : NumOrder NO ok) (fuel : nat) (c : comps) (gd0 : gadata) (s0 : st).
  Context (Single : single c) (Good : good_scores ok (c_fitness c)) (Start : started gd0 s0).
  (** As for C94; the selection is a tournament or balanced. *)
  Context (Rankless : rankless (c_selection c)) (Uncond : is_conditional (c_fitness c) = false)
    (Fun : stateless (obj_function (c_fitness c))) (Clean : unused s0) (z : Z) (Seeded : rnd_seed s0 = Some z).
  (** The operators belong to the search space and the run starts in it. *)
  Context (Bel : belongs (c_crossover c) (c_mutation c) (gspec_of (population gd0)))
    (Inside : forall r, In r (members (population gd0)) -> in_domain (gspec_of (population gd0)) (genotype (heap s0 r))).
  (** [N] bounds the size of the populations: the first one, and those made of x children and
      of the members taken over.  No dict has a rank or a number above N when the run starts. *)
  Context (N : nat) (Size0 : (length (members (population gd0)) <= N)%nat)
    (Size : forall x, pairs_wanted None gd0 x -> (Z.to_nat (Z.max (num_individ (population gd0)) x) + 1 <= N)%nat)
    (Numbers : forall r, rank (heap s0 r) = None /\ match idx_individ (heap s0 r) with Some i => 0 <= i < Z.of_nat N | None => True end).
  Notation reach := (at_generation fuel c gd0 s0).
  (** The number of populations: at most N members, each with one of the genotypes of the
      space, one of N + 1 numbers (or none) and one of N positions. *)
  Definition bound : nat := geom (length (space (gspec_of (population gd0))) * (S N * N)) N.

  (** *** Every population is one of [bound] *)
  Definition sized (gd : gadata) : Prop := (length (members (population gd)) <= N)%nat.
  Lemma step_sized : forall c1 gd1 s1 c2 gd2 s2 kids els h cs l0 bst md w, same_comps c c1 -> alike gd0 s0 gd1 s1 ->
    Step c1 gd1 s1 c2 gd2 s2 kids els h cs l0 bst md w -> sized gd2.
  Proof.
    intros c1 gd1 s1 c2 gd2 s2 kids els h cs l0 bst md w (_ & Es & _) Al St. pose proof (st_count _ _ _ _ _ _ _ _ _ _ _ _ _ _ St) as Hc. rewrite Es in Hc.
    assert (X : exists x, pairs_wanted None gd1 x /\ length kids = Z.to_nat x) by (clear - Hc Rankless; destruct (c_selection c); cbn in *; auto; contradiction).
    destruct X as (x & Px & Lx). unfold pairs_wanted in Px. rewrite <- (al_num _ _ _ _ Al), <- (al_percent _ _ _ _ Al) in Px. apply Size in Px.
    destruct (st_taken _ _ _ _ _ _ _ _ _ _ _ _ _ _ St) as (s3 & _ & Tk). apply taken_bound in Tk. rewrite <- (al_num _ _ _ _ Al) in Tk.
    destruct (st_members _ _ _ _ _ _ _ _ _ _ _ _ _ _ St) as [_ Pm]. apply Permutation_length in Pm. unfold sized. rewrite Pm, app_length. lia.
  Qed.
  Lemma reach_sized : forall k c' gd' s', reach k c' gd' s' -> sized gd'.
  Proof.
    intros k c' gd' s' H.
    destruct (gen_inv ok NL fuel c gd0 s0 Single Good Start (fun _ gd s => alike gd0 s0 gd s /\ sized gd)) with (k := k) (c' := c') (gd' := gd') (s' := s') as (_ & _ & _ & S); auto.
    - intros gd s cs l0 bst md w Fi _. pose proof (fi_pop _ _ _ _ _ _ _ _ _ _ Fi) as E. destruct (fi_params _ _ _ _ _ _ _ _ _ _ Fi) as (_ & _ & Ep).
      pose proof (fi_quiet _ _ _ _ _ _ _ _ _ _ Fi) as Qu. unfold quiet in Qu. split; [constructor; auto; try (rewrite E; reflexivity); intuition congruence|].
      destruct (fi_members _ _ _ _ _ _ _ _ _ _ Fi) as [_ Pm]. apply Permutation_length in Pm. unfold sized. rewrite Pm. exact Size0.
    - intros c1 gd1 s1 c2 gd2 s2 kids els h cs l0 bst md w Sc _ [A _] St _. split; [eapply alike_trans; [exact A|]; eapply alike_step; eauto|]. eapply step_sized; eauto.
  Qed.
  Definition facts (gd : gadata) (s : st) : Prop :=
    sized gd /\ all_marked (Z.of_nat N) s /\ (forall r, In r (members (population gd)) -> In (genotype (heap s r)) (space (gspec_of (population gd0)))).
  Lemma reach_facts : forall k c' gd' s', reach k c' gd' s' -> facts gd' s'.
  Proof.
    intros k c' gd' s' H. split; [eapply reach_sized; eauto|split].
    - pose proof H as (gd & s & F & S). pose proof (started_init _ _ Start) as Io. pose proof Single as (Fk & Ng & Ho).
      assert (M0 : all_marked (Z.of_nat N) s) by (apply (kp_first (Z.of_nat N) _ _ (in_single _ _ Io) Fk _ _ _ F); exact Numbers). clear H.
      induction S as [|k c1 gd1 s1 c2 gd2 s2 S IH R]; auto.
      assert (A1 : reach k c1 gd1 s1) by (exists gd, s; auto). pose proof (reach_sized _ _ _ _ A1) as Sz. unfold sized in Sz.
      destruct (gen_inv ok NL fuel c gd0 s0 Single Good Start (fun _ _ _ => True)) with (k := k) (c' := c1) (gd' := gd1) (s' := s1) as (G1 & (E1 & E2 & E3 & E4) & _); auto.
      eapply (kp_step (Z.of_nat N) fuel c1 gd1); [apply G1| |rewrite E2; exact Rankless|lia|apply G1|exact R|exact IH].
      split; [congruence|split; [congruence|rewrite E2; auto]].
    - intros r Hr. apply space_all. destruct (C44_run ok NL fuel c gd0 s0 Single Good Start Bel Inside k c' gd' s' H) as [K _]. auto.
  Qed.

  (** The dict is determined by the genotype, the number and the rank. *)
  Lemma reach_dicts : forall k1 k2 c1 gd1 s1 c2 gd2 s2 a b, reach k1 c1 gd1 s1 -> reach k2 c2 gd2 s2 ->
    In a (members (population gd1)) -> In b (members (population gd2)) -> genotype (heap s1 a) = genotype (heap s2 b) -> same_core (heap s1 a) (heap s2 b).
  Proof.
    assert (J : forall k c' gd' s', reach k c' gd' s' -> forall r, In r (members (population gd')) ->
      exists n x y pt, called (c_fitness c) n pt = inr (OScalar x) /\ pt = FitnessProofs.point (gspec_of (population gd0)) (heap s' r) /\ score_of (c_fitness c) x nzero = inr y /\
        decoded (gspec_of (population gd0)) (heap s' r) /\ score (heap s' r) = SV1 y /\ obj_score (heap s' r) = SV1 x /\ feasible (heap s' r) = true).
    { intros k c' gd' s' H r Hr. pose proof (started_init _ _ Start) as Io. pose proof Single as (Fk & _).
      destruct (gen_inv ok NL fuel c gd0 s0 Single Good Start (fun c1 gd s => just_inv (c_fitness c) (gspec_of (population gd0)) (log s0) c1 gd s)) with (k := k) (c' := c') (gd' := gd') (s' := s')
        as (_ & _ & (Eg & cs & El & Jm & _)); auto.
      - intros gd s cs l0 bst md w F G. eapply just_inv_first; eauto.
      - intros c1 gd1 s1 c2 gd2 s2 kids els h cs l0 bst md w Sc G1 I1 S G2. pose proof Sc as (E1 & _).
        apply (just_inv_step ok _ _ (log s0) _ _ _ _ _ _ _ _ _ _ _ _ _ _ E1 G1 I1 S).
      - destruct (Jm r Hr) as (D & v & gen & best & i0 & j & Iv & Fr & As & Co).
        destruct (C48_run ok NL fuel c gd0 s0 Single Good Start k c' gd' s' H) as (calls & _ & El' & Ge). rewrite El in El'. apply app_inv_tail in El'. subst cs. apply in_rev in Iv. rewrite ?rev_involutive in Iv.
        apply In_nth_error in Iv. destruct Iv as (n & Hn). apply Ge in Hn. apply called_answers in Hn.
        destruct (assess_plain _ gen best v i0 j Fk Uncond As) as (x & y & -> & Sy & ->). destruct Co as (C1 & C2 & C3 & C4 & C5). cbn in C3, C4, C5. destruct Fr as (_ & _ & Fe & _).
        exists (length (log s0) + n)%nat, x, y, (FitnessProofs.point (gspec_of (population gd0)) (heap s' r)). repeat split; auto; congruence. }
    intros k1 k2 c1 gd1 s1 c2 gd2 s2 a b H1 H2 Ia Ib E.
    destruct (J _ _ _ _ H1 a Ia) as (n & x & y & pt & Cx & -> & Sy & D & E3 & E4 & E5). destruct (J _ _ _ _ H2 b Ib) as (n' & x' & y' & pt' & Cx' & -> & Sy' & D' & E3' & E4' & E5').
    assert (P : phenotype (heap s1 a) = phenotype (heap s2 b)).
    { clear - D D' E. unfold decoded in *. destruct (gspec_of (population gd0)); try congruence. destruct D as (ph & -> & K). destruct D' as (ph' & -> & K'). congruence. }
    assert (Ep : FitnessProofs.point (gspec_of (population gd0)) (heap s1 a) = FitnessProofs.point (gspec_of (population gd0)) (heap s2 b)) by (unfold FitnessProofs.point; rewrite P, E; reflexivity).
    rewrite Ep, (called_stateless _ n n' _ Fun), Cx' in Cx. injection Cx as ->. rewrite Sy' in Sy. injection Sy as ->. repeat split; congruence.
  Qed.

  Definition numbers : list (option Z) := None :: map (fun n => Some (Z.of_nat n)) (seq 0 N).
  Definition letters : list (list gv * (option Z * nat)) := list_prod (space (gspec_of (population gd0))) (list_prod numbers (seq 0 N)).
  Definition key (gd : gadata) (s : st) : list (list gv * (option Z * nat)) :=
    map (fun r => (genotype (heap s r), (idx_individ (heap s r), first_at r (members (population gd))))) (members (population gd)).
  Lemma words_bound : length (words letters N) = bound.
  Proof. rewrite words_length. unfold bound, letters, numbers. rewrite !prod_length. cbn [length]. rewrite map_length, !seq_length. reflexivity. Qed.
  Lemma reach_key : forall k c' gd' s', reach k c' gd' s' -> In (key gd' s') (words letters N).
  Proof.
    intros k c' gd' s' H. destruct (reach_facts _ _ _ _ H) as (Sz & M & I). unfold sized in Sz. apply words_in; [|unfold key; rewrite map_length; exact Sz].
    intros w Hw. unfold key in Hw. apply in_map_iff in Hw. destruct Hw as (r & <- & Hr). apply in_prod; [auto|]. apply in_prod.
    - destruct (M r) as [_ K]. unfold numbers. destruct (idx_individ (heap s' r)) as [i|]; [right|left; auto]. apply in_map_iff. exists (Z.to_nat i). split; [f_equal; lia|]. apply in_seq. lia.
    - apply in_seq. assert (first_at r (members (population gd')) < length (members (population gd')))%nat by (apply nth_error_Some; rewrite first_at_in by auto; discriminate). lia.
  Qed.
  Lemma key_repeats : forall k1 k2 c1 gd1 s1 c2 gd2 s2, reach k1 c1 gd1 s1 -> reach k2 c2 gd2 s2 -> key gd1 s1 = key gd2 s2 -> repeats gd1 s1 gd2 s2.
  Proof.
    intros k1 k2 c1 gd1 s1 c2 gd2 s2 H1 H2 E. destruct (reach_facts _ _ _ _ H1) as (_ & M1 & _). destruct (reach_facts _ _ _ _ H2) as (_ & M2 & _).
    assert (Nth : forall i a b, nth_error (members (population gd1)) i = Some a -> nth_error (members (population gd2)) i = Some b ->
      genotype (heap s1 a) = genotype (heap s2 b) /\ idx_individ (heap s1 a) = idx_individ (heap s2 b) /\ first_at a (members (population gd1)) = first_at b (members (population gd2))).
    { intros i a b Ha Hb. assert (X : nth_error (key gd1 s1) i = nth_error (key gd2 s2) i) by (rewrite E; reflexivity). unfold key in X. rewrite !nth_error_map, Ha, Hb in X. cbn in X. injection X as X1 X2 X3. auto. }
    assert (Ln : length (members (population gd1)) = length (members (population gd2))) by (apply (f_equal (@length _)) in E; unfold key in E; rewrite !map_length in E; exact E).
    constructor.
    - apply nth_error_ext. intros i. rewrite !nth_error_map. destruct (nth_error (members (population gd1)) i) as [a|] eqn:Ha, (nth_error (members (population gd2)) i) as [b|] eqn:Hb; cbn; auto.
      + f_equal. destruct (Nth _ _ _ Ha Hb) as (Eg & Ei & _).
        destruct (reach_dicts _ _ _ _ _ _ _ _ a b H1 H2 (nth_error_In _ _ Ha) (nth_error_In _ _ Hb) Eg) as (D1 & D2 & D3 & D4 & D5). destruct (M1 a) as [R1 _]. destruct (M2 b) as [R2 _].
        clear - D1 D2 D3 D4 D5 R1 R2 Ei. destruct (heap s1 a), (heap s2 b); cbn in *. congruence.
      + apply nth_error_None in Hb. assert (i < length (members (population gd1)))%nat by (apply nth_error_Some; congruence). lia.
      + apply nth_error_None in Ha. assert (i < length (members (population gd2)))%nat by (apply nth_error_Some; congruence). lia.
    - intros i j a a' b b' Ia Ja Ib Jb. destruct (Nth _ _ _ Ia Ib) as (_ & _ & F). destruct (Nth _ _ _ Ja Jb) as (_ & _ & F').
      pose proof (first_at_in _ _ (nth_error_In _ _ Ia)) as A. pose proof (first_at_in _ _ (nth_error_In _ _ Ja)) as A'.
      pose proof (first_at_in _ _ (nth_error_In _ _ Ib)) as B. pose proof (first_at_in _ _ (nth_error_In _ _ Jb)) as B'. split; intros <-; congruence.
  Qed.

  (** C95.  Among generations 1 to bound + 1 two have the same population. *)
  Theorem C95_repeats : forall c' gd' s', reach (S bound) c' gd' s' -> exists j p c1 gd1 s1 gd2 s2, (1 <= j)%nat /\ (1 <= p)%nat /\ (j + p <= S bound)%nat /\
    reach j c1 gd1 s1 /\ reach (j + p) c1 gd2 s2 /\ repeats gd1 s1 gd2 s2.
  Proof.
    intros c' gd' s' H.
    destruct (pigeons (words letters N) (fun k w => exists c1 gd1 s1, reach (S k) c1 gd1 s1 /\ key gd1 s1 = w) (S bound)) as (i & j & w & L & (c1 & gd1 & s1 & H1 & E1) & (c2 & gd2 & s2 & H2 & E2)).
    - rewrite words_bound. lia.
    - intros k Lk. destruct (reach_before _ _ _ _ _ (S k) _ _ _ H ltac:(lia)) as (c1 & gd1 & s1 & H1 & _). exists (key gd1 s1). split; [eapply reach_key; eauto|eauto 6].
    - destruct (reach_before _ _ _ _ _ (S i) _ _ _ H2 ltac:(lia)) as (c3 & gd3 & s3 & H3 & E3). destruct (reach_det _ _ _ _ _ _ _ _ _ _ _ H1 H3) as (-> & -> & ->). rewrite E3 in H2 by lia.
      exists (S i), (j - i)%nat, c3, gd3, s3, gd2, s2. replace (S i + (j - i))%nat with (S j) by lia. split; [lia|]. split; [lia|]. split; [lia|]. split; [exact H1|]. split; [exact H2|].
      eapply key_repeats; [exact H1|exact H2|congruence].
  Qed.
  (** From then on the run goes round: generation j + p + i has the population of generation
      j + i for every i. *)
  Theorem C95_periodic : forall c' gd' s', reach (S bound) c' gd' s' -> exists j p, (1 <= j)%nat /\ (1 <= p)%nat /\ (j + p <= S bound)%nat /\
    forall i, exists c1 gd1 s1 gd2 s2, reach (j + i) c1 gd1 s1 /\ reach (j + p + i) c1 gd2 s2 /\ repeats gd1 s1 gd2 s2.
  Proof.
    intros c' gd' s' H. destruct (C95_repeats _ _ _ H) as (j & p & c1 & gd1 & s1 & gd2 & s2 & Lj & Lp & L & H1 & H2 & Rp). exists j, p. split; auto. split; auto. split; auto. intros i.
    destruct (C94_never_ends ok NL fuel c gd0 s0 Single Good Start (rankless_plain _ Rankless) Uncond Fun Clean z Seeded j p _ _ _ _ _ _ Lj H1 H2 Rp Lp (j + i)%nat) as (c3 & gd3 & s3 & H3).
    destruct (C94_cycle ok NL fuel c gd0 s0 Single Good Start (rankless_plain _ Rankless) Uncond Fun Clean z Seeded j p _ _ _ _ _ _ Lj H1 H2 Rp i _ _ _ H3) as (gd4 & s4 & H4 & Rp4 & _).
    exists c3, gd3, s3, gd4, s4. auto.
  Qed.
  (** A run that gets through bound + 1 generations is never stopped by an exception. *)
  Theorem C95_never_fails : forall c' gd' s', reach (S bound) c' gd' s' -> forall k, exists c1 gd1 s1, reach k c1 gd1 s1.
  Proof.
    intros c' gd' s' H k. destruct (C95_repeats _ _ _ H) as (j & p & c1 & gd1 & s1 & gd2 & s2 & Lj & Lp & L & H1 & H2 & Rp).
    apply (C94_never_ends ok NL fuel c gd0 s0 Single Good Start (rankless_plain _ Rankless) Uncond Fun Clean z Seeded j p _ _ _ _ _ _ Lj H1 H2 Rp Lp k).
  Qed.
  (** More than bound + 1 generations are of no use: no further point is evaluated and
      best_solution does not change any more. *)
  Theorem C95_enough : forall c1 gd1 s1 k c2 gd2 s2, reach (S bound) c1 gd1 s1 -> reach k c2 gd2 s2 ->
    incl (map fst (log s2)) (map fst (log s1)) /\ ((S bound <= k)%nat -> best_solution gd2 = best_solution gd1).
  Proof.
    intros c1 gd1 s1 k c2 gd2 s2 H Hk. destruct (C95_repeats _ _ _ H) as (j & p & c3 & gd3 & s3 & gd4 & s4 & Lj & Lp & L & H3 & H4 & Rp). split.
    - apply incl_tran with (m := map fst (log s4)).
      + apply (C94_no_new_points ok NL fuel c gd0 s0 Single Good Start (rankless_plain _ Rankless) Uncond Fun Clean z Seeded j p _ _ _ _ _ _ Lj H3 H4 Rp Lp k _ _ _ Hk).
      + destruct (reach_grows ok NL fuel c gd0 s0 Single Good Start (rankless_plain _ Rankless) Uncond Clean (S bound) (j + p) _ _ _ _ _ _ H4 H L) as [(l & ->) _]. rewrite map_app. apply incl_appr, incl_refl.
    - intros Lk.
      pose proof (C94_no_improvement ok NL fuel c gd0 s0 Single Good Start (rankless_plain _ Rankless) Uncond Fun Clean z Seeded j p _ _ _ _ _ _ Lj H3 H4 Rp Lp) as X.
      replace k with (j + (k - j))%nat in Hk by lia. replace (S bound) with (j + (S bound - j))%nat in H by lia. destruct (X _ _ _ _ Hk) as [-> _]. destruct (X _ _ _ _ H) as [-> _]. reflexivity.
  Qed.
  (** Either the run is stopped within bound + 1 generations, or never. *)
  Theorem C95_decided : (exists k, (k <= S bound)%nat /\ forall c1 gd1 s1, ~ reach k c1 gd1 s1) \/ (forall k, exists c1 gd1 s1, reach k c1 gd1 s1).
  Proof.
    assert (D : forall k, (exists c1 gd1 s1, reach k c1 gd1 s1) \/ (forall c1 gd1 s1, ~ reach k c1 gd1 s1)).
    { induction k as [|k [(c1 & gd1 & s1 & H)|IH]].
      - destruct (first_generation (c_fitness c) gd0 s0) as [gd s|e|] eqn:E; [left; exists c, gd, s, gd, s; split; [exact E|constructor]| |]; right; intros c1 gd1 s1 (gd & s & F & _); congruence.
      - destruct (ga_step fuel c1 gd1 s1) as [[c2 gd2] s2|e|] eqn:E; [left; exists c2, gd2, s2; eapply reach_next; eauto| |];
          right; intros c3 gd3 s3 H3; destruct (reach_pred _ _ _ _ _ _ _ _ H3) as (c4 & gd4 & s4 & H4 & R); destruct (reach_det _ _ _ _ _ _ _ _ _ _ _ H H4) as (-> & -> & ->); congruence.
      - right. intros c3 gd3 s3 H3. destruct (reach_pred _ _ _ _ _ _ _ _ H3) as (c4 & gd4 & s4 & H4 & _). apply (IH _ _ _ H4). }
    destruct (D (S bound)) as [(c1 & gd1 & s1 & H)|H]; [right; eapply C95_never_fails; eauto|left; eauto].
  Qed.
End Period.

(** *** A run started by a collector in a fresh interpreter *)
Lemma fresh_start : forall {NO : NumOps} n ng g cp es s z gd0 s0, collector_set_population false n ng g [] cp es s = Ok gd0 s0 -> rnd_seed s = Some z -> unused s -> next s = 0%nat ->
  binary_ok (gspec_of (population gd0)) ->
  started gd0 s0 /\ unused s0 /\ rnd_seed s0 = Some z /\ length (members (population gd0)) = Z.to_nat n /\ num_individ (population gd0) = n /\ children_percent gd0 = cp /\
  prepare g = inr (gspec_of (population gd0)) /\
  (forall r, In r (members (population gd0)) -> in_domain (gspec_of (population gd0)) (genotype (heap s0 r))) /\
  (forall r, rank (heap s0 r) = None /\ match idx_individ (heap s0 r) with Some i => 0 <= i < Z.of_nat (Z.to_nat n) | None => True end).
Proof.
  intros NO n ng g cp es s z gd0 s0 E0 Z U Nx Bo. destruct (start_meets _ _ _ _ _ _ _ _ _ E0 Z U) as (St & Us & Sd). split; auto. split; auto. split; auto.
  unfold collector_set_population in E0. bd E0 u sa D. bd E0 p sb Lf. apply lift_ok in Lf. destruct Lf as [Sp ->]. bd E0 p' sc Fi. apply ret_ok in E0. destruct E0 as [-> ->].
  assert (X : next sa = 0%nat) by (unfold do_seed in D; rewrite Z in D; injection D as _ <-; exact Nx).
  cbn [new_gadata population children_percent] in *. unfold set_params in Sp. cbn in Sp. injection Sp as <-.
  apply fill_ok in Fi. destruct Fi as (g' & Pg & K). cbn [gspec_of input_population num_individ] in *. cbv zeta in K. destruct K as (-> & Nn & _ & K).
  cbn [members set_members set_gspec gspec_of num_individ length] in *. rewrite X, Z.sub_0_r in *. cbn [Nat.add] in *.
  split; [apply seq_length|]. split; auto. split; auto. split; auto. split.
  - intros r Hr. apply In_nth_error in Hr. destruct Hr as (i & Hi). destruct (K i r Hi) as (geno & <- & _ & _ & _ & _ & _ & _ & G). replace (nth_error (@nil (list gv)) i) with (@None (list gv)) in G by (destruct i; reflexivity).
    destruct G as (s1 & s2 & G). eapply generated_ok; eauto.
  - intros r. destruct (le_lt_dec (Z.to_nat n) r) as [L|L]; [rewrite Us by (rewrite Nn; exact L); cbn; auto|].
    assert (Hi : nth_error (seq 0 (Z.to_nat n)) r = Some r) by (rewrite nth_error_nth' with (d := 0%nat) by (rewrite seq_length; exact L); rewrite seq_nth by exact L; reflexivity).
    destruct (K r r Hi) as (geno & _ & _ & _ & _ & -> & -> & _). split; auto. lia.
Qed.
Lemma start_spec : forall {NO : NumOps} n ng g cp es s gd0 s0, collector_set_population false n ng g [] cp es s = Ok gd0 s0 -> prepare g = inr (gspec_of (population gd0)).
Proof.
  intros NO n ng g cp es s gd0 s0 E1. unfold collector_set_population in E1. bd E1 u sa D. bd E1 p sb Lf. apply lift_ok in Lf. destruct Lf as [Sp ->]. bd E1 p' sc Fi. apply ret_ok in E1. destruct E1 as [-> _].
  apply fill_ok in Fi. destruct Fi as (g' & Pg & K). cbv zeta in K. destruct K as (-> & _). unfold set_params in Sp. cbn in Sp. injection Sp as <-. exact Pg.
Qed.
(** C95 for such a run: n individuals, x children per generation. *)
Theorem C95_collector : forall {NO : NumOps} ok, NumOrder NO ok -> forall fuel c n ng g cp es s z gd0 s0 x,
  single c -> good_scores ok (c_fitness c) -> rankless (c_selection c) -> is_conditional (c_fitness c) = false -> stateless (obj_function (c_fitness c)) ->
  collector_set_population false n ng g [] cp es s = Ok gd0 s0 -> rnd_seed s = Some z -> unused s -> next s = 0%nat ->
  binary_ok (gspec_of (population gd0)) -> belongs (c_crossover c) (c_mutation c) (gspec_of (population gd0)) ->
  ntrunc (nmul cp (nofZ n)) = Some x ->
  forall N last, N = (Z.to_nat (Z.max n x) + 1)%nat -> last = S (geom (length (space (gspec_of (population gd0))) * (S N * N)) N) ->
  (exists k, (k <= last)%nat /\ forall c1 gd1 s1, ~ at_generation fuel c gd0 s0 k c1 gd1 s1) \/
  (exists j p, (1 <= j)%nat /\ (1 <= p)%nat /\ (j + p <= last)%nat /\
    forall i, exists c1 gd1 s1 gd2 s2, at_generation fuel c gd0 s0 (j + i) c1 gd1 s1 /\ at_generation fuel c gd0 s0 (j + p + i) c1 gd2 s2 /\ repeats gd1 s1 gd2 s2).
Proof.
  intros NO ok NL fuel c n ng g cp es s z gd0 s0 x Si Go Rl Un SL E Z U Nx Bo Be Nt N last EN EL. destruct (fresh_start _ _ _ _ _ _ _ _ _ E Z U Nx Bo) as (St & Us & Sd & Ln & En & Ec & _ & Ins & Num).
  assert (S0 : (length (members (population gd0)) <= N)%nat) by lia.
  assert (S1 : forall y, pairs_wanted None gd0 y -> (Z.to_nat (Z.max (num_individ (population gd0)) y) + 1 <= N)%nat).
  { intros y Py. unfold pairs_wanted in Py. rewrite En, Ec, Nt in Py. injection Py as <-. rewrite En. lia. }
  assert (S2 : forall r, rank (heap s0 r) = None /\ match idx_individ (heap s0 r) with Some i => 0 <= i < Z.of_nat N | None => True end).
  { intros r. destruct (Num r) as [R I]. split; auto. destruct (idx_individ (heap s0 r)); auto. lia. }
  destruct (C95_decided ok NL fuel c gd0 s0 Si Go St Rl Un SL Us z Sd Be Ins N S0 S1 S2) as [H|H]; unfold bound in H; [rewrite <- EL in H; left; exact H|right]. destruct (H last) as (c1 & gd1 & s1 & H1).
  rewrite EL in *. apply (C95_periodic ok NL fuel c gd0 s0 Si Go St Rl Un SL Us z Sd Be Ins N S0 S1 S2 _ _ _ H1).
Qed.

(** *** Concrete run: the one of C94 *)
(** 24 genotypes, 5 individuals, 3 children. *)
Example C95_space_case : space (GenCat [CRange 0 4 2; CList (ints [7; 8])]) = map ints [[0; 7]; [0; 8]; [2; 7]; [2; 8]; [4; 7]; [4; 8]] /\ length (space (GenCat pools)) = 24%nat /\
  length (space (@GenOrd Qops 1 4 3)) = 24%nat.
Proof. split; [run|split; run]. Qed.
Theorem C95_case : forall last, last = S (geom (24 * (7 * 6)) 6) ->
  exists gd0 s0 j p, stuck_start = Ok gd0 s0 /\ (1 <= j)%nat /\ (1 <= p)%nat /\ (j + p <= last)%nat /\
  forall i, exists c1 gd1 s1 gd2 s2, at_generation 50 parts gd0 s0 (j + i) c1 gd1 s1 /\ at_generation 50 parts gd0 s0 (j + p + i) c1 gd2 s2 /\ repeats gd1 s1 gd2 s2.
Proof.
  intros last EL. destruct C94_stuck as (gd0 & s0 & E & H). exists gd0, s0.
  assert (Eg : gspec_of (population gd0) = GenCat pools) by (pose proof (start_spec _ _ _ _ _ _ _ _ E) as Pg; cbn [prepare] in Pg; injection Pg as Pg; symmetry; exact Pg).
  assert (Si : single parts) by (repeat split).
  assert (Gs : good_scores (fun _ => True) (c_fitness parts)) by (apply good_scores_any; reflexivity).
  assert (SL : stateless (obj_function (c_fitness parts))) by (apply C62_meets).
  assert (Bo : binary_ok (gspec_of (population gd0))) by (rewrite Eg; exact I).
  assert (Be : belongs (c_crossover parts) (c_mutation parts) (gspec_of (population gd0))) by (rewrite Eg; constructor; discriminate).
  assert (EL2 : last = S (geom (length (space (gspec_of (population gd0))) * (7 * 6)) 6)) by (rewrite Eg, (proj1 (proj2 C95_space_case)); exact EL).
  destruct (C95_collector _ Qorder 50 parts 5 6 (GenCat pools) (6#10)%Q (Some 100) _ 7 gd0 s0 3 Si Gs I eq_refl SL E eq_refl world_unused eq_refl Bo Be eq_refl 6%nat last eq_refl EL2) as [(k & _ & X)|(j & p & X)].
  - destruct (H k) as (c1 & gd1 & s1 & H1 & _). destruct (X _ _ _ H1).
  - exists j, p. split; [exact E|exact X].
Qed.
Print Assumptions C95_repeats.
Print Assumptions C95_periodic.
Print Assumptions C95_never_fails.
Print Assumptions C95_enough.
Print Assumptions C95_decided.
Print Assumptions C95_collector.
Print Assumptions C95_case.
