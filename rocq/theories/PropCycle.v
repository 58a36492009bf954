(** C94: with a fixed seed, a run that comes back to a population it has had before goes
    round the same generations for ever. *)
From Coq Require Import String.
From Coq Require Import ZArith QArith List Bool Lia Permutation.
From Verif Require Import Spec Num State Binary Population GaData Crossover Mutation Selection Penalty Fitness NewGeneration Driver
  ListLemmas Rnd Exec Laws PopulationProofs FitnessProofs AssessProofs UpdateProofs StepProofs HistoryProofs RunProofs Runs SeedProofs RelProofs CycleProofs
  PropRun PropBest PropSeed PropInvariance PropResume Demo.
Import ListNotations.
Open Scope list_scope.
Open Scope Z_scope.

Section Cycle.
  Context {NO : NumOps}.

  (** The populations hold the same dicts in the same order, and where one of them holds
      one dict twice, so does the other. *)
  Record repeats (gd1 : gadata) (s1 : st) (gd2 : gadata) (s2 : st) : Prop := {
    rp_dicts : map (heap s1) (members (population gd1)) = map (heap s2) (members (population gd2));
    rp_shared : forall i j a a' b b', nth_error (members (population gd1)) i = Some a -> nth_error (members (population gd1)) j = Some a' ->
      nth_error (members (population gd2)) i = Some b -> nth_error (members (population gd2)) j = Some b' -> (a = a' <-> b = b') }.
  (** Without a dict held twice, the second condition is met. *)
  Lemma repeats_distinct : forall gd1 s1 gd2 s2, NoDup (members (population gd1)) -> NoDup (members (population gd2)) ->
    map (heap s1) (members (population gd1)) = map (heap s2) (members (population gd2)) -> repeats gd1 s1 gd2 s2.
  Proof.
    intros gd1 s1 gd2 s2 N1 N2 E. constructor; auto. intros i j a a' b b' Ia Ja Ib Jb. rewrite NoDup_nth_error in N1, N2. split; intros <-.
    - assert (i = j) by (apply N1; [apply nth_error_Some; congruence|congruence]). congruence.
    - assert (i = j) by (apply N2; [apply nth_error_Some; congruence|congruence]). congruence.
  Qed.
  (** The points evaluated between s1 and s3 are those evaluated between s2 and s4. *)
  Definition same_calls (s1 s3 s2 s4 : st) : Prop := exists cs ds, log s3 = cs ++ log s1 /\ log s4 = ds ++ log s2 /\ map fst cs = map fst ds.

  (** What every generation has. *)
  Record ready (ok : num -> Prop) (gd : gadata) (s : st) : Prop := {
    rd_inv : GI ok gd s; rd_best : has_best gd; rd_unused : unused s }.
  (** The same parameters, the same generator. *)
  Record alike (gd1 : gadata) (s1 : st) (gd2 : gadata) (s2 : st) : Prop := {
    al_num : num_individ (population gd1) = num_individ (population gd2); al_spec : gspec_of (population gd1) = gspec_of (population gd2);
    al_input : input_population (population gd1) = input_population (population gd2); al_percent : children_percent gd1 = children_percent gd2;
    al_seed : rnd_seed s1 = rnd_seed s2; al_prng : prng s1 = prng s2 }.
  Lemma alike_refl : forall gd s, alike gd s gd s.
  Proof. constructor; auto. Qed.
  Lemma alike_trans : forall a s b t d u, alike a s b t -> alike b t d u -> alike a s d u.
  Proof. intros a s b t d u [A1 A2 A3 A4 A5 A6] [B1 B2 B3 B4 B5 B6]. constructor; congruence. Qed.
  Lemma alike_sym : forall a s b t, alike a s b t -> alike b t a s.
  Proof. intros a s b t []. constructor; auto. Qed.
  Lemma alike_step : forall c gd s c' gd' s' kids els h cs l0 bst md w, Step c gd s c' gd' s' kids els h cs l0 bst md w -> alike gd s gd' s'.
  Proof.
    intros c gd s c' gd' s' kids els h cs l0 bst md w St. pose proof (st_pop _ _ _ _ _ _ _ _ _ _ _ _ _ _ St) as E. destruct (st_params _ _ _ _ _ _ _ _ _ _ _ _ _ _ St) as (_ & _ & Ep).
    destruct (st_seed _ _ _ _ _ _ _ _ _ _ _ _ _ _ St) as [Es Eg]. constructor; auto; rewrite E; reflexivity.
  Qed.

  (** GaData with this population and no records. *)
  Definition bare (p : pop) (cp : num) : gadata :=
    mkGD false 0 0 p [] [] [] [] [] [] (BSingle (set_score (SV1 (nofZ 0)) blank_individ) 0) 0 None cp.
  Lemma bare_pop : forall ok gd s, ready ok gd s -> same_pop gd (bare (population gd) (children_percent gd)).
  Proof.
    intros ok gd s [G B U]. constructor; cbn; auto; [split; [apply (gi_single _ _ _ G)|reflexivity]|]. split; auto. unfold has_best; cbn. eexists _, _, _. split; [reflexivity|]. reflexivity.
  Qed.

  Section Step.
    Context (ok : num -> Prop) (NL : NumOrder NO ok) (fuel : nat) (c : comps).
    Context (Single : single c) (Good : good_scores ok (c_fitness c)) (Plain : plain_selection (c_selection c))
      (Uncond : is_conditional (c_fitness c) = false) (Fun : stateless (obj_function (c_fitness c))).

    Lemma step_repeats : forall gd1 s1 gd2 s2 z c' gd1' s1', ready ok gd1 s1 -> ready ok gd2 s2 -> alike gd1 s1 gd2 s2 -> rnd_seed s1 = Some z ->
      repeats gd1 s1 gd2 s2 -> ga_step fuel c gd1 s1 = Ok (c', gd1') s1' ->
      exists gd2' s2', ga_step fuel c gd2 s2 = Ok (c', gd2') s2' /\ repeats gd1' s1' gd2' s2' /\ same_calls s1 s1' s2 s2' /\ has_best gd1' /\ has_best gd2'.
    Proof.
      intros gd1 s1 gd2 s2 z c' gd1' s1' A1 A2 [L1 L2 L3 L4 L5 L6] Z [D Sh] H. destruct Single as (Fk & Ng & Ho).
      set (b1 := bare (population gd1) (children_percent gd1)). set (b2 := bare (population gd2) (children_percent gd2)).
      set (t := set_tape (tape s1) (set_ent (ent s1) s2)).
      set (was := fun a b => exists i, nth_error (members (population gd1)) i = Some a /\ nth_error (members (population gd2)) i = Some b).
      assert (Ln : length (members (population gd1)) = length (members (population gd2))) by (rewrite <- (map_length (heap s1)), D, map_length; reflexivity).
      assert (W1 : forall a b a' b', was a b -> was a' b' -> (a = a' <-> b = b')) by (intros a b a' b' (i & Ia & Ib) (j & Ja & Jb); eapply Sh; eauto).
      assert (W2 : forall a b, was a b -> (a < next s1)%nat /\ (b < next s2)%nat).
      { intros a b (i & Ia & Ib). split; [apply (gi_alloc _ _ _ (rd_inv _ _ _ A1))|apply (gi_alloc _ _ _ (rd_inv _ _ _ A2))]; eapply nth_error_In; eauto. }
      assert (IR : forall i, irel same_num eq i i) by (intros i; constructor; auto; apply vrel_refl).
      assert (S0 : sim (next s1) (next s2) (log s1) (log s2) was same_num eq s1 t).
      { constructor; cbn; auto.
        - intros r r' [(i & Ia & Ib)|(i & -> & ->)].
          + assert (E : Some (heap s1 r) = Some (heap s2 r')); [|inversion E as [E0]; rewrite E0; apply IR].
            rewrite <- (map_nth_error (heap s1) _ _ Ia), <- (map_nth_error (heap s2) _ _ Ib), D. reflexivity.
          + rewrite (rd_unused _ _ _ A1), (rd_unused _ _ _ A2) by lia. apply IR.
        - exists 0%nat. lia.
        - exists [], []. auto. }
      assert (G0 : grel (next s1) (next s2) was same_num eq True b1 b2).
      { constructor; cbn; auto; try constructor.
        - cbn. clear - Ln. assert (X : forall l m : list nat, length l = length m -> (forall i a b, nth_error l i = Some a -> nth_error m i = Some b -> rr (next s1) (next s2) was a b) -> Forall2 (rr (next s1) (next s2) was) l m).
          { induction l as [|x l IH]; intros [|y m] E K; try discriminate; constructor; [apply (K 0%nat); reflexivity|]. apply IH; [injection E; auto|]. intros i a b Ha Hb. apply (K (S i)); auto. }
          apply X; auto. intros i a b Ha Hb. left. exists i. auto.
        - cbn. rewrite (gi_sorted _ _ _ (rd_inv _ _ _ A1)), (gi_sorted _ _ _ (rd_inv _ _ _ A2)). reflexivity.
        - auto.
        - auto.
        - auto.
        - apply IR. }
      assert (E1 : forall k a b x y, same_num k a x -> same_num k b y -> nltb a b = nltb x y) by (unfold same_num; congruence).
      assert (E2 : forall k a b x y, same_num k a x -> same_num k b y -> neqb a b = neqb x y) by (unfold same_num; congruence).
      assert (SS : same_scores same_num) by exact same_num_eq.
      assert (H1 : exists x, ga_step fuel c b1 s1 = Ok (c', x) s1' /\ same_pop gd1' x).
      { pose proof (tw_step fuel c gd1 b1 Fk Uncond Ng Plain (bare_pop _ _ _ A1) s1) as T. rewrite H in T. destruct (ga_step fuel c b1 s1) as [[cx x] sx|e|]; try contradiction.
        destruct T as (<- & E & P). cbn in E, P. subst cx. exists x. auto. }
      destruct H1 as (x1 & X1 & P1).
      assert (H2 : rel (next s1) (next s2) (log s1) (log s2) was same_num eq (cgrel (next s1) (next s2) was same_num eq True (c_fitness c) (c_fitness c)) (ga_step fuel c b1) (ga_step fuel c b2)).
      { apply rel_step; auto; [intros _; apply eq_eqb|intros _; apply eq_max| | |].
        - apply agree_same; auto.
        - intros _. split; auto. apply agree1_same; auto.
        - repeat split; auto. }
      specialize (H2 s1 t S0). rewrite X1 in H2. destruct (ga_step fuel c b2 t) as [[cx x2] t2|e|] eqn:X2; cbn in H2; try contradiction.
      destruct H2 as [[(C1 & C2 & _ & C4 & C5 & C6 & C7) G1] S1]. cbn [fst snd] in *.
      assert (cx = c') by (destruct cx, c'; cbn in *; congruence). subst cx.
      assert (H3 : exists y, ga_step fuel c gd2 t = Ok (c', y) t2 /\ same_pop y x2).
      { pose proof (tw_step fuel c gd2 b2 Fk Uncond Ng Plain (bare_pop _ _ _ A2) t) as T. rewrite X2 in T. destruct (ga_step fuel c gd2 t) as [[cx x] sx|e|]; try contradiction.
        destruct T as (-> & E & P). cbn in E, P. subst cx. exists x. auto. }
      destruct H3 as (gd2' & X3 & P3).
      pose proof (C59_generation fuel c gd2 t s2 z) as T. rewrite X3 in T.
      specialize (T ltac:(cbn; congruence) ltac:(constructor; reflexivity)). cbn in T.
      destruct (ga_step fuel c gd2 s2) as [[cx x] s2'|e|]; cbn in T; try contradiction. destruct T as [E T]. injection E as <- <-. exists gd2', s2'. split; auto.
      destruct G1 as [_ _ _ [Pm _ _ _ _] _ _ _ _ _ _ _ _ _ _]. rewrite <- (po_pop _ _ P1), <- (po_pop _ _ P3) in Pm.
      split; [|split; [|split; [apply (po_best _ _ P1)|apply (po_best _ _ P3)]]].
      - constructor.
        + rewrite <- (sr_heap _ _ T). clear - Pm S1. induction Pm as [|r r' l m Hr F IH]; cbn; auto. f_equal; auto. apply irel_same. apply S1, Hr.
        + intros i j a a' b b' Ia Ja Ib Jb. pose proof (F2_nth_error _ _ _ Pm i) as Ki. pose proof (F2_nth_error _ _ _ Pm j) as Kj. rewrite Ia, Ib in Ki. rewrite Ja, Jb in Kj.
          pose proof (rr_eqb _ _ was W1 W2 _ _ _ _ Ki Kj) as Q0. destruct (Nat.eqb_spec a a'), (Nat.eqb_spec b b'); try discriminate; tauto.
      - destruct (sm_log _ _ _ _ _ _ _ _ _ S1) as (cs & ds & Q1 & Q2 & Q3). exists cs, ds. rewrite <- (sr_log _ _ T). auto.
    Qed.
  End Step.

  (** *** The components do not change after the first generation *)
  Definition resolved (c : comps) : Prop := match c_mutation c with MutBin l => exists x, l = LFloat x | _ => True end.
  Lemma step_resolved : forall fuel c gd s c' gd' s', ga_step fuel c gd s = Ok (c', gd') s' -> resolved c' /\ (resolved c -> c' = c).
  Proof.
    intros fuel [f sel ck m ng] gd s c' gd' s' H. unfold ga_step in H. cbn [c_fitness c_mutation c_selection c_crossover c_newgen] in H.
    bd H gd1 s1 R1. bd H gd2 s2 R2. bd H m' s3 R3. bd H gd3 s4 R4. bd H u s5 R5. bd H gd4 s6 R6. apply ret_ok in H. destruct H as [H ->]. injection H as -> ->.
    assert (X : match m with MutBin l => exists x, m' = MutBin (LFloat x) /\ (forall y, l = LFloat y -> x = y) | _ => m' = m end).
    { clear - R3. unfold mutation_execute in R3. destruct m as [k lv|l|lv].
      - bd R3 v s4 R4. apply ret_ok in R3. apply R3.
      - destruct (gspec_of (population gd2)); try discriminate. bd R3 lv s4 R4. apply lift_ok in R4. destruct R4 as [R4 ->]. bd R3 v s5 R5. apply ret_ok in R3. destruct R3 as [-> _].
        exists lv. split; auto. intros y ->. cbn in R4. congruence.
      - destruct (gspec_of (population gd2)); bd R3 v s4 R4; apply ret_ok in R3; apply R3. }
    unfold resolved, set_mutation. cbn. destruct m as [k lv|l|lv]; [rewrite X; auto| |rewrite X; auto].
    destruct X as (x & -> & E). split; [eauto|]. intros (y & Ey). rewrite (E _ Ey), Ey. reflexivity.
  Qed.
  Lemma steps_settle : forall fuel c gd s k c' gd' s', steps fuel c gd s k c' gd' s' -> (1 <= k)%nat -> resolved c'.
  Proof. intros fuel c gd s k c' gd' s' S L. destruct S; [lia|]. eapply step_resolved; eauto. Qed.
  Lemma steps_plus : forall fuel c gd s n c' gd' s', steps fuel c gd s n c' gd' s' -> forall i, (i <= n)%nat ->
    exists c1 gd1 s1, steps fuel c gd s i c1 gd1 s1 /\ (resolved c1 -> c' = c1).
  Proof.
    intros fuel c gd s n c' gd' s' S. induction S as [|n c1 gd1 s1 c2 gd2 s2 S IH R]; intros i L.
    - assert (i = 0)%nat by lia. subst i. exists c, gd, s. split; [constructor|auto].
    - destruct (Nat.eq_dec i (Datatypes.S n)) as [->|N]; [exists c2, gd2, s2; split; [econstructor; eauto|auto]|].
      destruct (IH i ltac:(lia)) as (c0 & gd0 & s0 & S0 & E). exists c0, gd0, s0. split; auto. intros Rs. pose proof (E Rs) as ->.
      apply (proj2 (step_resolved _ _ _ _ _ _ _ R)). exact Rs.
  Qed.
  Lemma steps_det : forall fuel c gd s n c1 gd1 s1, steps fuel c gd s n c1 gd1 s1 -> forall c2 gd2 s2, steps fuel c gd s n c2 gd2 s2 -> c1 = c2 /\ gd1 = gd2 /\ s1 = s2.
  Proof.
    intros fuel c gd s n c1 gd1 s1 H. induction H as [|n c1 gd1 s1 c2 gd2 s2 H IH R]; intros c3 gd3 s3 K; inversion K as [|n' c4 gd4 s4 c5 gd5 s5 K1 K2]; subst; auto.
    destruct (IH _ _ _ K1) as (-> & -> & ->). rewrite R in K2. injection K2 as -> -> ->. auto.
  Qed.

  Section Run.
    Context (ok : num -> Prop) (NL : NumOrder NO ok) (fuel : nat) (c : comps) (gd0 : gadata) (s0 : st).
    Context (Single : single c) (Good : good_scores ok (c_fitness c)) (Start : started gd0 s0).
    (** Tournament, balanced or ranked selection; no conditions; an objective that depends
        on nothing but its argument; nothing stored beyond the individuals made so far; a
        fixed seed. *)
    Context (Plain : plain_selection (c_selection c)) (Uncond : is_conditional (c_fitness c) = false)
      (Fun : stateless (obj_function (c_fitness c))) (Clean : unused s0) (z : Z) (Seeded : rnd_seed s0 = Some z).
    Notation reach := (at_generation fuel c gd0 s0).

    Lemma reach_det : forall k c1 gd1 s1 c2 gd2 s2, reach k c1 gd1 s1 -> reach k c2 gd2 s2 -> c1 = c2 /\ gd1 = gd2 /\ s1 = s2.
    Proof.
      intros k c1 gd1 s1 c2 gd2 s2 (gd & s & F & S1) (gd' & s' & F' & S2). rewrite F in F'. injection F' as <- <-. eapply steps_det; eauto.
    Qed.
    Lemma reach_next : forall k c1 gd1 s1 c2 gd2 s2, reach k c1 gd1 s1 -> ga_step fuel c1 gd1 s1 = Ok (c2, gd2) s2 -> reach (S k) c2 gd2 s2.
    Proof. intros k c1 gd1 s1 c2 gd2 s2 (gd & s & F & S1) R. exists gd, s. split; auto. econstructor; eauto. Qed.
    Lemma reach_before : forall k i c2 gd2 s2, reach k c2 gd2 s2 -> (i <= k)%nat -> exists c1 gd1 s1, reach i c1 gd1 s1 /\ ((1 <= i)%nat -> c2 = c1).
    Proof.
      intros k i c2 gd2 s2 (gd & s & F & S) L. destruct (steps_plus _ _ _ _ _ _ _ _ S i L) as (c1 & gd1 & s1 & S1 & E). exists c1, gd1, s1. split; [exists gd, s; auto|].
      intros L1. apply E. eapply steps_settle; eauto.
    Qed.
    Lemma reach_pred : forall k c2 gd2 s2, reach (S k) c2 gd2 s2 -> exists c1 gd1 s1, reach k c1 gd1 s1 /\ ga_step fuel c1 gd1 s1 = Ok (c2, gd2) s2.
    Proof. intros k c2 gd2 s2 (gd & s & F & S). inversion S as [|k' c1 gd1 s1 c3 gd3 s3 S1 R]; subst. exists c1, gd1, s1. split; auto. exists gd, s. auto. Qed.

    Lemma reach_ready : forall k c' gd' s', reach k c' gd' s' -> ready ok gd' s' /\ alike gd0 s0 gd' s' /\ same_comps c c'.
    Proof.
      intros k c' gd' s' H. pose proof H as (gd & s & F & S).
      destruct (gen_inv ok NL fuel c gd0 s0 Single Good Start (fun _ gd s => alike gd0 s0 gd s)) with (k := k) (c' := c') (gd' := gd') (s' := s') as (G & C & A); auto.
      - intros gd1 s1 cs l0 bst md w Fi _. pose proof (fi_pop _ _ _ _ _ _ _ _ _ _ Fi) as E. destruct (fi_params _ _ _ _ _ _ _ _ _ _ Fi) as (_ & _ & Ep).
        pose proof (fi_quiet _ _ _ _ _ _ _ _ _ _ Fi) as Qu. unfold quiet in Qu. constructor; auto; try (rewrite E; reflexivity); intuition congruence.
      - intros c1 gd1 s1 c2 gd2 s2 kids els h cs l0 bst md w _ _ A St _. eapply alike_trans; [exact A|]. eapply alike_step; eauto.
      - split; [|auto]. constructor; auto.
        + destruct (C36_best_never_decreases ok NL fuel c gd0 s0 Single Good Start _ _ _ _ H) as (xs & y & i & g & x & _ & _ & _ & B & Sx & _). exists i, g, x. auto.
        + clear - S F NL Good Single Plain Clean Start. destruct Single as (Fk & Ng & Ho). pose proof (started_init _ _ Start) as [Im Iu Ind Ia If0 Ig Ih].
          induction S as [|k c1 gd1 s1 c2 gd2 s2 S IH R].
          * eapply first_unused; eauto.
          * assert (A1 : reach k c1 gd1 s1) by (exists gd, s; auto).
            destruct (gen_inv ok NL fuel c gd0 s0 (conj Fk (conj Ng Ho)) Good Start (fun _ _ _ => True)) with (k := k) (c' := c1) (gd' := gd1) (s' := s1) as (G1 & (E1 & E2 & E3 & E4) & _); auto.
            apply (step_unused ok fuel c1 gd1 s1 c2 gd2 s2); [exact NL|rewrite E1; exact Good|congruence|congruence|rewrite E2; exact Plain|exact G1|exact R|exact IH].
    Qed.

    (** The last recorded score is the score of the last member; the records only grow. *)
    Lemma reach_best : forall k c' gd' s', reach k c' gd' s' -> best_inv ok c' gd' s' /\ length (hist_best gd') = S k.
    Proof.
      intros k c' gd' s' H. destruct (C36_best_never_decreases ok NL fuel c gd0 s0 Single Good Start _ _ _ _ H) as (xs & y & _ & _ & _ & Eh & Lh & _).
      split; [|rewrite Eh, map_length; exact Lh].
      destruct (gen_inv ok NL fuel c gd0 s0 Single Good Start (best_inv ok)) with (k := k) (c' := c') (gd' := gd') (s' := s') as (_ & _ & B); auto.
      - intros gd s cs l0 bst md w F G. eapply best_inv_first; eauto.
      - intros c1 gd1 s1 c2 gd2 s2 kids els h cs l0 bst md w _ G1 B1 St G2. apply (best_inv_step ok NL _ _ _ _ _ _ _ _ _ _ _ _ _ _ G1 B1 St G2).
    Qed.
    Lemma reach_step : forall k c3 gd3 s3 c5 gd5 s5, reach k c3 gd3 s3 -> ga_step fuel c3 gd3 s3 = Ok (c5, gd5) s5 ->
      exists l b, members (population gd5) = l ++ [b] /\ hist_best gd5 = hist_best gd3 ++ [score (heap s5 b)] /\ (best_solution gd5, no_improve gd5) = best_after gd3 (heap s5 b) /\
        exists cs, log s5 = cs ++ log s3.
    Proof.
      intros k c3 gd3 s3 c5 gd5 s5 H3 R. destruct (reach_ready _ _ _ _ H3) as ([G3 _ _] & _ & (E1 & E2 & E3 & E4)). destruct Single as (Fk & Ng & Ho).
      destruct (step_ok ok fuel c3 gd3 s3 c5 gd5 s5) as (kids & els & h & cs & l0 & bst & md & w & St & _);
        [exact NL|rewrite E1; exact Good|congruence|congruence|rewrite E2; exact Ho|exact G3|exact R|].
      exists l0, bst. split; [apply (st_members _ _ _ _ _ _ _ _ _ _ _ _ _ _ St)|]. split; [apply (st_hist _ _ _ _ _ _ _ _ _ _ _ _ _ _ St)|]. split; [apply (st_best _ _ _ _ _ _ _ _ _ _ _ _ _ _ St)|].
      exists (rev cs). apply (st_log _ _ _ _ _ _ _ _ _ _ _ _ _ _ St).
    Qed.
    Lemma reach_grows : forall n k c' gd' s' c3 gd3 s3, reach k c' gd' s' -> reach n c3 gd3 s3 -> (k <= n)%nat ->
      (exists l, log s3 = l ++ log s') /\ (exists l, hist_best gd3 = hist_best gd' ++ l).
    Proof.
      induction n as [|n IH]; intros k c' gd' s' c3 gd3 s3 H H3 Ln.
      - assert (k = 0)%nat by lia. subst k. destruct (reach_det _ _ _ _ _ _ _ H H3) as (_ & -> & ->). split; exists []; rewrite ?app_nil_r; auto.
      - destruct (Nat.eq_dec k (S n)) as [->|N]; [destruct (reach_det _ _ _ _ _ _ _ H H3) as (_ & -> & ->); split; exists []; rewrite ?app_nil_r; auto|].
        destruct (reach_pred _ _ _ _ H3) as (c4 & gd4 & s4 & H4 & R). destruct (IH _ _ _ _ _ _ _ H H4 ltac:(lia)) as [(l & El) (h & Eh)].
        destruct (reach_step _ _ _ _ _ _ _ H4 R) as (l0 & b & _ & Hh & _ & (cs & Hl)). rewrite Hh, Hl, El, Eh. split; [exists (cs ++ l)|exists (h ++ [score (heap s3 b)])]; rewrite app_assoc; reflexivity.
    Qed.

    (** One more generation after a repetition. *)
    Lemma reach_repeats : forall c1 i j gd1 s1 gd2 s2 c' gd1' s1', reach i c1 gd1 s1 -> reach j c1 gd2 s2 -> repeats gd1 s1 gd2 s2 -> ga_step fuel c1 gd1 s1 = Ok (c', gd1') s1' ->
      exists gd2' s2', ga_step fuel c1 gd2 s2 = Ok (c', gd2') s2' /\ repeats gd1' s1' gd2' s2' /\ same_calls s1 s1' s2 s2'.
    Proof.
      intros c1 i j gd1 s1 gd2 s2 c' gd1' s1' H1 H2 Rp St. destruct (reach_ready _ _ _ _ H1) as (A1 & L1 & (E1 & E2 & E3 & E4)). destruct (reach_ready _ _ _ _ H2) as (A2 & L2 & _).
      destruct Single as (Fk & Ng & Ho).
      destruct (step_repeats ok fuel c1) with (gd1 := gd1) (s1 := s1) (gd2 := gd2) (s2 := s2) (z := z) (c' := c') (gd1' := gd1') (s1' := s1') as (gd2' & s2' & X1 & X2 & X3 & _); auto.
      - split; [congruence|split; [congruence|rewrite E2; auto]].
      - rewrite E2. auto.
      - rewrite E1. auto.
      - rewrite E1. auto.
      - eapply alike_trans; [apply alike_sym; exact L1|exact L2].
      - rewrite <- (al_seed _ _ _ _ L1). auto.
      - exists gd2', s2'. auto.
    Qed.

    Section Round.
      Context (j p : nat) (c1 : comps) (gd1 : gadata) (s1 : st) (c2 : comps) (gd2 : gadata) (s2 : st).
      Context (Later : (1 <= j)%nat) (At1 : reach j c1 gd1 s1) (At2 : reach (j + p) c2 gd2 s2) (Rep : repeats gd1 s1 gd2 s2).

      (** C94.  If generation j + p has the population of generation j, then generation
          j + p + i has the population of generation j + i, for every i, and the same points
          are evaluated on the way. *)
      Theorem C94_cycle : forall i c3 gd3 s3, reach (j + i) c3 gd3 s3 ->
        exists gd4 s4, reach (j + p + i) c3 gd4 s4 /\ repeats gd3 s3 gd4 s4 /\ same_calls s1 s3 s2 s4.
      Proof.
        assert (E12 : c2 = c1).
        { destruct (reach_before _ j _ _ _ At2 ltac:(lia)) as (c0 & gd & s & H & E). destruct (reach_det _ _ _ _ _ _ _ H At1) as (-> & _). auto. }
        induction i as [|i IH]; intros c3 gd3 s3 H.
        - rewrite Nat.add_0_r in *. destruct (reach_det _ _ _ _ _ _ _ H At1) as (-> & -> & ->). rewrite <- E12. exists gd2, s2. split; [auto|]. split; auto. exists [], []. auto.
        - rewrite <- !plus_n_Sm in *. destruct (reach_pred _ _ _ _ H) as (c5 & gd5 & s5 & H5 & R). destruct (IH _ _ _ H5) as (gd6 & s6 & H6 & Rp & (cs & ds & Q1 & Q2 & Q3)).
          destruct (reach_repeats _ _ _ _ _ _ _ _ _ _ H5 H6 Rp R) as (gd4 & s4 & R4 & Rp4 & (cs' & ds' & Q4 & Q5 & Q6)). exists gd4, s4. split; [eapply reach_next; eauto|]. split; auto.
          exists (cs' ++ cs), (ds' ++ ds). rewrite Q4, Q5, Q1, Q2, !app_assoc, !map_app, Q3, Q6. auto.
      Qed.
      (** Every generation is reached: no exception is raised, no loop runs for ever. *)
      Theorem C94_never_ends : (1 <= p)%nat -> forall k, exists c' gd' s', reach k c' gd' s'.
      Proof.
        intros Lp k. induction k as [k IH] using (well_founded_induction lt_wf). destruct (le_lt_dec k (j + p)) as [L|L].
        - destruct (reach_before _ k _ _ _ At2 L) as (c' & gd' & s' & H & _). eauto.
        - destruct (IH (j + (k - j - p))%nat ltac:(lia)) as (c' & gd' & s' & H). destruct (C94_cycle _ _ _ _ H) as (gd4 & s4 & H4 & _).
          replace (j + p + (k - j - p))%nat with k in H4 by lia. eauto.
      Qed.
      (** Whatever the number of generations, no point is evaluated that was not evaluated in
          generations 0 to j + p. *)
      Theorem C94_no_new_points : (1 <= p)%nat -> forall k c' gd' s', reach k c' gd' s' -> incl (map fst (log s')) (map fst (log s2)).
      Proof.
        intros Lp k. induction k as [k IH] using (well_founded_induction lt_wf). intros c' gd' s' H. destruct (le_lt_dec k (j + p)) as [L|L].
        - destruct (reach_grows _ _ _ _ _ _ _ _ H At2 L) as [(l & ->) _]. rewrite map_app. apply incl_appr, incl_refl.
        - destruct (C94_never_ends Lp (j + (k - j - p))%nat) as (c3 & gd3 & s3 & H3). destruct (C94_cycle _ _ _ _ H3) as (gd4 & s4 & H4 & _ & (cs & ds & Q1 & Q2 & Q3)).
          replace (j + p + (k - j - p))%nat with k in H4 by lia. destruct (reach_det _ _ _ _ _ _ _ H H4) as (_ & _ & ->). rewrite Q2, map_app, <- Q3. apply incl_app; [|apply incl_refl].
          apply incl_tran with (m := map fst (log s3)); [rewrite Q1, map_app; apply incl_appl, incl_refl|]. eapply (IH (j + (k - j - p))%nat); [lia|exact H3].
      Qed.
      (** From generation j on nothing is improved: best_solution stays, the counter of
          generations without improvement grows by one per generation. *)
      Theorem C94_no_improvement : (1 <= p)%nat -> forall i c3 gd3 s3, reach (j + i) c3 gd3 s3 ->
        best_solution gd3 = best_solution gd1 /\ no_improve gd3 = no_improve gd1 + Z.of_nat i.
      Proof.
        intros Lp. induction i as [|i IH]; intros c5 gd5 s5 H5.
        - rewrite Nat.add_0_r in H5. destruct (reach_det _ _ _ _ _ _ _ H5 At1) as (_ & -> & _). split; auto. lia.
        - rewrite <- plus_n_Sm in H5. destruct (reach_pred _ _ _ _ H5) as (c3 & gd3 & s3 & H3 & R). destruct (IH _ _ _ H3) as [IH1 IH2].
          destruct (C94_cycle _ _ _ _ H3) as (gd4 & s4 & H4 & [Rd _] & _). destruct (reach_step _ _ _ _ _ _ _ H3 R) as (l5 & b5 & M5 & Hh5 & Bs & _).
          destruct (reach_best _ _ _ _ H3) as [(xs & y & b & g & x & l0 & r & Eh & Fo & So & Eb & Ei & Ox & Exy & Em & Sb) Ln].
          destruct (reach_best _ _ _ _ H4) as [(xs4 & y4 & b4 & g4 & x4 & l4 & r4 & Eh4 & Fo4 & So4 & _ & _ & _ & _ & Em4 & Sb4) Ln4].
          assert (y4 = y).
          { rewrite Em, Em4, !map_app in Rd. apply app_inj_tail in Rd. destruct Rd as [_ Rd]. rewrite Rd in Sb. congruence. }
          subst y4.
          assert (exists v, score (heap s5 b5) = SV1 v /\ ok v /\ nltb y v = false) as (v & Ev & Ov & Nv).
          { destruct (reach_grows _ _ _ _ _ _ _ _ H5 H4 ltac:(lia)) as [_ (h & Hh)]. rewrite Hh5, Eh4 in Hh. rewrite <- app_assoc in Hh.
            assert (N1 : nth_error (map SV1 (xs4 ++ [y])) (S (j + i)) = Some (score (heap s5 b5))).
            { rewrite Hh, nth_error_app2, Ln, Nat.sub_diag; [reflexivity|lia]. }
            rewrite nth_error_map in N1. destruct (nth_error (xs4 ++ [y]) (S (j + i))) as [v|] eqn:Nv; [|discriminate]. cbn in N1. injection N1 as N1. exists v. split; auto.
            split; [rewrite Forall_forall in Fo4; apply Fo4; eapply nth_error_In; eauto|].
            assert (L4 : length (xs4 ++ [y]) = S (j + p + i)) by (rewrite <- Ln4, Eh4, map_length; reflexivity).
            refine (sorted_never_decreases ok _ NL Fo4 So4 (S (j + i)) (j + p + i)%nat v y _ Nv _); [lia|].
            rewrite app_length in L4. cbn in L4. rewrite nth_error_app2 by lia. replace (j + p + i - length xs4)%nat with 0%nat by lia. reflexivity. }
          assert (Oy : ok y) by (rewrite Forall_forall in Fo; apply Fo; apply in_or_app; right; left; auto).
          assert (nltb x v = false) as Lx by (eapply (no_negtrans _ _ NL x y v); auto; apply (no_eq _ _ NL x y) in Exy; tauto).
          unfold best_after in Bs. rewrite Eb, Ei, Ev in Bs. unfold sv_lt, sv_ltb in Bs. rewrite Lx in Bs. injection Bs as B1 B2. rewrite B1, B2, <- IH1, Eb. split; auto. lia.
      Qed.
    End Round.
  End Run.
End Cycle.

(** *** Concrete runs *)
(** CategoricalGA's components (tournaments of two, uniform crossover, every gene changed
    with probability 1/2), five individuals, seed 7. *)
Notation stuck_start := (collector_set_population false 5 6 (GenCat pools) [] (6#10)%Q (Some 100) (seeded_world (Some 7) [] (fun _ => 0) mixed)).
Definition view_of (o : outcome gadata) :=
  match o with
  | Ok gd0 s0 =>
    match first_generation (c_fitness parts) gd0 s0 with
    | Ok gd s =>
      match ga_step 50 parts gd s with
      | Ok (c1, gd1) s1 =>
        match ga_step 50 c1 gd1 s1 with
        | Ok (c2, gd2) s2 =>
          match ga_step 50 c2 gd2 s2 with
          | Ok (c3, gd3) s3 => Some (map (heap s2) (members (population gd2)), map (heap s3) (members (population gd3)), members (population gd2), members (population gd3),
                                     map fst (log s3), best_solution gd2)
          | _ => None
          end
        | _ => None
        end
      | _ => None
      end
    | _ => None
    end
  | _ => None
  end.
Definition dict (g : list Z) (v : Z) (i : option Z) : individ := mkInd (ints g) None (q (inject_Z (- v))) (q (inject_Z v)) true i None.
Definition stuck_population : list individ :=
  [dict [2; 7; 1] 50 None; dict [0; 5; 2] 35 None; dict [2; 5; 2] 27 None; dict [2; 5; 2] 27 (Some 3); dict [0; 0; 2] 10 (Some 4); dict [1; 0; 2] 5 (Some 5)].
Definition stuck_points : list (list gv) :=
  map ints [[2; 7; 1]; [0; 5; 2]; [2; 5; 2]; [2; 7; 1]; [0; 5; 2]; [2; 5; 2]; [2; 7; 1]; [2; 5; 2]; [1; 0; 2]; [0; 5; 2]; [2; 7; 2]; [2; 5; 2]; [0; 0; 2]; [0; 7; 2]].
(** The third generation makes the population of the second again, from new children. *)
Example C94_case : view_of stuck_start =
  Some (stuck_population, stuck_population, [22; 21; 20; 2; 1; 11]%nat, [31; 30; 29; 2; 1; 11]%nat, stuck_points, BSingle (dict [1; 0; 2] 5 None) 1).
Proof. run. Qed.
(** The hypotheses of the theorems hold of this run. *)
Lemma view_meets : forall o d2 d3 m2 m3 ps b, view_of o = Some (d2, d3, m2, m3, ps, b) -> exists gd0 s0 c2 gd2 s2 c3 gd3 s3, o = Ok gd0 s0 /\
  at_generation 50 parts gd0 s0 2 c2 gd2 s2 /\ at_generation 50 parts gd0 s0 (2 + 1) c3 gd3 s3 /\
  map (heap s2) (members (population gd2)) = d2 /\ map (heap s3) (members (population gd3)) = d3 /\ members (population gd2) = m2 /\ members (population gd3) = m3 /\
  map fst (log s3) = ps /\ best_solution gd2 = b.
Proof.
  intros o d2 d3 m2 m3 ps b E. unfold view_of in E. destruct o as [gd0 s0| |]; try discriminate E.
  destruct (first_generation (c_fitness parts) gd0 s0) as [gd s| |] eqn:E1; try discriminate E.
  destruct (ga_step 50 parts gd s) as [[c1 gd1] s1| |] eqn:E2; try discriminate E.
  destruct (ga_step 50 c1 gd1 s1) as [[c2 gd2] s2| |] eqn:E3; try discriminate E.
  destruct (ga_step 50 c2 gd2 s2) as [[c3 gd3] s3| |] eqn:E4; try discriminate E.
  injection E as P2 P3 M2 M3 L B.
  assert (S1 : steps 50 parts gd s 1 c1 gd1 s1) by (eapply steps_S; [apply steps_0|exact E2]).
  assert (S2 : steps 50 parts gd s 2 c2 gd2 s2) by (eapply steps_S; [exact S1|exact E3]).
  exists gd0, s0, c2, gd2, s2, c3, gd3, s3. split; [reflexivity|]. split; [exists gd, s; split; [exact E1|exact S2]|].
  split; [exists gd, s; split; [exact E1|eapply steps_S; [exact S2|exact E4]]|]. auto 10.
Qed.
Lemma start_meets : forall {NO : NumOps} n ng g cp es s z gd0 s0, collector_set_population false n ng g [] cp es s = Ok gd0 s0 -> rnd_seed s = Some z -> unused s ->
  started gd0 s0 /\ unused s0 /\ rnd_seed s0 = Some z.
Proof.
  intros NO n ng g cp es s z gd0 s0 E0 Z U. unfold collector_set_population in E0. bd E0 u sa D. bd E0 p sb Lf. apply lift_ok in Lf. destruct Lf as [Sp ->]. bd E0 p' sc Fi. apply ret_ok in E0. destruct E0 as [-> ->].
  assert (X : unused sa /\ rnd_seed sa = Some z) by (unfold do_seed in D; rewrite Z in D; injection D as _ <-; auto). destruct X as [X1 X2].
  split; [eexists _, _, _, p, _, p', _, _, _; split; [exact Sp|split; [exact Fi|reflexivity]]|].
  split; [eapply fill_unused; [exact Fi|exact X1]|].
  apply fill_ok in Fi; destruct Fi as (g' & _ & K); cbv zeta in K; destruct K as (_ & _ & (_ & _ & K & _) & _); rewrite K; exact X2.
Qed.
Lemma world_unused : unused (seeded_world (Some 7) [] (fun _ => 0) mixed).
Proof. intros [|r] _; reflexivity. Qed.
(** So this run stays for ever at (1, 0, 2), whose value is 5, evaluating the same three
    children in every generation, and never evaluates (3, 0, 1), whose value is 0. *)
Theorem C94_stuck : exists gd0 s0, stuck_start = Ok gd0 s0 /\ forall k, exists c' gd' s', at_generation 50 parts gd0 s0 k c' gd' s' /\
  ~ In (ints [3; 0; 1]) (map fst (log s')) /\ ((2 <= k)%nat -> best_solution gd' = BSingle (dict [1; 0; 2] 5 None) 1 /\ no_improve gd' = Z.of_nat k - 1).
Proof.
  destruct (view_meets _ _ _ _ _ _ _ C94_case) as (gd0 & s0 & c2 & gd2 & s2 & c3 & gd3 & s3 & E & A2 & A3 & D2 & D3 & M2 & M3 & L & B).
  exists gd0, s0. split; [exact E|]. destruct (start_meets _ _ _ _ _ _ _ _ _ E eq_refl world_unused) as (St & Un & Sd).
  assert (Rp : repeats gd2 s2 gd3 s3).
  { apply repeats_distinct; [rewrite M2|rewrite M3|rewrite D2, D3; reflexivity]; clear; repeat constructor; cbn; intuition discriminate. }
  assert (Si : single parts) by (repeat split).
  assert (Gs : good_scores (fun _ => True) (c_fitness parts)) by (apply good_scores_any; reflexivity).
  assert (SL : stateless (obj_function (c_fitness parts))) by (apply C62_meets).
  intros k.
  destruct (C94_never_ends _ Qorder 50 parts gd0 s0 Si Gs St I eq_refl SL Un 7 Sd 2 1 c2 gd2 s2 c3 gd3 s3 ltac:(lia) A2 A3 Rp ltac:(lia) k) as (c' & gd' & s' & A).
  exists c', gd', s'. split; [exact A|]. split.
  - intros Hin. apply (C94_no_new_points _ Qorder 50 parts gd0 s0 Si Gs St I eq_refl SL Un 7 Sd 2 1 c2 gd2 s2 c3 gd3 s3 ltac:(lia) A2 A3 Rp ltac:(lia) k _ _ _ A) in Hin.
    rewrite L in Hin. clear - Hin. cbn in Hin. repeat destruct Hin as [Hin|Hin]; try discriminate Hin. exact Hin.
  - intros Lk. replace k with (2 + (k - 2))%nat in A by lia.
    destruct (C94_no_improvement _ Qorder 50 parts gd0 s0 Si Gs St I eq_refl SL Un 7 Sd 2 1 c2 gd2 s2 c3 gd3 s3 ltac:(lia) A2 A3 Rp ltac:(lia) _ _ _ _ A) as [-> N].
    split; [exact B|].
    destruct (C38_run _ Qorder 50 parts gd0 s0 Si Gs St _ _ _ _ A2) as (xs & i & g & x & _ & _ & _ & _ & _ & Bg & Ng & _). rewrite B in Bg. injection Bg as _ Bg. lia.
Qed.
Print Assumptions C94_cycle.
Print Assumptions C94_never_ends.
Print Assumptions C94_no_new_points.
Print Assumptions C94_no_improvement.
Print Assumptions C94_stuck.
