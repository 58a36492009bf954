(** Whole single-objective runs: C36, C38, C39, C40, C43. *)
From Coq Require Import String.
From Coq Require Import ZArith QArith List Bool Lia Permutation Sorted.
From Verif Require Import Spec Num State Binary Population GaData Crossover Mutation Selection Penalty Fitness NewGeneration Driver
  ListLemmas Rnd Exec Laws PopulationProofs CrossoverProofs MutationProofs SelectionProofs VegaProofs
  NewGenProofs UpdateProofs FitnessProofs StepProofs RunProofs HistoryProofs Runs Demo.
Import ListNotations.
Open Scope list_scope.
Open Scope Z_scope.

(** Earlier entries are never larger than later ones. *)
Definition never_decreases {NO : NumOps} (xs : list num) : Prop :=
  forall i j a b, (i <= j)%nat -> nth_error xs i = Some a -> nth_error xs j = Some b -> nltb b a = false.
(** The largest entry of [xs] occurs first [m] entries before the end. *)
Definition stagnant {NO : NumOps} (xs : list num) (m : Z) : Prop :=
  exists g x, nth_error xs g = Some x /\ Z.of_nat (length xs) = Z.of_nat g + 1 + m /\
    forall j y, nth_error xs j = Some y -> nltb x y = false /\ ((j < g)%nat -> nltb y x = true).

Section Facts.
  Context {NO : NumOps}.
  Lemma sorted_never_decreases : forall ok xs, NumOrder NO ok -> Forall ok xs -> StronglySorted not_below xs -> never_decreases xs.
  Proof.
    intros ok xs NL F H. induction H as [|x xs H IH Fx]; intros i j a b Hij Ha Hb; [destruct i; discriminate|]. inversion F; subst.
    destruct i as [|i], j as [|j]; cbn [nth_error] in Ha, Hb; [| |lia|].
    - inversion Ha; subst. inversion Hb; subst. apply (no_irrefl _ _ NL); auto.
    - inversion Ha; subst. rewrite Forall_forall in Fx. apply Fx. eapply nth_error_In; eauto.
    - refine (IH _ i j a b _ Ha Hb); [auto|lia].
  Qed.
  Lemma stagnant_unique : forall xs m m', stagnant xs m -> stagnant xs m' -> m = m'.
  Proof.
    intros xs m m' (g & x & Hg & L & K) (g' & x' & Hg' & L' & K').
    destruct (lt_eq_lt_dec g g') as [[C|C]|C]; [|subst; lia|].
    - destruct (K' _ _ Hg) as [_ A]. destruct (K _ _ Hg') as [B _]. rewrite A in B by auto. discriminate.
    - destruct (K _ _ Hg') as [_ A]. destruct (K' _ _ Hg) as [B _]. rewrite A in B by auto. discriminate.
  Qed.
  Lemma map_SV1_inj : forall xs ys : list num, map SV1 xs = map SV1 ys -> xs = ys.
  Proof. induction xs as [|x xs IH]; destruct ys as [|y ys]; intros H; try discriminate; auto. inversion H. f_equal; auto. Qed.
  Lemma steps_det : forall fuel c gd s k c1 gd1 s1, steps fuel c gd s k c1 gd1 s1 ->
    forall c2 gd2 s2, steps fuel c gd s k c2 gd2 s2 -> c1 = c2 /\ gd1 = gd2 /\ s1 = s2.
  Proof.
    intros fuel c gd s k c1 gd1 s1 H. induction H as [|k c1 gd1 s1 c2 gd2 s2 S IH R]; intros ca ga sa T.
    - inversion T; subst. auto.
    - inversion T as [|k' cb gb sb cc gc sc S' R']; subst. destruct (IH _ _ _ S') as (-> & -> & ->). rewrite R in R'. inversion R'. auto.
  Qed.
  Lemma steps_prefix : forall fuel c gd s k c1 gd1 s1, steps fuel c gd s k c1 gd1 s1 -> forall j, (j <= k)%nat ->
    exists c2 gd2 s2, steps fuel c gd s j c2 gd2 s2 /\ steps fuel c2 gd2 s2 (k - j) c1 gd1 s1.
  Proof.
    intros fuel c gd s k c1 gd1 s1 H. induction H as [|k c1 gd1 s1 c2 gd2 s2 S IH R]; intros j Hj.
    - assert (j = 0%nat) by lia. subst j. exists c, gd, s. split; constructor.
    - destruct (Nat.eq_dec j (Datatypes.S k)) as [->|Hn].
      + exists c2, gd2, s2. split; [econstructor; eauto|]. rewrite Nat.sub_diag. constructor.
      + destruct (IH j) as (ca & ga & sa & S1 & S2); [lia|]. exists ca, ga, sa. split; auto.
        replace (Datatypes.S k - j)%nat with (Datatypes.S (k - j)) by lia. econstructor; eauto.
  Qed.
  Lemma assessed_points : forall f g gen best h h' k us cs n, assessed f g gen best h h' k us cs ->
    (forall r, In r us -> (r < n)%nat /\ decoded g (h r)) ->
    Forall2 (fun r cv => (r < n)%nat /\ spec_point g (genotype (h' r)) (fst cv)) us cs.
  Proof.
    intros f g gen best h h' k us cs n A. induction A as [|k r us v cs Cv As A IH]; intros H; constructor.
    - destruct (H r) as [H1 H2]; [left; auto|]. split; auto. apply assess_keeps in As. destruct As as (E & _). cbn [fst]. rewrite E. apply decoded_point; auto.
    - apply IH. intros; apply H; right; auto.
  Qed.
  Lemma nodup_app_disjoint : forall (l l' : list nat), NoDup l -> NoDup l' -> (forall x, In x l -> In x l' -> False) -> NoDup (l ++ l').
  Proof.
    intros l l' H. induction H as [|x l Hx H IH]; intros H' D; cbn; auto. constructor; [|apply IH; auto; intros y Hy; apply (D y); right; auto].
    rewrite in_app_iff. intros [C|C]; [auto|]. apply (D x); [left; auto|auto].
  Qed.
End Facts.

Section Run.
  Context {NO : NumOps} (ok : num -> Prop) (NL : NumOrder NO ok).
  Context (fuel : nat) (c : comps) (gd0 : gadata) (s0 : st).
  (** A single-objective algorithm with any selection, crossover, mutation and
      transfer strategy, whose scores are comparable numbers (any objective, target
      and penalty in exact arithmetic; see [good_scores]). *)
  Context (Single : single c) (Good : good_scores ok (c_fitness c)) (Start : started gd0 s0).

  Lemma gen_inv : forall (Inv : comps -> gadata -> st -> Prop),
    (forall gd s cs l0 bst md w, First (c_fitness c) gd0 s0 gd s cs l0 bst md w -> GI ok gd s -> Inv c gd s) ->
    (forall c1 gd1 s1 c2 gd2 s2 kids els h cs l0 bst md w, same_comps c c1 -> GI ok gd1 s1 -> Inv c1 gd1 s1 ->
       Step c1 gd1 s1 c2 gd2 s2 kids els h cs l0 bst md w -> GI ok gd2 s2 -> Inv c2 gd2 s2) ->
    forall k c' gd' s', at_generation fuel c gd0 s0 k c' gd' s' -> GI ok gd' s' /\ same_comps c c' /\ Inv c' gd' s'.
  Proof.
    intros Inv Hb HI k c' gd' s' (gd & s & F & S).
    eapply (run_inv ok NL fuel Inv c gd0 s0 gd s Single Good (started_init _ _ Start) F); eauto.
  Qed.

  Lemma first_params : forall f gd s gd' s' cs l0 bst md w, First f gd s gd' s' cs l0 bst md w ->
    num_individ (population gd') = num_individ (population gd) /\ gspec_of (population gd') = gspec_of (population gd).
  Proof. intros f gd s gd' s' cs l0 bst md w F. rewrite (fi_pop _ _ _ _ _ _ _ _ _ _ F). auto. Qed.
  Lemma step_params : forall c1 gd1 s1 c2 gd2 s2 kids els h cs l0 bst md w, Step c1 gd1 s1 c2 gd2 s2 kids els h cs l0 bst md w ->
    num_individ (population gd2) = num_individ (population gd1) /\ gspec_of (population gd2) = gspec_of (population gd1).
  Proof. intros c1 gd1 s1 c2 gd2 s2 kids els h cs l0 bst md w F. rewrite (st_pop _ _ _ _ _ _ _ _ _ _ _ _ _ _ F). auto. Qed.
  (** The parameters never change. *)
  Definition params_inv (c' : comps) (gd : gadata) (s : st) : Prop :=
    num_generations gd = num_generations gd0 /\ early_stop gd = early_stop gd0 /\ children_percent gd = children_percent gd0 /\
    num_individ (population gd) = num_individ (population gd0) /\ gspec_of (population gd) = gspec_of (population gd0).
  Lemma params_kept : forall k c' gd' s', at_generation fuel c gd0 s0 k c' gd' s' -> params_inv c' gd' s'.
  Proof.
    intros k c' gd' s' H. refine (proj2 (proj2 (gen_inv params_inv _ _ k c' gd' s' H))); clear.
    - intros gd s cs l0 bst md w F _. destruct (first_params _ _ _ _ _ _ _ _ _ _ F). destruct (fi_params _ _ _ _ _ _ _ _ _ _ F) as (? & ? & ?).
      unfold params_inv. auto.
    - intros c1 gd1 s1 c2 gd2 s2 kids els h cs l0 bst md w _ _ (A1 & A2 & A3 & A4 & A5) St _. destruct (step_params _ _ _ _ _ _ _ _ _ _ _ _ _ _ St).
      destruct (st_params _ _ _ _ _ _ _ _ _ _ _ _ _ _ St) as (? & ? & ?). unfold params_inv. intuition congruence.
  Qed.
  Lemma gen_number : forall k c' gd' s', at_generation fuel c gd0 s0 k c' gd' s' -> idx_generation gd' = Z.of_nat k + 1.
  Proof.
    intros k c' gd' s' (gd & s & F & S). revert c' gd' s' S. induction k as [|k IH]; intros c' gd' s' S.
    - inversion S; subst. destruct (first_ok ok _ _ _ _ _ NL Good (proj1 Single) (started_init _ _ Start) F) as (cs & l0 & bst & md & w & F1 & _).
      rewrite (fi_gen _ _ _ _ _ _ _ _ _ _ F1). reflexivity.
    - inversion S as [|k' c1 gd1 s1 c2 gd2 s2 S1 R]; subst. pose proof (IH _ _ _ S1) as E.
      assert (A1 : at_generation fuel c gd0 s0 k c1 gd1 s1) by (exists gd, s; auto).
      destruct (gen_inv (fun _ _ _ => True)) with (k := k) (c' := c1) (gd' := gd1) (s' := s1) as (G1 & (E1 & E2 & E3 & E4) & _); auto.
      destruct Single as (Fk & Ng & Ho).
      destruct (step_ok ok fuel c1 gd1 s1 c' gd' s') as (kids & els & h & cs & l0 & bst & md & w & St & _);
        [exact NL|rewrite E1; exact Good|congruence|congruence|rewrite E2; exact Ho|exact G1|exact R|].
      rewrite (st_gen _ _ _ _ _ _ _ _ _ _ _ _ _ _ St), E. lia.
  Qed.

  (** C36.  At every generation: the recorded best scores never decrease, and
      best_solution's score equals the last one (and no recorded one exceeds it). *)
  Theorem C36_best_never_decreases : forall k c' gd' s', at_generation fuel c gd0 s0 k c' gd' s' ->
    exists xs y i g x, hist_best gd' = map SV1 (xs ++ [y]) /\ length (xs ++ [y]) = S k /\ never_decreases (xs ++ [y]) /\
      best_solution gd' = BSingle i g /\ score i = SV1 x /\ neqb x y = true /\
      (* the last entry is the score of an actual member, and no member is better *)
      (exists r, In r (members (population gd')) /\ score (heap s' r) = SV1 y) /\
      (forall r, In r (members (population gd')) -> exists z, score (heap s' r) = SV1 z /\ nltb y z = false) /\
      (* the recorded numbers are usable (for doubles: not NaN) *)
      Forall ok (xs ++ [y]).
  Proof.
    intros k c' gd' s' H.
    destruct (gen_inv (fun c gd s => best_inv ok c gd s /\ Z.of_nat (length (hist_best gd)) = idx_generation gd)) with (k := k) (c' := c') (gd' := gd') (s' := s')
      as (G & _ & (xs & y & i & g & x & l0 & b & Eh & Fo & So & Eb & Ei & Ox & Exy & Em & Sb) & Lh); auto.
    - intros gd s cs l0 bst md w F G. split; [eapply best_inv_first; eauto|]. destruct (fi_hist _ _ _ _ _ _ _ _ _ _ F) as [-> _].
      rewrite (fi_gen _ _ _ _ _ _ _ _ _ _ F). reflexivity.
    - intros c1 gd1 s1 c2 gd2 s2 kids els h cs l0 bst md w _ G1 [I L] St G2. split; [apply (best_inv_step ok NL _ _ _ _ _ _ _ _ _ _ _ _ _ _ G1 I St G2)|].
      destruct (st_hist _ _ _ _ _ _ _ _ _ _ _ _ _ _ St) as [-> _]. rewrite (st_gen _ _ _ _ _ _ _ _ _ _ _ _ _ _ St), app_length. cbn [length]. lia.
    - exists xs, y, i, g, x. split; auto. split; [rewrite Eh, map_length, (gen_number _ _ _ _ H) in Lh; lia|].
      split; [eapply sorted_never_decreases; eauto|]. split; auto. split; auto. split; auto. split; [|split; [|exact Fo]].
      + exists b. split; auto. rewrite Em. apply in_or_app; right; left; auto.
      + intros r Hr. destruct (gi_settled _ _ _ G r Hr) as [(z & Ez & Oz) _]. exists z. split; auto.
        apply (asc_last ok KScore s' l0 b r z y NL); auto.
        * rewrite <- Em. apply (gi_asc _ _ _ G).
        * rewrite <- Em. auto.
        * cbn. congruence.
        * cbn. congruence.
        * rewrite Forall_forall in Fo. apply Fo. apply in_or_app; right; left; auto.
  Qed.

  Lemma gen_records : forall k c' gd' s', at_generation fuel c gd0 s0 k c' gd' s' -> records ok gd'.
  Proof.
    intros k c' gd' s' H. refine (proj2 (proj2 (gen_inv (fun _ gd _ => records ok gd) _ _ k c' gd' s' H))).
    - intros gd s cs l0 bst md w F G. destruct (fi_hist _ _ _ _ _ _ _ _ _ _ F) as (H1 & H2 & H3). destruct (fi_best _ _ _ _ _ _ _ _ _ _ F) as (B1 & B2).
      destruct (gi_settled _ _ _ G bst) as [(y & Ey & Oy) _]; [rewrite (proj1 (fi_members _ _ _ _ _ _ _ _ _ _ F)); apply in_or_app; right; left; auto|].
      apply (records_snoc ok NL (new_gadata false (num_generations gd) (children_percent gd) (early_stop gd) (population gd)) gd (heap s bst) y
               (score (heap s md)) (score (heap s w))); auto; [apply records_new| |rewrite (fi_gen _ _ _ _ _ _ _ _ _ _ F); auto|].
      + apply (gi_single _ _ _ G).
      + rewrite B1, B2. reflexivity.
    - intros c1 gd1 s1 c2 gd2 s2 kids els h cs l0 bst md w _ G1 I St G2. destruct (st_hist _ _ _ _ _ _ _ _ _ _ _ _ _ _ St) as (H1 & H2 & H3).
      destruct (gi_settled _ _ _ G2 bst) as [(y & Ey & Oy) _]; [rewrite (proj1 (st_members _ _ _ _ _ _ _ _ _ _ _ _ _ _ St)); apply in_or_app; right; left; auto|].
      apply (records_snoc ok NL gd1 gd2 (heap s2 bst) y (score (heap s2 md)) (score (heap s2 w))); auto.
      + rewrite (gi_single _ _ _ G1). apply (gi_single _ _ _ G2).
      + apply (st_gen _ _ _ _ _ _ _ _ _ _ _ _ _ _ St).
      + apply (st_best _ _ _ _ _ _ _ _ _ _ _ _ _ _ St).
  Qed.
  Lemma records_stagnant : forall gd, records ok gd -> 0 < idx_generation gd ->
    exists xs, hist_best gd = map SV1 xs /\ Z.of_nat (length xs) = idx_generation gd /\ stagnant xs (no_improve gd).
  Proof.
    intros gd [_ (xs & Eh & _ & Lx & _ & _ & [(-> & _)|(i & g & x & _ & _ & _ & Hg & Hn & K)])] Hp; [cbn in Lx; lia|].
    exists xs. split; auto. split; auto. exists g, x. split; auto. split; [lia|auto].
  Qed.
  (** Later histories extend earlier ones. *)
  Lemma hist_grows : forall j c1 gd1 s1, at_generation fuel c gd0 s0 j c1 gd1 s1 -> forall k c2 gd2 s2, steps fuel c1 gd1 s1 k c2 gd2 s2 ->
    exists l, hist_best gd2 = hist_best gd1 ++ l.
  Proof.
    intros j c1 gd1 s1 (gd & s & F & S) k c2 gd2 s2 T. induction T as [|k c2 gd2 s2 c3 gd3 s3 T IH R]; [exists []; rewrite app_nil_r; auto|].
    destruct IH as (l & E).
    assert (A : at_generation fuel c gd0 s0 (j + k) c2 gd2 s2) by (exists gd, s; split; auto; eapply steps_trans; eauto).
    destruct (gen_inv (fun _ _ _ => True)) with (k := (j + k)%nat) (c' := c2) (gd' := gd2) (s' := s2) as (G2 & (E1 & E2 & E3 & E4) & _); auto.
    destruct Single as (Fk & Ng & Ho).
    destruct (step_ok ok fuel c2 gd2 s2 c3 gd3 s3) as (kids & els & h & cs & l0 & bst & md & w & St & _);
      [exact NL|rewrite E1; exact Good|congruence|congruence|rewrite E2; exact Ho|exact G2|exact R|].
    destruct (st_hist _ _ _ _ _ _ _ _ _ _ _ _ _ _ St) as [-> _]. rewrite E, <- app_assoc. eauto.
  Qed.

  (** C39.  The number of generations of a run: at least 1, at most
      max(1, num_generations); after each generation from the second on the run goes
      on only if the best score has improved within the last early_stop generations;
      it ends before num_generations only after more than early_stop generations (in
      fact early_stop + 1) without improvement. *)
  Theorem C39_stopping : forall c' gd' s', run_loop fuel c gd0 s0 = Ok (c', gd') s' ->
    let N := Z.max 1 (num_generations gd0) in let G := idx_generation gd' in
    exists xs, hist_best gd' = map SV1 xs /\ Z.of_nat (length xs) = G /\ 1 <= G <= N /\
      (forall h m, 2 <= Z.of_nat h < G -> stagnant (firstn h xs) m -> exists e, early_stop gd0 = Some e /\ m <= e) /\
      (G < N -> exists e m, early_stop gd0 = Some e /\ stagnant xs m /\ e < m /\ (0 <= e -> m = e + 1)).
  Proof.
    intros c' gd' s' H. cbv zeta. apply run_steps in H. destruct H as (gd1 & s1 & k & F & Lk & S & Mid & _ & End).
    assert (A : at_generation fuel c gd0 s0 k c' gd' s') by (exists gd1, s1; auto).
    assert (A0 : at_generation fuel c gd0 s0 0 c gd1 s1) by (exists gd1, s1; split; auto; constructor).
    destruct (params_kept _ _ _ _ A) as (P1 & P2 & _). destruct (params_kept _ _ _ _ A0) as (Q1 & Q2 & _).
    pose proof (gen_number _ _ _ _ A) as Gn. rewrite Q1 in Lk, End.
    destruct (records_stagnant _ (gen_records _ _ _ _ A)) as (xs & Eh & Lx & Sx); [lia|].
    assert (Pre : forall j, (j <= k)%nat -> exists c2 gd2 s2, steps fuel c gd1 s1 j c2 gd2 s2 /\ early_stop gd2 = early_stop gd0 /\
        stagnant (firstn (Datatypes.S j) xs) (no_improve gd2)).
    { intros j Hj. destruct (steps_prefix _ _ _ _ _ _ _ _ S j Hj) as (c2 & gd2 & s2 & S1 & S2). exists c2, gd2, s2. split; auto.
      assert (A2 : at_generation fuel c gd0 s0 j c2 gd2 s2) by (exists gd1, s1; auto). split; [apply (params_kept _ _ _ _ A2)|].
      pose proof (gen_number _ _ _ _ A2) as Gn2. destruct (records_stagnant _ (gen_records _ _ _ _ A2)) as (ys & Ehy & Ly & Sy); [lia|].
      destruct (hist_grows _ _ _ _ A2 _ _ _ _ S2) as (l & El). rewrite Eh, Ehy in El. 
      assert (Ef : firstn (length ys) (map SV1 xs) = map SV1 ys). { rewrite El, firstn_app, map_length, Nat.sub_diag. rewrite firstn_all2 by (rewrite map_length; lia). apply app_nil_r. }
      rewrite firstn_map in Ef. apply map_SV1_inj in Ef. replace (Datatypes.S j) with (length ys) by lia. rewrite Ef. auto. }
    exists xs. split; auto. split; auto. split; [lia|]. split.
    - intros h m Hh Sm. destruct (Pre (h - 1)%nat) as (c2 & gd2 & s2 & S2 & E2 & St2); [lia|]. replace (Datatypes.S (h - 1)) with h in St2 by lia.
      rewrite (stagnant_unique _ _ _ Sm St2). destruct (Mid (h - 1)%nat c2 gd2 s2) as (e & Ee & Le); [lia|auto|]. exists e. split; [congruence|auto].
    - intros Hlt. destruct End as [->|(Hk & e & Ee & Le)]; [lia|]. exists e, (no_improve gd'). split; [congruence|]. split; auto. split; auto.
      intros He. destruct (Pre (k - 1)%nat) as (c2 & gd2 & s2 & S2 & E2 & St2); [lia|].
      assert (Hp : no_improve gd2 <= e).
      { destruct (Nat.eq_dec k 1) as [->|Hk1].
        - cbn [Nat.sub] in S2. inversion S2; subst. destruct (first_ok ok _ _ _ _ _ NL Good (proj1 Single) (started_init _ _ Start) F) as (cs & l0 & bst & md & w & F1 & _).
          destruct (fi_best _ _ _ _ _ _ _ _ _ _ F1) as [_ B]. rewrite B. auto.
        - destruct (Mid (k - 1)%nat c2 gd2 s2) as (e' & Ee' & Le'); [lia|auto|]. replace e with e'; auto. congruence. }
      (* one more generation adds at most one *)
      replace (Datatypes.S (k - 1)) with k in St2 by lia.
      destruct St2 as (g2 & x2 & Hg2 & L2 & K2). destruct Sx as (g & x & Hg & L & K).
      rewrite firstn_length_le in L2 by lia.
      destruct (Nat.eq_dec g k) as [->|Hne]; [lia|].
      assert (Hgk : (g < k)%nat). { assert (g < length xs)%nat by (apply nth_error_Some; congruence). lia. }
      assert (Hg' : nth_error (firstn k xs) g = Some x). { rewrite <- Hg. rewrite <- (firstn_skipn k xs) at 2. rewrite nth_error_app1; auto. rewrite firstn_length_le; lia. }
      assert (Hg2' : nth_error xs g2 = Some x2). { rewrite <- Hg2. rewrite <- (firstn_skipn k xs) at 1. rewrite nth_error_app1; auto. apply nth_error_Some. congruence. }
      destruct (lt_eq_lt_dec g g2) as [[C|C]|C]; [|subst; lia|].
      + destruct (K2 _ _ Hg') as [_ X1]. destruct (K _ _ Hg2') as [X2 _]. rewrite X1 in X2 by auto. discriminate.
      + destruct (K _ _ Hg2') as [_ X1]. destruct (K2 _ _ Hg') as [X2 _]. rewrite X1 in X2 by auto. discriminate.
  Qed.
  (** CollectorGA passes early_stop=None through: a run of two or more generations
      never returns. *)
  Theorem C39_collector_none : early_stop gd0 = None -> 2 <= num_generations gd0 ->
    forall r s', run_loop fuel c gd0 s0 <> Ok r s'.
  Proof.
    intros Es Hn [c' gd'] s' H. apply run_steps in H. destruct H as (gd1 & s1 & k & F & Lk & S & _ & Hk & End).
    assert (A : at_generation fuel c gd0 s0 k c' gd' s') by (exists gd1, s1; auto). destruct (params_kept _ _ _ _ A) as (_ & P2 & _).
    assert (A0 : at_generation fuel c gd0 s0 0 c gd1 s1) by (exists gd1, s1; split; auto; constructor). destruct (params_kept _ _ _ _ A0) as (Q1 & _).
    rewrite Q1 in *. destruct (Nat.eq_dec k 0) as [->|Hne].
    - destruct End as [E|(C & _)]; lia.
    - destruct Hk as (e & He); [lia|]. congruence.
  Qed.

  (** C40.  Between any two moments of a run (after generations j and j + k), every
      individual existing at the first moment keeps genotype, phenotype, score,
      objective score and feasibility; best_solution always equals, in these fields,
      an individual that exists and is kept, so it is a snapshot that stays true. *)
  Theorem C40_immutable : forall j c1 gd1 s1 k c2 gd2 s2,
    at_generation fuel c gd0 s0 j c1 gd1 s1 -> steps fuel c1 gd1 s1 k c2 gd2 s2 ->
    (forall r, (r < next s1)%nat -> same_core (heap s1 r) (heap s2 r)) /\
    (forall r, In r (members (population gd1)) -> (r < next s1)%nat /\ exists x, score (heap s1 r) = SV1 x) /\
    (forall i g, best_solution gd1 = BSingle i g -> exists r, (r < next s1)%nat /\ same_core (heap s1 r) i /\ same_core (heap s2 r) i).
  Proof.
    intros j c1 gd1 s1 k c2 gd2 s2 A S.
    set (Inv := fun (_ : comps) (gd : gadata) (s : st) => forall i g, best_solution gd = BSingle i g -> exists r, (r < next s)%nat /\ same_core (heap s r) i).
    destruct (gen_inv Inv) with (k := j) (c' := c1) (gd' := gd1) (s' := s1) as (G1 & Sc1 & I1); auto.
    - intros gd s cs l0 bst md w F G i g Hb. destruct (fi_best _ _ _ _ _ _ _ _ _ _ F) as [Eb _]. rewrite Eb in Hb. inversion Hb; subst. exists bst. split.
      + apply (gi_alloc _ _ _ G). rewrite (proj1 (fi_members _ _ _ _ _ _ _ _ _ _ F)). apply in_or_app; right; left; auto.
      + apply same_core_refl.
    - intros ca ga sa cb gb sb kids els h cs l0 bst md w _ G I St G' i g Hb.
      destruct (st_kids _ _ _ _ _ _ _ _ _ _ _ _ _ _ St) as (a & _ & La & Ln).
      pose proof (st_best _ _ _ _ _ _ _ _ _ _ _ _ _ _ St) as Ba. rewrite Hb in Ba. unfold best_after in Ba.
      assert (New : exists r, (r < next sb)%nat /\ same_core (heap sb r) (heap sb bst)).
      { exists bst. split; [|apply same_core_refl]. apply (gi_alloc _ _ _ G'). rewrite (proj1 (st_members _ _ _ _ _ _ _ _ _ _ _ _ _ _ St)). apply in_or_app; right; left; auto. }
      assert (Old : forall i0 g0, best_solution ga = BSingle i0 g0 -> exists r, (r < next sb)%nat /\ same_core (heap sb r) i0).
      { intros i0 g0 E0. destruct (I _ _ E0) as (r & Hr & Er). exists r. split; [lia|].
        pose proof (st_core _ _ _ _ _ _ _ _ _ _ _ _ _ _ St r Hr) as Cr. apply same_core_sym in Cr. eapply same_core_trans; eauto. }
      destruct (best_solution ga) as [|i0 g0|ps gp] eqn:E0.
      + inversion Ba; subst. exact New.
      + destruct (sv_lt (score i0) (score (heap sb bst))); inversion Ba; subst; [exact New|eauto].
      + inversion Ba; subst. exact New.
    - assert (K : forall r, (r < next s1)%nat -> same_core (heap s1 r) (heap s2 r)).
      { clear I1. set (Inv2 := fun (_ : comps) (_ : gadata) (s : st) => (next s1 <= next s)%nat /\ forall r, (r < next s1)%nat -> same_core (heap s1 r) (heap s r)).
        destruct Sc1 as (E1 & E2 & E3 & E4). pose proof Single as (Fk & Ng & Ho).
        destruct (steps_inv ok NL fuel Inv2 c1 gd1 s1) with (k := k) (c' := c2) (gd' := gd2) (s' := s2) as (_ & _ & _ & K); auto.
        - split; [congruence|]. split; [congruence|rewrite E2; exact Ho].
        - rewrite E1. exact Good.
        - split; auto. intros; apply same_core_refl.
        - intros ca ga sa cb gb sb kids els h cs l0 bst md w _ G (N & I) St G'. destruct (st_kids _ _ _ _ _ _ _ _ _ _ _ _ _ _ St) as (a & _ & La & Ln).
          split; [lia|]. intros r Hr. eapply same_core_trans; [apply I; auto|]. apply (st_core _ _ _ _ _ _ _ _ _ _ _ _ _ _ St). lia. }
      split; auto. split.
      + intros r Hr. split; [apply (gi_alloc _ _ _ G1); auto|]. destruct (gi_settled _ _ _ G1 r Hr) as [(x & Ex & _) _]. eauto.
      + intros i g Hb. destruct (I1 _ _ Hb) as (r & Hr & Er). exists r. split; auto. split; auto. eapply same_core_trans; [|exact Er]. apply same_core_sym, K; auto.
  Qed.

  (** C43 for runs.  The calls of a run correspond one to one to the individuals ever
      put into the population: each was evaluated exactly once, on the decoding of its
      genotype (the genotype itself for non-binary populations). *)
  Theorem C43_run_calls : forall k c' gd' s', at_generation fuel c gd0 s0 k c' gd' s' ->
    exists evald calls, log s' = rev calls ++ log s0 /\ NoDup evald /\
      Forall2 (fun r cv => (r < next s')%nat /\ spec_point (gspec_of (population gd0)) (genotype (heap s' r)) (fst cv)) evald calls /\
      (forall r, In r (members (population gd')) -> In r evald) /\
      (forall r, In r evald -> decoded (gspec_of (population gd0)) (heap s' r)).
  Proof.
    intros k c' gd' s' H. set (g := gspec_of (population gd0)).
    set (Inv := fun (_ : comps) (gd : gadata) (s : st) => gspec_of (population gd) = g /\ exists evald calls, log s = rev calls ++ log s0 /\ NoDup evald /\
      Forall2 (fun r cv => (r < next s)%nat /\ spec_point g (genotype (heap s r)) (fst cv)) evald calls /\
      (forall r, In r (members (population gd)) -> In r evald) /\
      (forall r, In r evald -> decoded g (heap s r))).
    refine (proj2 (proj2 (proj2 (gen_inv Inv _ _ k c' gd' s' H)))); subst Inv; cbv beta.
    - intros gd s cs l0 bst md w F G. pose proof (started_init _ _ Start) as I. split; [apply (first_params _ _ _ _ _ _ _ _ _ _ F)|].
      exists (members (population gd0)), cs.
      split; [apply (fi_log _ _ _ _ _ _ _ _ _ _ F)|]. split; [apply (in_nodup _ _ I)|].
      pose proof (fi_eval _ _ _ _ _ _ _ _ _ _ F) as E. destruct (fi_quiet _ _ _ _ _ _ _ _ _ _ F) as (Nx & _).
      split; [|split].
      + assert (A : forall r, In r (members (population gd0)) -> (r < next s)%nat /\ decoded g (heap s0 r)).
        { intros r Hr. split; [rewrite Nx; apply (in_alloc _ _ I); auto|]. apply (in_fresh _ _ I); auto. }
        apply (assessed_points _ _ _ _ _ _ _ _ _ _ E A).
      + intros r Hr. eapply Permutation_in; [apply (fi_members _ _ _ _ _ _ _ _ _ _ F)|auto].
      + intros r Hr. destruct (assessed_in _ _ _ _ _ _ _ _ _ _ E Hr) as (v & k' & _ & _ & As). apply assess_keeps in As. destruct As as (A1 & A2 & _).
        destruct (in_fresh _ _ I r Hr) as [_ D]. unfold decoded in *. fold g in D. rewrite A1, A2. exact D.
    - intros c1 gd1 s1 c2 gd2 s2 kids els h cs l0 bst md w Sc G1 (Eg & us & calls & L & ND & F2 & Im & D) St G2.
      split; [destruct (step_params _ _ _ _ _ _ _ _ _ _ _ _ _ _ St); congruence|].
      destruct (st_kids _ _ _ _ _ _ _ _ _ _ _ _ _ _ St) as (a & Ek & La & Ln).
      pose proof (st_eval _ _ _ _ _ _ _ _ _ _ _ _ _ _ St) as E. rewrite Eg in E.
      pose proof (st_fresh _ _ _ _ _ _ _ _ _ _ _ _ _ _ St) as Fr. rewrite Eg in Fr.
      assert (Hk : forall r, In r kids -> (a <= r < next s2)%nat) by (intros r Hr; rewrite Ek in Hr; apply in_seq in Hr; lia).
      assert (Hus : forall r, In r us -> (r < next s1)%nat).
      { intros r Hr. clear - F2 Hr. induction F2; [destruct Hr|]. destruct Hr as [->|Hr]; [tauto|auto]. }
      exists (us ++ kids), (calls ++ cs). split; [rewrite (st_log _ _ _ _ _ _ _ _ _ _ _ _ _ _ St), L, rev_app_distr, app_assoc; auto|]. split; [|split; [|split]].
      + apply nodup_app_disjoint; [exact ND|rewrite Ek; apply seq_NoDup|]. intros r H1 H2. apply Hus in H1. apply Hk in H2. lia.
      + apply Forall2_app.
        * eapply Forall2_impl; [|exact F2]. intros r cv [H1 H2]. split; [lia|].
          destruct (st_core _ _ _ _ _ _ _ _ _ _ _ _ _ _ St r H1) as (E1 & _). rewrite <- E1. exact H2.
        * apply (assessed_points _ _ _ _ _ _ _ _ _ _ E). intros r Hr. split; [apply Hk; auto|apply Fr; auto].
      + intros r Hr. apply (Permutation_in _ (proj2 (st_members _ _ _ _ _ _ _ _ _ _ _ _ _ _ St))) in Hr. apply in_or_app.
        apply in_app_or in Hr. destruct Hr as [Hr|Hr]; [right; auto|left]. apply Im.
        destruct (st_els _ _ _ _ _ _ _ _ _ _ _ _ _ _ St) as (e & b & l1 & E' & El & Ie). subst els. apply in_app_or in Hr. destruct Hr as [Hr|[<-|[]]]; auto.
        rewrite El. apply in_or_app; right; left; auto.
      + intros r Hr. apply in_app_or in Hr. destruct Hr as [Hr|Hr].
        * destruct (st_core _ _ _ _ _ _ _ _ _ _ _ _ _ _ St r (Hus r Hr)) as (E1 & E2 & _). pose proof (D r Hr) as Dr. unfold decoded in *. rewrite <- E1, <- E2. exact Dr.
        * destruct (assessed_in _ _ _ _ _ _ _ _ _ _ E Hr) as (v & k' & _ & _ & As). apply assess_keeps in As. destruct As as (A1 & A2 & _).
          destruct (Fr r Hr) as [_ Dr]. unfold decoded in *. rewrite A1, A2. exact Dr.
  Qed.
  (** The number of calls: n for the first generation and int(children_percent * n)
      for each later one. *)
  Theorem C43_run_count : forall k c' gd' s' x, at_generation fuel c gd0 s0 k c' gd' s' ->
    (match c_selection c with SelTournament _ | SelBalanced | SelRanked => True | _ => False end) ->
    ntrunc (nmul (children_percent gd0) (nofZ (num_individ (population gd0)))) = Some x ->
    Z.of_nat (length (log s')) = Z.of_nat (length (log s0)) + Z.max 0 (num_individ (population gd0)) + Z.of_nat k * Z.max 0 x.
  Proof.
    intros k c' gd' s' x H Hs Hx.
    set (Inv := fun (c1 : comps) (gd : gadata) (s : st) => children_percent gd = children_percent gd0 /\ num_individ (population gd) = num_individ (population gd0) /\
      Z.of_nat (length (log s)) = Z.of_nat (length (log s0)) + Z.max 0 (num_individ (population gd0)) + (idx_generation gd - 1) * Z.max 0 x).
    destruct (gen_inv Inv) with (k := k) (c' := c') (gd' := gd') (s' := s') as (_ & _ & _ & _ & E); auto.
    - intros gd s cs l0 bst md w F G. split; [apply (fi_params _ _ _ _ _ _ _ _ _ _ F)|]. split; [apply (first_params _ _ _ _ _ _ _ _ _ _ F)|].
      rewrite (fi_log _ _ _ _ _ _ _ _ _ _ F), app_length, rev_length, (fi_gen _ _ _ _ _ _ _ _ _ _ F), (assessed_length _ _ _ _ _ _ _ _ _ (fi_eval _ _ _ _ _ _ _ _ _ _ F)).
      pose proof (started_size _ _ Start). lia.
    - intros c1 gd1 s1 c2 gd2 s2 kids els h cs l0 bst md w Sc G1 (P1 & P2 & E) St G2.
      split; [destruct (st_params _ _ _ _ _ _ _ _ _ _ _ _ _ _ St) as (_ & _ & P3); congruence|].
      split; [destruct (step_params _ _ _ _ _ _ _ _ _ _ _ _ _ _ St); congruence|].
      rewrite (st_log _ _ _ _ _ _ _ _ _ _ _ _ _ _ St), app_length, rev_length, (st_gen _ _ _ _ _ _ _ _ _ _ _ _ _ _ St), (assessed_length _ _ _ _ _ _ _ _ _ (st_eval _ _ _ _ _ _ _ _ _ _ _ _ _ _ St)).
      assert (Lk : length kids = Z.to_nat x).
      { pose proof (st_count _ _ _ _ _ _ _ _ _ _ _ _ _ _ St) as Cn. destruct Sc as (_ & Es & _). rewrite Es in Cn. unfold num_pairs in Cn.
        destruct (c_selection c); try contradiction; destruct Cn as (y & Hy & ->); cbn [pairs_wanted] in Hy; rewrite P1, P2 in Hy; congruence. }
      rewrite Lk. lia.
    - rewrite (gen_number _ _ _ _ H) in E. rewrite E. lia.
  Qed.
End Run.

(** C38, for arbitrary sequences of updates (not only those of runs).  In every
    GaData object reached by updates with populations of usable scores: the histories
    have idx_generation entries; best_solution's idx_generation is the first index at
    which the recorded best score reaches its maximum; the counter is the distance to
    the last generation. *)
Theorem C38_counter : forall {NO : NumOps} ok, NumOrder NO ok -> forall gd, history ok gd -> 0 < idx_generation gd ->
  exists xs i g x, hist_best gd = map SV1 xs /\ Z.of_nat (length xs) = idx_generation gd /\
    length (hist_mediocre gd) = length xs /\ length (hist_worst gd) = length xs /\
    best_solution gd = BSingle i (Z.of_nat g) /\ no_improve gd = idx_generation gd - 1 - Z.of_nat g /\
    score i = SV1 x /\ nth_error xs g = Some x /\
    (forall j y, nth_error xs j = Some y -> nltb x y = false /\ ((j < g)%nat -> nltb y x = true)).
Proof.
  intros NO ok NL gd H Hp. apply history_records in H; auto. destruct H as [_ (xs & Eh & Fo & Lx & Lm & Lw & [(-> & _)|(i & g & x & Eb & Ei & Ox & Hg & Hn & K)])].
  - cbn in Lx. lia.
  - exists xs, i, g, x. repeat split; auto; apply (K _ _ H).
Qed.
(** The same at every generation of a run. *)
Theorem C38_run : forall {NO : NumOps} ok, NumOrder NO ok -> forall fuel c gd0 s0, single c -> good_scores ok (c_fitness c) -> started gd0 s0 ->
  forall k c' gd' s', at_generation fuel c gd0 s0 k c' gd' s' ->
  exists xs i g x, hist_best gd' = map SV1 xs /\ length xs = S k /\ idx_generation gd' = Z.of_nat (S k) /\
    length (hist_mediocre gd') = S k /\ length (hist_worst gd') = S k /\
    best_solution gd' = BSingle i (Z.of_nat g) /\ no_improve gd' = Z.of_nat k - Z.of_nat g /\
    score i = SV1 x /\ nth_error xs g = Some x /\
    (forall j y, nth_error xs j = Some y -> nltb x y = false /\ ((j < g)%nat -> nltb y x = true)).
Proof.
  intros NO ok NL fuel c gd0 s0 Si Go St k c' gd' s' H. pose proof (gen_number ok NL fuel c gd0 s0 Si Go St _ _ _ _ H) as Gn.
  destruct (gen_records ok NL fuel c gd0 s0 Si Go St _ _ _ _ H) as [_ (xs & Eh & Fo & Lx & Lm & Lw & [(-> & _)|(i & g & x & Eb & Ei & Ox & Hg & Hn & K)])].
  - cbn in Lx. lia.
  - exists xs, i, g, x. repeat split; auto; try lia; apply (K _ _ H0).
Qed.

(** C43 for one pass over any population, in which scored individuals may occur
    several times (references repeat).  [us] are the unscored individuals, each once;
    the calls are on the decodings of their genotypes; afterwards every genotype is
    what it was, every phenotype is the decoding of the genotype, and the individuals
    that had a score are unchanged. *)
Theorem C43_pass : forall {NO : NumOps} f gd s u s',
  let l := members (population gd) in let g := gspec_of (population gd) in
  (forall r, In r l -> score (heap s r) = SVNone -> count_occ Nat.eq_dec l r = 1%nat) ->
  (forall r, In r l -> decoded g (heap s r) \/ (is_phenotype g = true /\ phenotype (heap s r) = Some None)) ->
  base_fitness_execute f gd s = Ok u s' ->
  exists us calls, NoDup us /\ (forall r, In r us <-> In r l /\ score (heap s r) = SVNone) /\
    log s' = rev calls ++ log s /\
    Forall2 (fun r cv => spec_point g (genotype (heap s r)) (fst cv)) us calls /\
    (forall r, genotype (heap s' r) = genotype (heap s r)) /\
    (forall r, In r l -> decoded g (heap s' r) /\ score (heap s' r) <> SVNone) /\
    (forall r, score (heap s r) <> SVNone -> score (heap s' r) = score (heap s r) /\ obj_score (heap s' r) = obj_score (heap s r) /\
                feasible (heap s' r) = feasible (heap s r)).
Proof.
  intros NO f gd s u s' l g Ho Hd H.
  assert (Un : forall r, unscored s r = true <-> score (heap s r) = SVNone).
  { intros r. unfold unscored. destruct (score (heap s r)); cbn; split; auto; discriminate. }
  apply base_fitness_ok in H; [|intros r Hr Ur; apply Ho; auto; apply Un; auto]. destruct H as (h & cs & Fh & Fo & Q & L & As & O).
  fold l g in Fh, Fo, As, O. assert (Dh : forall r, In r l -> decoded g (h r)) by (intros r Hr; eapply filled_decoded; [apply Hd|apply Fh]; auto).
  assert (Gh : forall r, genotype (h r) = genotype (heap s r)).
  { intros r. destruct (in_dec Nat.eq_dec r l) as [Hr|Hr]; [eapply filled_genotype; apply Fh; auto|rewrite Fo; auto]. }
  assert (Ch : forall r, score (h r) = score (heap s r) /\ obj_score (h r) = obj_score (heap s r) /\ feasible (h r) = feasible (heap s r)).
  { intros r. destruct (in_dec Nat.eq_dec r l) as [Hr|Hr]; [|rewrite Fo; auto]. pose proof (Fh r Hr) as F. unfold filled in F. destruct (is_phenotype g).
    - destruct F as [[->|(P & gr & ge & bp & ph & _ & _ & ->)] _]; auto.
    - rewrite F; auto. }
  exists (news s l), cs. split; [apply news_nodup|]. split; [intros r; rewrite news_in, Un; tauto|]. split; auto. split; [|split; [|split]].
  - assert (A : Forall2 (fun r cv => True /\ spec_point g (genotype (h r)) (fst cv)) (news s l) cs).
    { assert (A1 : forall r, In r (news s l) -> decoded g (h r)) by (intros r Hr; apply news_in in Hr; apply Dh; tauto).
      clear - As A1. induction As as [|k r us v cs Cv A0 As IH]; constructor; [split; auto; apply decoded_point, A1; left; auto|apply IH; intros; apply A1; right; auto]. }
    eapply Forall2_impl; [|exact A]. intros r cv [_ P]. rewrite <- Gh. exact P.
  - intros r. destruct (in_dec Nat.eq_dec r (news s l)) as [Hr|Hr]; [|rewrite O, Gh; auto].
    destruct (assessed_in _ _ _ _ _ _ _ _ _ _ As Hr) as (v & k' & _ & _ & A). apply assess_keeps in A. destruct A as (A1 & _). rewrite A1. auto.
  - intros r Hr. destruct (in_dec Nat.eq_dec r (news s l)) as [Hn|Hn].
    + destruct (assessed_in _ _ _ _ _ _ _ _ _ _ As Hn) as (v & k' & _ & _ & A). pose proof (assess_scored _ _ _ _ _ _ A) as Sc.
      apply assess_keeps in A. destruct A as (A1 & A2 & _). pose proof (Dh r Hr) as D. split; [unfold decoded in *; rewrite A1, A2; exact D|].
      intros C. rewrite C in Sc. discriminate.
    + rewrite O by auto. split; auto. destruct (Ch r) as [-> _]. intros C. apply Hn, news_in. split; auto. apply Un; auto.
  - intros r Hr. rewrite O; [apply Ch|]. rewrite news_in, Un. tauto.
Qed.

(** *** The ready-made classes in exact arithmetic *)
(** In exact arithmetic every score is usable. *)
Lemma good_scores_any : forall {NO : NumOps} (f : fitness), fkind f = Hyperbola -> good_scores (fun _ => True) f.
Proof.
  intros NO f Fk k genes gen best v i j _ A.
  assert (K : forall i pen v, get_fitness_score f i pen = inr v -> exists x, v = SV1 x).
  { intros i0 pen w H. unfold get_fitness_score in H. rewrite Fk in H. destruct (obj_value f), (obj_score i0); try discriminate; [inversion H; eauto|].
    destruct (hyper x x0 pen); inversion H; eauto. }
  unfold assess in A. destruct (check_input f v) as [|cv]; [discriminate|]. destruct (is_conditional f).
  - destruct cv; try discriminate. destruct (fpenalty f); [|discriminate]. destruct (take_obj_score f l) as [|ov]; [discriminate|].
    destruct (violates (conditions f) (snd ov)) as [|bad]; [discriminate|].
    destruct (penalty_execute p (conditions f) (snd ov) gen best) as [|pen]; [discriminate|]. cbv zeta in A.
    destruct (get_fitness_score f _ pen) eqn:E; [discriminate|]. inversion A; subst. destruct (K _ _ _ E) as (x & ->). exists x. auto.
  - cbv zeta in A. destruct (get_fitness_score f _ nzero) eqn:E; [discriminate|]. inversion A; subst. destruct (K _ _ _ E) as (x & ->). exists x. auto.
Qed.

(** BinaryGA, CombinatoryGA and CategoricalGA are instances of this [ga_optimize]. *)
Lemma classes_single : forall {NO : NumOps} fuel cf,
  (forall gray gens, exists g sel ck mk, binary_ga fuel cf gray gens = ga_optimize fuel cf false g Hyperbola sel ck mk false /\ single_objective Hyperbola sel false false) /\
  (forall a b k, exists g sel ck mk, combinatory_ga fuel cf a b k = ga_optimize fuel cf false g Hyperbola sel ck mk false /\ single_objective Hyperbola sel false false) /\
  (forall gens, exists g sel ck mk, categorical_ga fuel cf gens = ga_optimize fuel cf false g Hyperbola sel ck mk false /\ single_objective Hyperbola sel false false).
Proof. intros NO fuel cf. repeat split; intros; do 4 eexists; (split; [reflexivity|repeat split]). Qed.

Local Existing Instance Qops.

Theorem C36_optimize : forall fuel cf g sel ck mk s gd' cl s', objectives_ok sel ->
  ga_optimize fuel cf false g Hyperbola sel ck mk false s = Ok (gd', cl) s' ->
  exists xs y i g x, hist_best gd' = map SV1 (xs ++ [y]) /\
    (forall a b p q, (a <= b)%nat -> nth_error (xs ++ [y]) a = Some p -> nth_error (xs ++ [y]) b = Some q -> (p <= q)%Q) /\
    best_solution gd' = BSingle i g /\ score i = SV1 x /\ (x == y)%Q.
Proof.
  intros fuel cf g sel ck mk s gd' cl s' Ho H. apply optimize_run in H; [|repeat split; auto].
  destruct H as (p & s1 & p' & s2 & f & m & ng & c' & _ & _ & _ & _ & _ & _ & _ & _ & Si & St & R). apply run_ends in R. destruct R as (k & A).
  destruct (C36_best_never_decreases _ Qorder _ _ _ _ Si (good_scores_any _ (proj1 Si)) St _ _ _ _ A) as (xs & y & i & g' & x & E1 & _ & E2 & E3 & E4 & E5 & _).
  exists xs, y, i, g', x. split; auto. split; [|split; auto; split; auto; apply Qeq_bool_iff; exact E5].
  intros a b u v Hab Ha Hb. apply Qltb_iff_f. apply (E2 a b u v Hab Ha Hb).
Qed.
(** early_stop=None in the ready-made classes: exactly max(1, num_generations)
    generations. *)
Theorem C39_none_never_stops : forall fuel cf g sel ck mk s gd' cl s', objectives_ok sel -> cf_early_stop cf = None ->
  ga_optimize fuel cf false g Hyperbola sel ck mk false s = Ok (gd', cl) s' ->
  idx_generation gd' = Z.max 1 (cf_num_generations cf) /\ Z.of_nat (length (hist_best gd')) = idx_generation gd'.
Proof.
  intros fuel cf g sel ck mk s gd' cl s' Ho Hn H. apply optimize_run in H; [|repeat split; auto].
  destruct H as (p & s1 & p' & s2 & f & m & ng & c' & _ & _ & _ & _ & _ & _ & _ & _ & Si & St & R).
  destruct (C39_stopping _ Qorder _ _ _ _ Si (good_scores_any _ (proj1 Si)) St _ _ _ R) as (xs & Eh & Lx & Hb & _ & Stop).
  cbn [new_gadata num_generations early_stop] in *. unfold resolved_stop in Stop. rewrite Hn in Stop.
  split; [|rewrite Eh, map_length; auto].
  destruct (Z_lt_dec (idx_generation gd') (Z.max 1 (cf_num_generations cf))) as [C|C]; [|lia].
  destruct (Stop C) as (e & m' & Ee & (g' & x & _ & Lg & _) & He & _). inversion Ee; subst e. lia.
Qed.
(** The total number of objective calls of BinaryGA, CombinatoryGA and CategoricalGA:
    n + (G - 1) * int(children_percent * n). *)
Theorem C43_optimize_count : forall fuel cf g t ck mk s gd' cl s',
  ga_optimize fuel cf false g Hyperbola (SelTournament t) ck mk false s = Ok (gd', cl) s' ->
  Z.of_nat (length (log s')) = Z.of_nat (length (log s)) + Z.max 0 (cf_num_individ cf) +
    (idx_generation gd' - 1) * Z.max 0 (Qtrunc (cf_children_percent cf * inject_Z (cf_num_individ cf))).
Proof.
  intros fuel cf g t ck mk s gd' cl s' H. apply optimize_run in H; [|repeat split; auto].
  destruct H as (p & s1 & p' & s2 & f & m & ng & c' & Sp & _ & Fi & _ & _ & _ & L & _ & Si & St & R). apply run_ends in R. destruct R as (k & A).
  pose proof (gen_number _ Qorder _ _ _ _ Si (good_scores_any _ (proj1 Si)) St _ _ _ _ A) as Gn.
  assert (Np : num_individ p' = cf_num_individ cf).
  { apply set_params_inv in Sp. destruct Sp as [_ ->].
    apply fill_ok in Fi. destruct Fi as (g' & _ & K). cbv zeta in K. destruct K as (-> & _). auto. }
  pose proof (C43_run_count _ Qorder _ _ _ _ Si (good_scores_any _ (proj1 Si)) St k c' gd' s'
    (Qtrunc (cf_children_percent cf * inject_Z (cf_num_individ cf))) A I) as E.
  cbn [new_gadata population children_percent] in E. rewrite Np in E. rewrite (E eq_refl). rewrite L, Gn. lia.
Qed.

(** *** Concrete runs *)
Definition demo_obj : objfun := Obj1 (fun _ genes => inr (OScalar
  (match genes with [GInt a; GInt b; GInt c] => inject_Z ((a - 3) * (a - 3) + b * b + (c - 1) * (c - 1)) | _ => 100%Q end))).
Definition demo_cf (lv : lvl) (n G : Z) (es : option Z) : config :=
  mkCfg G n demo_obj TNone None PNone None (6#10) es [] 2 lv "best" false.
Definition pools : list cgen := [CList (ints [0;1;2;3]); CList (ints [0;5;7]); CList (ints [1;2])].
(** CategoricalGA, 5 individuals, 6 generations: 5 + 5 * 3 = 20 calls. *)
Example C36_case : observe (fun r s => (hist_best (fst r), idx_generation (fst r), no_improve (fst r), length (log s)))
    (categorical_ga 50 (demo_cf (LFloat (1#2)) 5 6 None) pools fresh_world)
  = Some (map q [-(4); -(4); -(4); -(1); -(1); -(1)]%Q, 6, 2, 20%nat).
Proof. run. Qed.
(** CombinatoryGA with early_stop=1: the fourth generation is the second without
    improvement, and the run stops there instead of making 6 generations. *)
Example C39_case : observe (fun r s => (hist_best (fst r), idx_generation (fst r), no_improve (fst r), length (log s)))
    (combinatory_ga 50 (demo_cf (LStr "normal") 5 6 (Some 1)) 0 6 3 fresh_world)
  = Some (map q [-(13); -(9); -(9); -(9)]%Q, 4, 2, 14%nat).
Proof. run. Qed.
Example C39_stagnant_case : stagnant (map (fun z => inject_Z z) [-13; -9; -9; -9]) 2.
Proof.
  exists 1%nat, (inject_Z (-9)). split; auto. split; auto. intros [|[|[|[|j]]]] y H; cbn in H; inversion H; subst; split; auto; try lia.
  destruct j; discriminate.
Qed.
(** CollectorGA with early_stop=None. *)
Example C39_collector_case : (fun o => match o with Err TypeError => true | _ => false end)
    ((gd <- collector_set_population false 5 6 (GenCat pools) [] (6#10) None ;;
     collector_optimize 50 (mkComps (mkFit Hyperbola demo_obj TNone None None ["optimize"] false []) (SelTournament 2) Uniform (MutCat (1#2)) (mkNG false TBest)) gd)
       fresh_world) = true.
Proof. run. Qed.
(** A population holding the same scored individual twice and one unscored one. *)
Definition alias_gd : gadata := gd_of (mkPop [0; 1; 0]%nat false 3 (GenCat pools) []).
Example C43_pass_case : observe (fun _ s => (map fst (log s), map (fun r => score (heap s r)) [0; 1]%nat))
    (base_fitness_execute (mkFit Hyperbola demo_obj TNone None None ["optimize"] false []) alias_gd
       (world [ind (ints [0; 5; 1]) (q 7); ind (ints [3; 0; 2]) SVNone] []))
  = Some ([ints [3; 0; 2]], [q 7; q (-(1))]).
Proof. run. Qed.

Print Assumptions C36_best_never_decreases.
Print Assumptions C36_optimize.
Print Assumptions C38_counter.
Print Assumptions C38_run.
Print Assumptions C39_stopping.
Print Assumptions C39_collector_none.
Print Assumptions C39_none_never_stops.
Print Assumptions C40_immutable.
Print Assumptions C43_pass.
Print Assumptions C43_run_calls.
Print Assumptions C43_run_count.
Print Assumptions C43_optimize_count.
