(** Property C65: CollectorGA.optimize called again continues the same search. *)
From Coq Require Import String.
From Coq Require Import ZArith QArith List Bool Lia Permutation Sorted.
From Verif Require Import Spec Num State Binary Population GaData Crossover Mutation Selection Penalty Fitness NewGeneration Driver
  ListLemmas Rnd Exec Laws PopulationProofs CrossoverProofs MutationProofs SelectionProofs VegaProofs
  NewGenProofs UpdateProofs FitnessProofs StepProofs RunProofs HistoryProofs Runs PropRun Demo.
Import ListNotations.
Open Scope list_scope.
Open Scope Z_scope.

(** A result seen through a view is a result. *)
Lemma observe_some : forall {NO : NumOps} {A B} (g : A -> st -> B) (o : outcome A) b, observe g o = Some b -> exists a s', o = Ok a s' /\ g a s' = b.
Proof. intros NO A B g o b H. destruct o as [a s'|e|]; try discriminate. inversion H. eauto. Qed.

Section Resume.
  Context {NO : NumOps} (ok : num -> Prop) (NL : NumOrder NO ok) (fuel : nat).

  (** The state of a collector after [n] calls of optimize, the first on a new
      population.  The mutation object is the collector's own and stays resolved. *)
  Inductive sessions (c : comps) (gd0 : gadata) (s0 : st) : nat -> comps -> gadata -> st -> Prop :=
  | session_1 : forall c1 gd1 s1, collector_optimize fuel c gd0 s0 = Ok (c1, gd1) s1 -> sessions c gd0 s0 1 c1 gd1 s1
  | session_S : forall n c1 gd1 s1 c2 gd2 s2, sessions c gd0 s0 n c1 gd1 s1 -> collector_optimize fuel c1 gd1 s1 = Ok (c2, gd2) s2 ->
      sessions c gd0 s0 (S n) c2 gd2 s2.

  Lemma collector_run : forall c gd s c' gd' s', collector_optimize fuel c gd s = Ok (c', gd') s' -> run_loop fuel c gd s = Ok (c', gd') s'.
  Proof.
    intros c gd s c' gd' s' H. unfold collector_optimize in H. bd H r s1 R. bd H u s2 P. apply ret_ok in H. destruct H as [<- ->].
    assert (E : s2 = s1); [|subst; auto]. cbn [snd] in P. unfold print_best_solution in P. destruct (best_solution gd') as [|i n|set [n|]]; try discriminate.
    - apply ret_ok in P. tauto.
    - clear - P. induction set as [|i l IH]; cbn [miter] in P; [apply ret_ok in P; tauto|]. bd P v s3 W. destruct (phenotype i); [|discriminate].
      apply ret_ok in W. destruct W as [_ ->]. auto.
  Qed.

  Definition searching (c : comps) (gd : gadata) (s : st) : Prop := GI ok gd s /\ best_inv ok c gd s /\ records ok gd /\ 0 < idx_generation gd.
  Lemma searching_step : forall c1 gd1 s1 c2 gd2 s2 kids els h cs l0 bst md w, searching c1 gd1 s1 ->
    Step c1 gd1 s1 c2 gd2 s2 kids els h cs l0 bst md w -> GI ok gd2 s2 -> searching c2 gd2 s2.
  Proof.
    intros c1 gd1 s1 c2 gd2 s2 kids els h cs l0 bst md w (G1 & B & R & P) St G2. split; auto.
    split; [apply (best_inv_step ok NL _ _ _ _ _ _ _ _ _ _ _ _ _ _ G1 B St G2)|]. split; [|rewrite (st_gen _ _ _ _ _ _ _ _ _ _ _ _ _ _ St); lia].
    destruct (st_hist _ _ _ _ _ _ _ _ _ _ _ _ _ _ St) as (H1 & H2 & H3).
    destruct (gi_settled _ _ _ G2 bst) as [(y & Ey & Oy) _]; [rewrite (proj1 (st_members _ _ _ _ _ _ _ _ _ _ _ _ _ _ St)); apply in_or_app; right; left; auto|].
    apply (records_snoc ok NL gd1 gd2 (heap s2 bst) y (score (heap s2 md)) (score (heap s2 w))); auto.
    - rewrite (gi_single _ _ _ G1). apply (gi_single _ _ _ G2).
    - apply (st_gen _ _ _ _ _ _ _ _ _ _ _ _ _ _ St).
    - apply (st_best _ _ _ _ _ _ _ _ _ _ _ _ _ _ St).
  Qed.

  (** The beginning of a further call: nothing is evaluated and no individual changes;
      the generation is recorded once more. *)
  Record again (gd : gadata) (s : st) (gd' : gadata) (s' : st) : Prop := {
    ag_heap : forall r, heap s' r = heap s r;
    ag_log : log s' = log s;
    ag_quiet : quiet s s';
    ag_pop : population gd' = population gd;
    ag_gen : idx_generation gd' = idx_generation gd + 1;
    ag_count : no_improve gd' = no_improve gd + 1;
    ag_best : best_solution gd' = best_solution gd;
    ag_hist : exists y, hist_best gd' = hist_best gd ++ [SV1 y] /\ exists xs, hist_best gd = map SV1 (xs ++ [y]);
    ag_hist2 : exists m w, hist_mediocre gd' = hist_mediocre gd ++ [m] /\ hist_worst gd' = hist_worst gd ++ [w];
    ag_params : num_generations gd' = num_generations gd /\ early_stop gd' = early_stop gd /\ children_percent gd' = children_percent gd
  }.
  Lemma again_first : forall c f gd s gd' s', fkind f = Hyperbola -> searching c gd s -> first_generation f gd s = Ok gd' s' ->
    again gd s gd' s' /\ searching c gd' s'.
  Proof.
    intros c f gd s gd' s' Fk (G & B & R & P) H. unfold first_generation in H. bd H u s1 F. unfold fitness_execute in F. rewrite Fk in F. cbn [is_multi_kind] in F.
    assert (Un : forall r, In r (members (population gd)) -> unscored s r = false).
    { intros r Hr. destruct (gi_settled _ _ _ G r Hr) as [(x & Ex & _) _]. unfold unscored. rewrite Ex. reflexivity. }
    apply base_fitness_ok in F; [|intros r Hr C; rewrite (Un r Hr) in C; discriminate]. destruct F as (h & cs & Fh & Fo & Q & L & As & O).
    assert (En : news s (members (population gd)) = []).
    { destruct (news s (members (population gd))) as [|r l] eqn:E; auto. assert (I : In r (news s (members (population gd)))) by (rewrite E; left; auto).
      apply news_in in I. destruct I as [I U]. rewrite (Un r I) in U. discriminate. }
    rewrite En in As, O. inversion As; subst. cbn [rev app] in L.
    assert (Hh : forall r, heap s1 r = heap s r).
    { intros r. rewrite O by (intros []). destruct (in_dec Nat.eq_dec r (members (population gd))) as [Hr|Hr]; [|apply Fo; auto].
      apply (filled_same (gspec_of (population gd))); [apply (gi_settled _ _ _ G r Hr)|apply Fh; auto]. }
    unfold update in H. rewrite (gi_single _ _ _ G) in H. apply update_single_ok in H. destruct H as (-> & l0 & b & md & w & H). cbv zeta in H.
    destruct H as (So & Nm & Nw & _ & ->). unfold sorted_from in So. rewrite (gi_sorted _ _ _ G) in So.
    destruct B as (xs & y & i & g & x & l1 & b1 & Eh & Foo & Ss & Eb & Ei & Ox & Exy & Em & Sb).
    rewrite <- So in Em. apply app_inj_tail in Em. destruct Em as [<- <-].
    assert (Oy : ok y) by (rewrite Forall_forall in Foo; apply Foo; apply in_or_app; right; left; auto).
    destruct (eq_not_below ok NL x y Ox Oy Exy) as [Nxy Nyx]. unfold not_below in *.
    assert (Ba : best_after gd (heap s1 b) = (best_solution gd, no_improve gd + 1)).
    { unfold best_after. rewrite Eb, Hh, Ei, Sb. unfold sv_lt. cbn [sv_ltb]. rewrite Nyx. reflexivity. }
    assert (Ep : set_sorted true (set_members (l0 ++ [b]) (population gd)) = population gd).
    { rewrite So. pose proof (gi_sorted _ _ _ G) as E. destruct (population gd). cbn in *. rewrite E. reflexivity. }
    unfold updated. rewrite Ba, Ep. cbn [fst snd].
    assert (Sb1 : score (heap s1 b) = SV1 y) by (rewrite Hh; auto).
    split; [constructor; cbn; auto; try (repeat split; auto; fail)|].
    - rewrite Sb1. exists y. split; auto. exists xs. auto.
    - eexists _, _. split; reflexivity.
    - split; [|split; [|split]].
      + destruct G as [G1 G2 G3 G4 G5 G6]. constructor; cbn; auto.
        * intros r Hr. destruct Q as (-> & _). auto.
        * intros r Hr. rewrite Hh. auto.
        * clear - G6 Hh. induction G6 as [|a l G6 IH Fa]; constructor; auto. eapply Forall_impl; [|exact Fa]. cbv beta. intros r. rewrite !Hh. auto.
      + exists (xs ++ [y]), y, i, g, x, l0, b. cbn. rewrite Eh, Sb1, (map_app SV1 (xs ++ [y])). repeat split; auto.
        * apply Forall_app. auto.
        * apply snoc_sorted; auto. apply Forall_app. split; [|repeat constructor; apply (no_irrefl _ _ NL); auto].
          rewrite Forall_forall. intros a Ha. clear - Ss Ha. induction xs as [|z xs IH]; [destruct Ha|]. cbn in Ss. inversion Ss; subst. destruct Ha as [->|Ha]; auto.
          rewrite Forall_forall in H2. apply H2. apply in_or_app; right; left; auto.
      + apply (records_snoc ok NL gd _ (heap s1 b) y (score (heap s1 md)) (score (heap s1 w)) R Sb1 Oy); cbn; auto.
      + cbn. lia.
  Qed.

  Definition plain (sel : selection) : Prop := match sel with SelTournament _ | SelBalanced | SelRanked => True | _ => False end.
  (** From the state [gd], [s] to the state [gd'], [s'] by [length zs] generations with
      the best scores [zs]. *)
  Definition went_on (c : comps) (gd : gadata) (s : st) (zs : list num) (gd' : gadata) (s' : st) : Prop :=
    hist_best gd' = hist_best gd ++ map SV1 zs /\ idx_generation gd' = idx_generation gd + Z.of_nat (length zs) /\
    (num_generations gd' = num_generations gd /\ early_stop gd' = early_stop gd /\ children_percent gd' = children_percent gd /\
     num_individ (population gd') = num_individ (population gd) /\ gspec_of (population gd') = gspec_of (population gd)) /\
    (next s <= next s')%nat /\ (forall r, (r < next s)%nat -> same_core (heap s r) (heap s' r)) /\
    (exists calls, log s' = calls ++ log s /\
      (plain (c_selection c) -> forall x, ntrunc (nmul (children_percent gd) (nofZ (num_individ (population gd)))) = Some x ->
        Z.of_nat (length calls) = Z.of_nat (length zs) * Z.max 0 x)).
  Lemma more_steps : forall c gd s, single c -> good_scores ok (c_fitness c) -> searching c gd s ->
    forall k c' gd' s', steps fuel c gd s k c' gd' s' -> same_comps c c' /\ searching c' gd' s' /\
      exists zs, length zs = k /\ went_on c gd s zs gd' s'.
  Proof.
    intros c gd s Si Go Se k c' gd' s' T.
    assert (K : idx_generation gd' = idx_generation gd + Z.of_nat k /\ same_comps c c' /\ searching c' gd' s' /\ exists zs, went_on c gd s zs gd' s').
    { induction T as [|k c1 gd1 s1 c2 gd2 s2 T IH R].
      - split; [lia|]. split; [repeat split|]. split; auto. exists []. unfold went_on. rewrite app_nil_r. repeat split; auto; cbn; try lia.
        exists []. split; auto.
      - destruct IH as (Ig & (E1 & E2 & E3 & E4) & S1 & zs & H1 & H2 & (P1 & P2 & P3 & P4 & P5) & N & C & calls & L & Cn).
        destruct Si as (Fk & Ng & Ho). pose proof S1 as (G1 & _).
        destruct (step_ok ok fuel c1 gd1 s1 c2 gd2 s2) as (kids & els & h & cs & l0 & bst & md & w & St & G2);
          [exact NL|rewrite E1; exact Go|congruence|congruence|rewrite E2; exact Ho|exact G1|exact R|].
        pose proof (st_gen _ _ _ _ _ _ _ _ _ _ _ _ _ _ St) as Eg. split; [lia|].
        destruct (step_same_comps _ _ _ _ _ _ _ _ _ _ _ _ _ _ St) as (F1 & F2 & F3 & F4).
        split; [repeat split; congruence|]. split; [apply (searching_step _ _ _ _ _ _ _ _ _ _ _ _ _ _ S1 St G2)|].
        destruct (st_hist _ _ _ _ _ _ _ _ _ _ _ _ _ _ St) as (H3 & _).
        destruct (gi_settled _ _ _ G2 bst) as [(y & Ey & Oy) _]; [rewrite (proj1 (st_members _ _ _ _ _ _ _ _ _ _ _ _ _ _ St)); apply in_or_app; right; left; auto|].
        destruct (st_params _ _ _ _ _ _ _ _ _ _ _ _ _ _ St) as (Q1 & Q2 & Q3). destruct (step_params _ _ _ _ _ _ _ _ _ _ _ _ _ _ St) as (Q4 & Q5).
        destruct (st_kids _ _ _ _ _ _ _ _ _ _ _ _ _ _ St) as (a & _ & La & Ln).
        exists (zs ++ [y]). unfold went_on. rewrite H3, H1, Ey, map_app, app_assoc, app_length. cbn [length map].
        split; auto. split; [lia|]. split; [repeat split; congruence|]. split; [lia|]. split.
        + intros r Hr. eapply same_core_trans; [apply C; auto|]. apply (st_core _ _ _ _ _ _ _ _ _ _ _ _ _ _ St). lia.
        + exists (rev cs ++ calls). rewrite (st_log _ _ _ _ _ _ _ _ _ _ _ _ _ _ St), L, app_assoc. split; auto.
          intros Ps x Hx. rewrite app_length, rev_length, (assessed_length _ _ _ _ _ _ _ _ _ (st_eval _ _ _ _ _ _ _ _ _ _ _ _ _ _ St)).
          assert (Lk : length kids = Z.to_nat x).
          { pose proof (st_count _ _ _ _ _ _ _ _ _ _ _ _ _ _ St) as Co. rewrite E2 in Co. unfold num_pairs in Co.
            destruct (c_selection c); try contradiction; destruct Co as (y0 & Hy & ->); cbn [pairs_wanted] in Hy; rewrite P3, P4 in Hy; congruence. }
          specialize (Cn Ps x Hx). rewrite Lk. lia. }
    destruct K as (Kg & Kc & Ks & zs & W). split; auto. split; auto. exists zs. split; auto. destruct W as (_ & Wg & _). lia.
  Qed.

  (** One call of optimize on a collector that already searched. *)
  Lemma more : forall c gd s c' gd' s', single c -> good_scores ok (c_fitness c) -> searching c gd s -> run_loop fuel c gd s = Ok (c', gd') s' ->
    same_comps c c' /\ searching c' gd' s' /\ exists y zs gd1 s1, again gd s gd1 s1 /\ searching c gd1 s1 /\
      hist_best gd1 = hist_best gd ++ [SV1 y] /\
      went_on c gd1 s1 zs gd' s' /\ (length zs <= Z.to_nat (num_generations gd - 1))%nat /\
      (forall h, (0 < h < length zs)%nat -> exists e c2 gd2 s2, early_stop gd = Some e /\ no_improve gd2 <= e /\ searching c2 gd2 s2 /\ went_on c gd1 s1 (firstn h zs) gd2 s2) /\
      (length zs = Z.to_nat (num_generations gd - 1) \/ (0 < length zs)%nat /\ exists e, early_stop gd = Some e /\ e < no_improve gd').
  Proof.
    intros c gd s c' gd' s' Si Go Se H. apply run_steps in H. destruct H as (gd1 & s1 & k & F & Lk & T & Mid & _ & End).
    destruct (again_first c (c_fitness c) gd s gd1 s1 (proj1 Si) Se F) as [Ag S1]. pose proof (ag_params _ _ _ _ Ag) as (Q1 & Q2 & Q3). rewrite Q1 in Lk, End.
    destruct (ag_hist _ _ _ _ Ag) as (y & Eh & _).
    destruct (more_steps c gd1 s1 Si Go S1 _ _ _ _ T) as (Sc & S2 & zs & Lz & W). split; auto. split; auto. exists y, zs, gd1, s1. rewrite Lz.
    split; auto. split; auto. split; auto. split; auto. split; auto. split.
    - intros h Hh. destruct (steps_prefix _ _ _ _ _ _ _ _ T h) as (c2 & gd2 & s2 & Ta & Tb); [lia|].
      destruct (more_steps c gd1 s1 Si Go S1 _ _ _ _ Ta) as (Sc2 & S3 & zs2 & Lz2 & W2).
      destruct (Mid h c2 gd2 s2 Hh Ta) as (e & Ee & Le). exists e, c2, gd2, s2. pose proof W2 as (W2h & _ & (_ & W2e & _) & _).
      split; [congruence|]. split; auto. split; auto.
      assert (Ez : zs2 = firstn h zs); [|rewrite <- Ez; auto].
      destruct Sc2 as (E1 & E2 & E3 & E4).
      destruct (more_steps c2 gd2 s2) with (k := (k - h)%nat) (c' := c') (gd' := gd') (s' := s') as (_ & _ & zs3 & _ & W3); auto.
      { destruct Si as (Fk & Ng & Ho). split; [congruence|]. split; [congruence|rewrite E2; exact Ho]. }
      { rewrite E1. exact Go. }
      destruct W3 as (W3h & _). destruct W as (Wh & _). rewrite Wh, W2h, <- app_assoc in W3h. apply app_inv_head in W3h. rewrite <- map_app in W3h.
      apply map_SV1_inj in W3h. subst zs. rewrite firstn_app, Lz2, Nat.sub_diag, firstn_all2, app_nil_r by lia. auto.
    - destruct End as [->|(Hk & e & Ee & Le)]; [left; lia|right]. split; [lia|]. exists e. destruct W as (_ & _ & (_ & We & _) & _). split; [congruence|auto].
  Qed.

  (** The facts a sequence of calls keeps: the collector is searching, its parameters
      are those given first, and the objective has been called once for each initial
      individual and once for each child. *)
  Definition sess_inv (c : comps) (gd0 : gadata) (s0 : st) (n : nat) (c1 : comps) (gd1 : gadata) (s1 : st) : Prop :=
    same_comps c c1 /\ searching c1 gd1 s1 /\
    (num_generations gd1 = num_generations gd0 /\ early_stop gd1 = early_stop gd0 /\ children_percent gd1 = children_percent gd0 /\
     num_individ (population gd1) = num_individ (population gd0)) /\
    Z.of_nat n <= idx_generation gd1 <= Z.of_nat n * Z.max 1 (num_generations gd0) /\
    (plain (c_selection c) -> forall x, ntrunc (nmul (children_percent gd0) (nofZ (num_individ (population gd0)))) = Some x ->
      Z.of_nat (length (log s1)) = Z.of_nat (length (log s0)) + Z.max 0 (num_individ (population gd0)) + (idx_generation gd1 - Z.of_nat n) * Z.max 0 x).

  Section Start.
    Context (c : comps) (gd0 : gadata) (s0 : st).
    Context (Single : single c) (Good : good_scores ok (c_fitness c)) (Start : started gd0 s0).

    Lemma first_searching : forall k c' gd' s', at_generation fuel c gd0 s0 k c' gd' s' -> searching c' gd' s'.
    Proof.
      intros k c' gd' s' A.
      destruct (gen_inv ok NL fuel c gd0 s0 Single Good Start (best_inv ok)) with (k := k) (c' := c') (gd' := gd') (s' := s') as (G & _ & B); auto.
      - intros gd s cs l0 bst md w F G. eapply best_inv_first; eauto.
      - intros c1 gd1 s1 c2 gd2 s2 kids els h cs l0 bst md w _ G1 B1 St G2. apply (best_inv_step ok NL _ _ _ _ _ _ _ _ _ _ _ _ _ _ G1 B1 St G2).
      - split; auto. split; auto. split; [eapply gen_records; eauto|]. rewrite (gen_number ok NL fuel c gd0 s0 Single Good Start _ _ _ _ A). lia.
    Qed.
    Lemma session_inv : forall n c1 gd1 s1, sessions c gd0 s0 n c1 gd1 s1 -> sess_inv c gd0 s0 n c1 gd1 s1.
    Proof.
      intros n c1 gd1 s1 H. induction H as [c1 gd1 s1 H|n c1 gd1 s1 c2 gd2 s2 H IH R].
      - apply collector_run in H. pose proof (run_ends _ _ _ _ _ _ _ H) as (k & A).
        destruct (gen_inv ok NL fuel c gd0 s0 Single Good Start (fun _ _ _ => True)) with (k := k) (c' := c1) (gd' := gd1) (s' := s1) as (_ & Sc & _); auto.
        pose proof (gen_number ok NL fuel c gd0 s0 Single Good Start _ _ _ _ A) as Gn.
        destruct (params_kept ok NL fuel c gd0 s0 Single Good Start _ _ _ _ A) as (P1 & P2 & P3 & P4 & P5).
        destruct (C39_stopping ok NL fuel c gd0 s0 Single Good Start _ _ _ H) as (_ & _ & _ & Hg & _).
        split; auto. split; [eapply first_searching; eauto|]. split; auto. split; [lia|].
        intros Ps x Hx. rewrite (C43_run_count ok NL fuel c gd0 s0 Single Good Start _ _ _ _ x A Ps Hx). lia.
      - apply collector_run in R. destruct IH as ((E1 & E2 & E3 & E4) & Se & (P1 & P2 & P3 & P4) & Hg & Cn).
        destruct (more c1 gd1 s1 c2 gd2 s2) as ((F1 & F2 & F3 & F4) & Se2 & y & zs & gdr & sr & Ag & _ & Eh & W & Lz & _); auto.
        { destruct Single as (Fk & Ng & Ho). split; [congruence|]. split; [congruence|rewrite E2; exact Ho]. }
        { rewrite E1. exact Good. }
        destruct W as (_ & Wg & (W1 & W2 & W3 & W4 & W5) & _ & _ & calls & Wl & Wc).
        destruct (ag_params _ _ _ _ Ag) as (Q1 & Q2 & Q3). pose proof (ag_gen _ _ _ _ Ag) as Ga. pose proof (ag_pop _ _ _ _ Ag) as Pa.
        split; [repeat split; congruence|]. split; auto. split; [repeat split; congruence|]. rewrite P1 in Lz. split; [nia|].
        intros Ps x Hx. rewrite Wl, app_length, (ag_log _ _ _ _ Ag). rewrite <- E2 in Ps. rewrite Q3, Pa, P3, P4 in Wc. specialize (Wc Ps x Hx).
        rewrite E2 in Ps. specialize (Cn Ps x Hx). lia.
    Qed.

    (** C65.  After [n] calls of optimize: the recorded best scores never decrease over
        all calls together; best_solution carries the last one; the counter is the
        number of generations since the last improvement, across calls; there are
        between 1 and max(1, num_generations) generations per call; and (for the
        selections that make int(children_percent * num_individ) pairs) the objective
        was called once per initial individual and once per child: a call of optimize
        records its first generation without evaluating anything. *)
    Theorem C65_calls : forall n c1 gd1 s1, sessions c gd0 s0 n c1 gd1 s1 ->
      exists xs y i g x, hist_best gd1 = map SV1 (xs ++ [y]) /\ Z.of_nat (length (xs ++ [y])) = idx_generation gd1 /\
        never_decreases (xs ++ [y]) /\ best_solution gd1 = BSingle i g /\ score i = SV1 x /\ neqb x y = true /\
        stagnant (xs ++ [y]) (no_improve gd1) /\
        Z.of_nat n <= idx_generation gd1 <= Z.of_nat n * Z.max 1 (num_generations gd0) /\
        (plain (c_selection c) -> forall x, ntrunc (nmul (children_percent gd0) (nofZ (num_individ (population gd0)))) = Some x ->
          Z.of_nat (length (log s1)) = Z.of_nat (length (log s0)) + Z.max 0 (num_individ (population gd0)) + (idx_generation gd1 - Z.of_nat n) * Z.max 0 x).
    Proof.
      intros n c1 gd1 s1 H. apply session_inv in H. destruct H as (_ & (G & B & R & P) & _ & Hg & Cn).
      destruct B as (xs & y & i & g & x & l1 & b1 & Eh & Fo & Ss & Eb & Ei & Ox & Exy & Em & Sb).
      destruct (records_stagnant ok _ R P) as (xs' & Eh' & Lx & Sx). rewrite Eh in Eh'. apply map_SV1_inj in Eh'. subst xs'.
      exists xs, y, i, g, x. repeat split; auto; try lia. eapply sorted_never_decreases; eauto.
    Qed.

    (** A further call, exactly: it first records the last generation once more (same
        population, nothing evaluated, counter one higher), then makes up to
        num_generations - 1 generations [zs]; individuals from before keep everything
        but numbering and rank; and it goes on after a generation only while the best
        score improved within the last early_stop generations, counting those of the
        earlier calls. *)
    Theorem C65_further_call : forall n c1 gd1 s1 c2 gd2 s2, sessions c gd0 s0 n c1 gd1 s1 -> collector_optimize fuel c1 gd1 s1 = Ok (c2, gd2) s2 ->
      exists xs y zs, hist_best gd1 = map SV1 (xs ++ [y]) /\ hist_best gd2 = map SV1 (xs ++ [y; y] ++ zs) /\
        (length zs <= Z.to_nat (num_generations gd0 - 1))%nat /\
        (forall r, (r < next s1)%nat -> same_core (heap s1 r) (heap s2 r)) /\
        (exists calls, log s2 = calls ++ log s1 /\
          (plain (c_selection c) -> forall x, ntrunc (nmul (children_percent gd0) (nofZ (num_individ (population gd0)))) = Some x ->
            Z.of_nat (length calls) = Z.of_nat (length zs) * Z.max 0 x)) /\
        (forall h m, (0 < h < length zs)%nat -> stagnant (xs ++ [y; y] ++ firstn h zs) m -> exists e, early_stop gd0 = Some e /\ m <= e) /\
        ((length zs < Z.to_nat (num_generations gd0 - 1))%nat -> exists e m, (0 < length zs)%nat /\ early_stop gd0 = Some e /\ stagnant (xs ++ [y; y] ++ zs) m /\ e < m).
    Proof.
      intros n c1 gd1 s1 c2 gd2 s2 H R. apply session_inv in H. apply collector_run in R. destruct H as ((E1 & E2 & E3 & E4) & Se & (P1 & P2 & P3 & P4) & _ & _).
      destruct (more c1 gd1 s1 c2 gd2 s2) as (_ & Se2 & y & zs & gdr & sr & Ag & Ser & Eh & W & Lz & Mid & End); auto.
      { destruct Single as (Fk & Ng & Ho). split; [congruence|]. split; [congruence|rewrite E2; exact Ho]. }
      { rewrite E1. exact Good. }
      destruct (ag_hist _ _ _ _ Ag) as (y' & Eh' & xs & Ehx). rewrite Eh in Eh'. apply app_inv_head in Eh'. inversion Eh'; subst y'. clear Eh'.
      assert (Hz : forall zs gd' s' c', searching c' gd' s' -> went_on c1 gdr sr zs gd' s' -> hist_best gd' = map SV1 (xs ++ [y; y] ++ zs) /\ stagnant (xs ++ [y; y] ++ zs) (no_improve gd')).
      { intros zs' gd' s' c' (_ & _ & Rc & Pc) (Wh & _). rewrite Eh, Ehx in Wh. change [SV1 y] with (map SV1 [y]) in Wh. rewrite <- !map_app, <- !app_assoc in Wh. split; auto.
        destruct (records_stagnant ok _ Rc Pc) as (ys & Ey & _ & Sy). rewrite Wh in Ey. apply map_SV1_inj in Ey. subst ys. exact Sy. }
      destruct (Hz zs gd2 s2 c2 Se2 W) as (Hh & Hs).
      destruct W as (_ & _ & _ & Wn & Wc & calls & Wl & Wk).
      destruct (ag_params _ _ _ _ Ag) as (Q1 & Q2 & Q3). rewrite P1 in *. rewrite P2 in *.
      exists xs, y, zs. split; auto. split; auto. split; auto. split; [|split; [|split]].
      - intros r Hr. rewrite <- (ag_heap _ _ _ _ Ag). apply Wc. destruct (ag_quiet _ _ _ _ Ag) as (-> & _). auto.
      - exists calls. rewrite Wl, (ag_log _ _ _ _ Ag). split; auto. intros Ps x Hx. apply Wk; [rewrite E2; auto|]. rewrite Q3, (ag_pop _ _ _ _ Ag), P3, P4. auto.
      - intros h m Hh2 Sm. destruct (Mid h Hh2) as (e & c3 & gd3 & s3 & Ee & Le & Se3 & W3). exists e. split; auto.
        destruct (Hz _ _ _ _ Se3 W3) as (_ & S3). rewrite (stagnant_unique _ _ _ Sm S3). auto.
      - intros Hl. destruct End as [Ez|(Hp & e & Ee & Le)]; [lia|]. exists e, (no_improve gd2). auto.
    Qed.
    (** So a collector that stopped early stays stopped: every further call makes one
        generation only, unless this generation brings an improvement. *)
    Theorem C65_stopped : forall n c1 gd1 s1 c2 gd2 s2 e, sessions c gd0 s0 n c1 gd1 s1 -> early_stop gd0 = Some e -> e <= no_improve gd1 + 1 ->
      collector_optimize fuel c1 gd1 s1 = Ok (c2, gd2) s2 ->
      idx_generation gd2 <= idx_generation gd1 + 2 \/
      exists xs y z zs, hist_best gd2 = map SV1 (xs ++ [y; z] ++ zs) /\ Z.of_nat (length xs) = idx_generation gd1 /\ nltb y z = true.
    Proof.
      intros n c1 gd1 s1 c2 gd2 s2 e H Es Hn R.
      assert (Hs : sessions c gd0 s0 (S n) c2 gd2 s2) by (econstructor; eauto).
      destruct (C65_calls _ _ _ _ H) as (xs0 & y0 & i & g & x & Eh0 & L0 & _ & _ & _ & _ & St0 & _).
      destruct (C65_calls _ _ _ _ Hs) as (xs2 & y2 & i2 & g2 & x2 & Eh2 & L2 & Nd & _ & _ & _ & St2 & _).
      destruct (C65_further_call _ _ _ _ _ _ _ H R) as (xs & y & zs & Eh & Eh' & Lz & _ & _ & Mid & _).
      rewrite Eh in Eh0. apply map_SV1_inj in Eh0. rewrite Eh' in Eh2. apply map_SV1_inj in Eh2. rewrite <- Eh0 in *. rewrite <- Eh2 in *.
      rewrite !app_length in L0, L2. cbn [length] in L0, L2.
      destruct zs as [|z zs]; [left; cbn in L2; lia|]. destruct zs as [|z' zs]; [left; cbn in L2; lia|].
      destruct (nltb y z) eqn:Eyz.
      - right. exists (xs ++ [y]), y, z, (z' :: zs). split; [rewrite Eh', <- app_assoc; reflexivity|]. split; [rewrite app_length; cbn; lia|auto].
      - exfalso. assert (Sm : stagnant (xs ++ [y; y] ++ [z]) (no_improve gd1 + 2)).
        { destruct St0 as (g0 & x0 & Hg & L & K). exists g0, x0. assert (Hl : (g0 < length (xs ++ [y]))%nat) by (apply nth_error_Some; congruence).
          replace (xs ++ [y; y] ++ [z]) with ((xs ++ [y]) ++ [y; z]) by (rewrite <- app_assoc; reflexivity).
          split; [rewrite nth_error_app1 by auto; auto|]. split; [rewrite !app_length in *; cbn [length] in *; lia|].
          intros j v Hj. destruct (lt_dec j (length (xs ++ [y]))) as [Hlt|Hge]; [rewrite nth_error_app1 in Hj by auto; auto|].
          split; [|lia]. rewrite nth_error_app2 in Hj by lia.
          assert (K1 : nltb x0 y = false) by (apply (K (length xs) y); rewrite nth_error_app2, Nat.sub_diag by lia; auto).
          destruct (j - length (xs ++ [y]))%nat as [|[|j']]; cbn [nth_error] in Hj; [inversion Hj; subst; auto| |destruct j'; discriminate].
          inversion Hj; subst v.
          apply session_inv in Hs. destruct Hs as (_ & (_ & B & _) & _). destruct B as (ys & yl & _ & _ & _ & _ & _ & Ehb & Fo & _).
          rewrite Eh' in Ehb. apply map_SV1_inj in Ehb. rewrite <- Ehb in Fo. rewrite Forall_forall in Fo.
          assert (Ox : ok x0). { apply Fo. apply nth_error_In in Hg. apply in_app_or in Hg. cbn. destruct Hg as [Hg|[<-|[]]]; apply in_or_app; [left; auto|right; left; auto]. }
          assert (Oy : ok y) by (apply Fo; apply in_or_app; right; left; auto).
          assert (Oz : ok z) by (apply Fo; apply in_or_app; right; right; right; left; auto).
          apply (no_negtrans _ _ NL x0 y z); auto. }
        destruct (Mid 1%nat (no_improve gd1 + 2)) as (e' & Ee & Le); [cbn; lia|exact Sm|]. rewrite Es in Ee. inversion Ee; subst. lia.
    Qed.
  End Start.
End Resume.

Local Existing Instance Qops.
(** A collector asked to optimize three times: 4 initial individuals, at most 3
    generations per call, two children per generation. *)
Definition collector (es : option Z) : M gadata :=
  collector_set_population false 4 3 (GenCat pools) [] (6#10) es.
Definition parts : comps :=
  mkComps (mkFit Hyperbola demo_obj TNone None None ["optimize"%string] false []) (SelTournament 2) Uniform (MutCat (1#2)) (mkNG false TBest).
Definition thrice (es : option Z) : M (list gadata) :=
  gd <- collector es ;; r1 <- collector_optimize 50 parts gd ;; r2 <- collector_optimize 50 (fst r1) (snd r1) ;;
  r3 <- collector_optimize 50 (fst r2) (snd r2) ;; ret [snd r1; snd r2; snd r3].
Definition calls_view (l : list gadata) (s : st) : list (Z * Z * list sval) * nat :=
  (map (fun gd => (idx_generation gd, no_improve gd, hist_best gd)) l, length (log s)).
(** early_stop = 0: the second call adds the repeated generation and one more; the
    third finds an improvement in its first new generation and goes on.  In all
    4 + (7 - 3) * 2 evaluations. *)
Example C65_case : observe calls_view (thrice (Some 0) fresh_world) =
  Some ([(2, 1, map q (map inject_Z [-4; -4]));
         (4, 3, map q (map inject_Z [-4; -4; -4; -4]));
         (7, 0, map q (map inject_Z [-4; -4; -4; -4; -4; -2; 0]))], 12%nat).
Proof. run. Qed.
(** The hypotheses of the theorems hold of it: a state reached by three calls. *)
Lemma thrice_sessions : forall es s l s', thrice es s = Ok l s' -> exists gd0 s0 c3 gd1 gd2 gd3, started gd0 s0 /\
  sessions 50 parts gd0 s0 3 c3 gd3 s' /\ l = [gd1; gd2; gd3] /\ early_stop gd0 = es.
Proof.
  intros es s l s' E. unfold thrice in E. bd E gd s0 R0. bd E r1 s1 R1. bd E r2 s2 R2. bd E r3 s3 R3. apply ret_ok in E. destruct E as [-> ->].
  destruct r1 as [c1 gd1], r2 as [c2 gd2], r3 as [c3 gd3]. cbn [fst snd] in *. exists gd, s0, c3, gd1, gd2, gd3.
  unfold collector, collector_set_population in R0. bd R0 u sa D. bd R0 p sb L. apply lift_ok in L. destruct L as [Sp ->]. bd R0 p' sc Fi. apply ret_ok in R0. destruct R0 as [-> ->].
  split; [exists 4, (GenCat pools), [], p, sa, p', 3, (6#10)%Q, es; auto|]. split; [|auto].
  eapply session_S; [eapply session_S; [apply session_1; exact R1|exact R2]|exact R3].
Qed.
Example C65_meets : exists gd0 s0 c3 gd3 s3, single parts /\ good_scores (fun _ => True) (c_fitness parts) /\ started gd0 s0 /\
  sessions 50 parts gd0 s0 3 c3 gd3 s3 /\ idx_generation gd3 = 7 /\ early_stop gd0 = Some 0.
Proof.
  destruct (observe_some _ _ _ C65_case) as (l & s & E & V). destruct (thrice_sessions _ _ _ _ E) as (gd0 & s0 & c3 & gd1 & gd2 & gd3 & St & Se & -> & Es).
  exists gd0, s0, c3, gd3, s. split; [repeat split; auto|]. split; [apply good_scores_any; reflexivity|]. split; auto. split; auto. split; auto.
  apply (f_equal (fun v => map (fun t => fst (fst t)) (fst v))) in V. cbn in V. inversion V; auto.
Qed.
Print Assumptions C65_calls.
Print Assumptions C65_further_call.
Print Assumptions C65_stopped.
