(** How likely a multi-objective run is to miss a point of the search space. *)
From Coq Require Import String.
From Coq Require Import ZArith QArith List Bool Lia Lqa Permutation.
From Verif Require Import Spec Num State Binary Population GaData Crossover Mutation Selection Penalty Fitness NewGeneration Driver
  ListLemmas Rnd Exec Laws PopulationProofs CrossoverProofs MutationProofs SelectionProofs VegaProofs
  NewGenProofs UpdateProofs FitnessProofs StepProofs RunProofs Runs DomainProofs SafetyProofs Fuelless SeedProofs ReachProofs
  RankingProofs MultiProofs MultiRuns MultiSafetyProofs
  Chance ChanceProofs SelChanceProofs PropSelChance PropMutChance ChanceRun ChanceRunProofs ConvergeProofs.
Import ListNotations.
Open Scope list_scope.
Open Scope Z_scope.

Section MultiConverge.
  Context {NO : NumOps}.
  Context (ok : num -> Prop) (NL : NumOrder NO ok) (Ct : counting ok) (F : list gv -> list num) (m : nat).

  (** What is known at every generation, whether or not the run may still raise. *)
  Definition mlight (c : comps) (gd : gadata) (s : st) : Prop :=
    multi_objective ok c F m /\ MI F gd s /\ pop_in gd s /\
    belongs (c_crossover c) (c_mutation c) (gspec_of (population gd)) /\
    forall k, num_pairs (c_selection c) gd k -> (1 <= k)%nat.
  Lemma mlight_source : forall c gd s t e, mlight c gd s -> mlight c gd (set_source t e s).
  Proof. intros c gd s t e (A & G & R). split; auto. split; auto. destruct G as [A1 A2 A3 A4 A5 A6 A7]. constructor; auto. Qed.
  Lemma num_pairs_same : forall sel gd gd' k, num_individ (population gd') = num_individ (population gd) -> children_percent gd' = children_percent gd ->
    num_pairs sel gd' k -> num_pairs sel gd k.
  Proof.
    intros sel gd gd' k E1 E2 H. unfold num_pairs, pairs_wanted in *. rewrite E1, E2 in H. exact H.
  Qed.
  Lemma mlight_step : forall fuel c gd s c' gd' s', mlight c gd s -> ga_step fuel c gd s = Ok (c', gd') s' ->
    exists kids els h1 h2 rc cs front, MStep F c gd s c' gd' s' kids els h1 h2 rc cs front /\ mlight c' gd' s'.
  Proof.
    intros fuel c gd s c' gd' s' ((Mk & Sy & Sz & Ho) & I & P & B & Np) R.
    destruct (multi_step_ok ok fuel F m c gd s c' gd' s' NL Ct Mk Sy Sz Ho I R) as (kids & els & h1 & h2 & rc & cs & front & St & I').
    exists kids, els, h1, h2, rc, cs, front. split; auto.
    destruct (mstep_in _ _ _ _ _ _ _ _ _ _ _ _ _ _ St I B P) as (_ & P' & _).
    destruct (mstep_same_comps _ _ _ _ _ _ _ _ _ _ _ _ _ _ St) as (E1 & E2 & E3 & E4).
    destruct (ms_comps _ _ _ _ _ _ _ _ _ _ _ _ _ _ St) as (m' & Ec & Em). destruct (ms_params _ _ _ _ _ _ _ _ _ _ _ _ _ _ St) as (_ & _ & F3).
    pose proof (ms_pop _ _ _ _ _ _ _ _ _ _ _ _ _ _ St) as Epop.
    split; [split; [rewrite E1; auto|split; [rewrite E1; auto|split; [exact Sz|rewrite E2; auto]]]|]. split; auto. split; auto. split.
    - rewrite Epop, E3. cbn [gspec_of set_members]. rewrite Ec. cbn [c_mutation set_mutation]. eapply belongs_sort; [|exact B].
      destruct (c_mutation c) as [k l|l|l]; rewrite ?Em; try (destruct Em as (x & ->)); cbn; auto.
    - rewrite E2. intros k Hk. apply Np. eapply num_pairs_same; [| |exact Hk]; [rewrite Epop; reflexivity|exact F3].
  Qed.

  (** *** One generation *)
  Lemma mfirst_child : forall fuel c gd s gd1 s1 gd2 s2, mlight c gd s ->
    selection_execute fuel (c_selection c) gd s = Ok gd1 s1 -> crossover_execute (c_crossover c) gd1 s1 = Ok gd2 s2 ->
    population gd2 = population gd /\ exists r cs, children gd2 = r :: cs /\ ~ In r cs /\ NoDup cs /\
      in_domain (gspec_of (population gd)) (genotype (heap s2 r)).
  Proof.
    intros fuel c gd s gd1 s1 gd2 s2 ((Mk & Sy & Sz & Ho) & Mi & Pi & B & Np) R1 R2. pose proof (mi_alloc _ _ _ Mi) as Ia.
    apply selection_ok in R1; auto. destruct R1 as (T1 & a & n & Hnn & E1 & La & N1 & Fp). destruct T1 as [(Nx1 & L1 & S1 & P1 & C1) T1].
    assert (Hn1 : (1 <= n)%nat) by (apply Np; auto).
    apply crossover_made in R2.
    2:{ rewrite E1. cbn. intros r Hr. apply Ia in Hr. lia. }
    2:{ rewrite E1. cbn [parents set_parents]. intros r Hr. apply in_seq in Hr. cbn. lia. }
    rewrite E1 in R2. cbn [population set_parents parents] in R2. destruct R2 as (first & rest & n' & Em & Ln & E2 & N2 & X2 & F2).
    rewrite seq_length in Ln. assert (n' = n) by lia. subst n'. clear Ln.
    destruct n as [|n]; [lia|]. cbn [seq] in E2, F2.
    assert (G1 : forall r, In r (members (population gd)) -> genotype (heap s1 r) = genotype (heap s r)) by (intros r Hr; destruct (C1 r (Ia r Hr)) as (E & _); auto).
    assert (Par : forall r, In r (seq a (2 * S n)) -> exists m, In m (members (population gd)) /\ genotype (heap s1 r) = genotype (heap s m)).
    { intros r Hr. rewrite Forall_forall in Fp. destruct (Fp r Hr) as (m0 & Im & E). exists m0. split; auto. destruct E as (E & _). auto. }
    split; [rewrite E2; reflexivity|]. exists (next s1), (seq (S (next s1)) n). split; [rewrite E2; reflexivity|].
    assert (Nd : NoDup (seq (next s1) (S n))) by apply seq_NoDup. inversion Nd as [|? ? Nc Nd']; subst. split; auto. split; auto.
    rewrite Forall_forall in F2. destruct (F2 (next s1) (or_introl eq_refl)) as (p1 & p2 & g & I1 & I2 & Ma & E). rewrite E. cbn.
    assert (If : In first (members (population gd))) by (rewrite Em; left; auto).
    destruct (Par _ I1) as (m1 & M1 & Eq1). destruct (Par _ I2) as (m2 & M2 & Eq2). rewrite Eq1, Eq2, G1 in Ma by auto.
    eapply domain_made; [exact B| | | |exact Ma]; apply Pi; auto.
  Qed.

  (** A mutated child is evaluated. *)
  Lemma child_called : forall fuel c gd s gd1 s1 gd2 s2 m' s3 c' gd' s', mlight c gd s ->
    selection_execute fuel (c_selection c) gd s = Ok gd1 s1 -> crossover_execute (c_crossover c) gd1 s1 = Ok gd2 s2 ->
    mutation_execute (c_mutation c) gd2 s2 = Ok m' s3 -> ga_step fuel c gd s = Ok (c', gd') s' ->
    forall r, In r (children gd2) -> In r (members (population gd')) /\ genotype (heap s' r) = genotype (heap s3 r) /\
      exists calls pt v, log s' = calls ++ log s /\ In (pt, v) calls /\ spec_point (gspec_of (population gd)) (genotype (heap s' r)) pt.
  Proof.
    intros fuel c gd s gd1 s1 gd2 s2 m' s3 c' gd' s' ML R1 R2 R3 H r Hr.
    pose proof ML as ((Mk & Stdy & Sz & Ho) & [Im Iu Ib Ia It Ir Iasc] & Pi & B & Np).
    assert (G : In r (members (population gd')) /\ genotype (heap s' r) = genotype (heap s3 r) /\ (next s <= r)%nat).
    { unfold ga_step in H. unfold bind at 1 in H. rewrite R1 in H. unfold bind at 1 in H. rewrite R2 in H. unfold bind at 1 in H. rewrite R3 in H.
      apply selection_ok in R1; auto. destruct R1 as (T1 & a & n & Hn & -> & La & N1 & Fp). destruct T1 as [(Nx1 & L1 & S1 & P1 & C1) T1].
      apply crossover_made in R2.
      2:{ cbn. intros x Hx. apply Ia in Hx. lia. }
      2:{ cbn [parents set_parents]. intros x Hx. apply in_seq in Hx. lia. }
      cbn [population set_parents parents] in R2. destruct R2 as (first & rest & n' & Em & Ln & -> & N2 & X2 & F2).
      rewrite seq_length in Ln. assert (n' = n) by lia. subst n'. clear Ln. destruct X2 as (_ & L2 & S2 & P2 & X2).
      set (kids := seq (next s1) n) in *. assert (NDk : NoDup kids) by apply seq_NoDup.
      assert (Hkids : forall x, In x kids <-> (next s1 <= x < next s1 + n)%nat) by (intros; apply in_seq).
      apply mutation_execute_ok in R3; [|exact NDk]. cbn [children set_children population set_parents] in R3, Hr.
      destruct R3 as [(N3 & L3 & S3 & P3 & Mu) Hm'].
      assert (Old3 : forall x, (x < next s)%nat -> heap s3 x = heap s1 x).
      { intros x Hx. destruct (Mu x) as (g & E & _ & K). rewrite K in E; [|rewrite Hkids; lia]. rewrite E, set_genotype_same. apply X2. lia. }
      assert (Core3 : forall x, (x < next s)%nat -> same_core (heap s x) (heap s3 x)) by (intros x Hx; rewrite Old3 by auto; auto).
      bd H gd3 s4 R4.
      assert (G : exists els, incl els (members (population gd)) /\ s4 = set_tape (tape s4) s3 /\ gd3 = with_next (kids ++ els) (set_children kids (set_parents (seq a (2 * n)) gd))).
      { destruct (ng_multi (c_newgen c)) eqn:Ng.
        - apply newgen_multi_ok in R4; auto; cbn [children set_children population set_parents] in *.
          2:{ intros x Hx. eapply decoded_phen; [exact Ib|]. eapply decoded_core; [apply Core3; auto|]. apply It; auto. }
          destruct R4 as (els & Ie & E4 & -> & Tk). exists els. auto.
        - apply newgen_single_ok in R4; auto. cbn [children set_children population set_parents] in R4.
          destruct R4 as (l & els & So & Tk & E4 & ->). apply sorted_from_perm in So.
          assert (Ne : l <> []) by (intros ->; apply Permutation_nil in So; rewrite So in Em; discriminate).
          destruct (list_snoc _ Ne) as (l1 & b & Eb). rewrite Eb in Tk. destruct (taken_snoc s3 _ _ l1 b els Tk) as (e & Ee & Ie). rewrite <- Eb in Ie, Tk.
          exists els. split; [|auto].
          rewrite Ee. intros x Hx. apply (Permutation_in _ So). apply in_app_or in Hx. destruct Hx as [Hx|[<-|[]]]; auto. rewrite Eb. apply in_or_app; right; left; auto. }
      destruct G as (els & Iels & E4 & ->).
      assert (H4 : heap s4 = heap s3) by (rewrite E4; auto). clear E4.
      assert (Hun1 : forall x, In x kids -> unscored s4 x = true).
      { intros x Hx. rewrite Forall_forall in F2. destruct (F2 x Hx) as (p1 & p2 & g & _ & _ & _ & E). destruct (Mu x) as (g' & E' & _).
        unfold unscored. rewrite H4, E', E. reflexivity. }
      assert (Hun2 : forall x, In x els -> unscored s4 x = false).
      { intros x Hx. apply Iels in Hx. destruct (It x Hx) as [U _]. rewrite (unscored_core s s4 x); auto. rewrite H4. auto. }
      bd H u5 s5 R5. apply (multi_fitness_ok ok NL _ F m) in R5; auto.
      2:{ cbn [population with_next set_children set_population set_sorted set_members members]. intros x Hx Hu. apply in_app_or in Hx.
          destruct Hx as [Hx|Hx]; [apply once_app; auto|]; [intros C; apply Iels, Ia in C; apply Hkids in Hx; lia|]. rewrite Hun2 in Hu by auto. discriminate. }
      cbn [population with_next set_children set_population set_sorted set_members set_parents members gspec_of idx_generation best_solution] in R5.
      rewrite (news_app s4 kids els NDk Hun1 Hun2) in R5.
      destruct R5 as (h1 & h2 & rc & cs & Fh & Fo & [Rk1 Rk2] & Lrc & Rpt & _ & L5 & As & O5).
      assert (Keep : forall x, In x (kids ++ els) -> genotype (heap s5 x) = genotype (h1 x) /\ phenotype (heap s5 x) = phenotype (h1 x) /\
        rank (heap s5 x) = Some (SV1 (ones (rank_count F h1 (kids ++ els) x)))).
      { intros x Hx. destruct (in_dec Nat.eq_dec x kids) as [i|i].
        - destruct (assessed_in _ _ _ _ _ _ _ _ _ _ As i) as (v & k' & _ & Cv & Av). apply assess_keeps in Av. destruct Av as (A1 & A2 & _ & A4).
          rewrite A1, A2, A4, Rk1 by auto. cbn. auto.
        - rewrite O5, Rk1 by auto. cbn. auto. }
      assert (Wr5 : well_ranked F s5 (kids ++ els)).
      { intros x Hx. destruct (Keep x Hx) as (_ & _ & ->). do 3 f_equal. apply rank_count_ext; auto. intros y Hy. unfold phen. destruct (Keep y Hy) as (_ & -> & _). auto. }
      bd H gd4 s6 R6. apply ret_ok in H. destruct H as [E ->]. inversion E; subst c' gd4. clear E.
      unfold update in R6. cbn [is_multi with_next set_children set_population set_parents] in R6. rewrite Im in R6.
      apply (update_multi_ok ok NL Ct F) in R6; auto. destruct R6 as (-> & l & front & Pm & Asc & FF & ->).
      cbn [multi_updated population with_next set_children set_population set_parents set_sorted set_members members] in Pm |- *.
      assert (Hrk : In r (kids ++ els)) by (apply in_or_app; auto).
      split; [apply (Permutation_in _ (Permutation_sym Pm)); exact Hrk|]. split.
      - destruct (Keep r Hrk) as (-> & _). rewrite (filled_genotype _ _ _ (Fh r Hrk)), H4. reflexivity.
      - apply Hkids in Hr. lia. }
    destruct G as (Imr & Eg & Lr). split; auto. split; auto.
    destruct (mlight_step _ _ _ _ _ _ _ ML H) as (kids & els & h1 & h2 & rc & cs & front & St & _).
    pose proof (ms_perm _ _ _ _ _ _ _ _ _ _ _ _ _ _ St) as Pm. apply (Permutation_in _ Pm), in_app_or in Imr. destruct Imr as [Ik|Ie].
    2:{ apply (ms_els _ _ _ _ _ _ _ _ _ _ _ _ _ _ St), Ia in Ie. lia. }
    destruct (assessed_in _ _ _ _ _ _ _ _ _ _ (ms_eval _ _ _ _ _ _ _ _ _ _ _ _ _ _ St) Ik) as (v & k & Ic & _ & A).
    exists (rev cs ++ rev rc), (point (gspec_of (population gd)) (h2 r)), v. split; [rewrite <- app_assoc; apply (ms_log _ _ _ _ _ _ _ _ _ _ _ _ _ _ St)|].
    split; [apply in_or_app; left; rewrite <- in_rev; auto|]. apply assess_keeps in A. destruct A as (-> & _). apply decoded_point.
    destruct (ms_ranks _ _ _ _ _ _ _ _ _ _ _ _ _ _ St) as [Rk _]. rewrite Rk by (apply in_or_app; auto).
    pose proof (proj2 (ms_fresh _ _ _ _ _ _ _ _ _ _ _ _ _ _ St r Ik)) as D. exact D.
  Qed.

  Section Target.
    Variable T : list gv -> bool.
    Variable Y : list gv -> bool.
    Variable n0 : nat.

    Lemma mstep_worth : forall fuel c gd s (a b w q eta : Q), mlight c gd s -> rnd_seed s = None ->
      may_hit T Y (c_mutation c) (gspec_of (population gd)) q -> (n0 <= length (log s))%nat ->
      (0 <= a)%Q -> (0 <= b)%Q -> (0 <= q)%Q ->
      at_most s (spent w) (selection_execute fuel (c_selection c) gd) eta ->
      at_most s (worth Y n0 a b w) (ga_step fuel c gd) (a * q * unseen Y n0 s + b + eta).
    Proof.
      intros fuel c gd s a b w q eta G Hs (TY & f & Mf & Hit) Ln Ha Hb Hq Hsel. unfold ga_step.
      pose proof (unseen_bounds Y n0 s) as Us. set (K := (a * q * unseen Y n0 s + b)%Q).
      assert (Kp : (0 <= K)%Q). { unfold K. assert (0 <= a * q * unseen Y n0 s)%Q by (repeat apply Qmult_le_0_compat; tauto). lra. }
      apply (am_bind s _ _ _ (fun _ _ => K)).
      { eapply (am_affine s (spent w) _ _ eta 1 K); [lra|exact Hsel| |lra]. intros o _. destruct o; cbn [spent worth]; lra. }
      intros gd1 s1 A1. pose proof (arises_seedless _ _ _ _ (tr_selection_execute _ _ _) Hs A1) as Hs1.
      apply (am_bind s1 _ _ _ (fun _ _ => K)).
      { apply tree_bound; auto; [apply tr_crossover_execute|]. intros o Ho. destruct o; cbn [worth]; try apply Qle_refl; auto.
        exfalso. apply (arises_fuel _ _ (fl_crossover_execute _ _) Ho). }
      intros gd2 s2 A2. pose proof (arises_seedless _ _ _ _ (tr_crossover_execute _ _) Hs1 A2) as Hs2.
      assert (Ch : population gd2 = population gd /\ exists r cs, children gd2 = r :: cs /\ ~ In r cs /\ NoDup cs /\
        in_domain (gspec_of (population gd)) (genotype (heap s2 r))).
      { destruct (A2 (tape s2) (ent s2)) as (t2 & e2 & E2). destruct (A1 t2 e2) as (t1 & e1 & E1). cbn [with_source] in E1, E2.
        exact (mfirst_child fuel c gd (set_source t1 e1 s) gd1 (set_source t2 e2 s1) gd2 (set_source (tape s2) (ent s2) s2) (mlight_source _ _ _ _ _ G) E1 E2). }
      destruct Ch as (Ep & r & cs & Ec & Nc & Nd & Dc).
      apply (am_bind s2 _ _ _ (fun _ s3 => a * unseen Y n0 s * indicator (negb (T (genotype (heap s3 r)))) + b)%Q).
      { apply (am_affine s2 (missed T r) _ _ q (a * unseen Y n0 s) b).
        - apply Qmult_le_0_compat; tauto.
        - eapply execute_misses; eauto. rewrite Ep. exact Mf.
        - intros o Ho. destruct o; cbn [worth missed]; [apply Qle_refl| |exfalso; apply (arises_fuel _ _ (fl_mutation_execute _ _) Ho)].
          setoid_replace (a * unseen Y n0 s * 0 + b)%Q with b by ring. exact Hb.
        - unfold K. apply Qle_lteq. right. ring. }
      intros m' s3 A3. pose proof (arises_seedless _ _ _ _ (tr_mutation_execute _ _) Hs2 A3) as Hs3.
      assert (Ip : (0 <= a * unseen Y n0 s * indicator (negb (T (genotype (heap s3 r)))))%Q).
      { apply Qmult_le_0_compat; [apply Qmult_le_0_compat; tauto|apply indicator_bounds]. }
      apply tree_bound; auto.
      { repeat (apply tr_bind; [|intros ?]); [apply tr_newgen|apply tr_fitness_execute|apply tr_update|apply tr_ret]. }
      intros o Ho. destruct o as [[c' gd'] s'|x|]; cbn [worth]; [|lra|exfalso; refine (arises_fuel _ _ _ Ho)].
      2:{ repeat (apply fl_bind; [|intros ?]); [apply fl_newgen|apply fl_fitness_execute|apply fl_update|apply fl_ret]. }
      destruct (Ho (tape s') (ent s')) as (t4 & e4 & E4). destruct (A3 t4 e4) as (t3 & e3 & E3). destruct (A2 t3 e3) as (t2 & e2 & E2). destruct (A1 t2 e2) as (t1 & e1 & E1).
      cbn [with_source] in E1, E2, E3, E4.
      pose proof (mlight_source _ _ _ t1 e1 G) as Gx.
      assert (R : ga_step fuel c gd (set_source t1 e1 s) = Ok (c', gd') (set_source (tape s') (ent s') s')).
      { unfold ga_step. unfold bind at 1. rewrite E1. unfold bind at 1. rewrite E2. unfold bind at 1. rewrite E3. exact E4. }
      destruct (child_called fuel c gd _ _ _ _ _ _ _ c' gd' _ Gx E1 E2 E3 R r) as (Im & Eg & calls & pt & v & El & Ic & Sp); [rewrite Ec; left; auto|].
      change (heap (set_source (tape s') (ent s') s') r) with (heap s' r) in *. change (heap (set_source t4 e4 s3) r) with (heap s3 r) in Eg.
      change (log (set_source (tape s') (ent s') s')) with (log s') in El. change (log (set_source t1 e1 s)) with (log s) in El.
      destruct (T (genotype (heap s3 r))) eqn:ET.
      - assert (D3 : in_domain (gspec_of (population gd)) (genotype (heap s' r))).
        { destruct (mlight_step _ _ _ _ _ _ _ Gx R) as (kids & els & h1 & h2 & rc & cs' & front & St & (_ & _ & Pi3 & _)).
          specialize (Pi3 r Im). rewrite (ms_pop _ _ _ _ _ _ _ _ _ _ _ _ _ _ St) in Pi3. exact Pi3. }
        rewrite <- Eg in ET.
        assert (Se : seen Y n0 s' = true). { rewrite (seen_more _ _ _ _ _ Ln El). apply orb_true_iff. left. apply existsb_exists. exists (pt, v). split; [exact Ic|]. cbn. eapply TY; eauto. }
        unfold unseen at 1. rewrite Se. cbn [negb indicator]. lra.
      - cbn [negb indicator]. pose proof (unseen_grows Y n0 _ _ _ Ln El). assert (a * unseen Y n0 s' <= a * unseen Y n0 s)%Q by (rewrite !(Qmult_comm a); apply Qmult_le_compat_r; auto). lra.
    Qed.

    (** *** The main loop *)
    Definition mbounded_wait (Inv : comps -> gadata -> st -> Prop) (fuel : nat) (w eta : Q) : Prop :=
      (forall c gd s, mlight c gd s -> rnd_seed s = None -> Inv c gd s -> at_most s (spent w) (selection_execute fuel (c_selection c) gd) eta) /\
      (forall c gd s c' gd' s', mlight c gd s -> Inv c gd s -> ga_step fuel c gd s = Ok (c', gd') s' -> Inv c' gd' s') /\
      (forall c gd s t e, Inv c gd s -> Inv c gd (set_source t e s)).
    Lemma mloop_worth : forall Inv fuel w q eta, (0 <= q)%Q -> (0 <= eta)%Q -> mbounded_wait Inv fuel w eta ->
      forall k c gd s e, mlight c gd s -> rnd_seed s = None -> Inv c gd s -> may_hit T Y (c_mutation c) (gspec_of (population gd)) q ->
      (n0 <= length (log s))%nat -> early_stop gd = Some e -> Z.max 0 (no_improve gd) + Z.of_nat k <= e ->
      at_most s (worth Y n0 1 0 w) (ga_loop fuel k c gd) (qpow q k * unseen Y n0 s + inject_Z (Z.of_nat k) * eta).
    Proof.
      intros Inv fuel w q eta Hq He (W1 & W2 & W3) k. induction k as [|k IH]; intros c gd s e G Hs HI MH Ln Es Hn; cbn [ga_loop].
      - eexists. split; [apply ex_done with (o := Ok (c, gd) s); reflexivity|]. cbn [worth qpow]. change (inject_Z (Z.of_nat 0)) with 0%Q. lra.
      - pose proof (mstep_worth fuel c gd s (qpow q k) (inject_Z (Z.of_nat k) * eta) w q eta G Hs MH Ln) as SW.
        assert (Kp : (0 <= inject_Z (Z.of_nat k))%Q) by (unfold Qle; cbn; lia).
        apply (am_bind s _ _ _ (fun r s' => qpow q k * unseen Y n0 s' + inject_Z (Z.of_nat k) * eta)%Q).
        + eapply am_weaken; [apply SW; auto; [apply qpow_nonneg; auto|apply Qmult_le_0_compat; auto]|intros o _; destruct o; apply Qle_refl|].
          apply Qle_lteq. right. cbn [qpow]. rewrite Nat2Z.inj_succ. unfold Z.succ. rewrite inject_Z_plus. change (inject_Z 1) with 1%Q. ring.
        + intros [c' gd'] s' A. destruct (A (tape s') (ent s')) as (t & e0 & R). cbn [with_source] in R. rewrite source_same in R.
          pose proof (mlight_source _ _ _ t e0 G) as Gx.
          destruct (mlight_step _ _ _ _ _ _ _ Gx R) as (kids & els & h1 & h2 & rc & cs & front & St & G').
          destruct (ms_params _ _ _ _ _ _ _ _ _ _ _ _ _ _ St) as (_ & Ee & _).
          assert (Nn : no_improve gd' <= Z.max 0 (no_improve gd) + 1).
          { rewrite (ms_no_improve _ _ _ _ _ _ _ _ _ _ _ _ _ _ St). destruct (inds_eqb _ _); lia. }
          assert (Eg : gspec_of (population gd') = gspec_of (population gd)) by (rewrite (ms_pop _ _ _ _ _ _ _ _ _ _ _ _ _ _ St); reflexivity).
          cbn [fst snd].
          assert (Sp : should_stop gd' = ret false).
          { unfold should_stop. rewrite Ee, Es. destruct (Z.ltb_spec e (no_improve gd')); [lia|reflexivity]. }
          rewrite Sp. destruct (IH c' gd' s' e) as (p & X & Lp); auto.
          * eapply arises_seedless; [|exact Hs|exact A]. apply tr_ga_step.
          * eapply W2; [exact Gx|apply W3; exact HI|exact R].
          * destruct MH as (M1 & f & M2 & M3). rewrite Eg. split; auto. exists f. split; auto. rewrite <- M2.
            destruct (step_level _ _ _ _ _ _ _ R) as [L _].
            { intros gd1 s1 R1. destruct Gx as ((_ & _ & _ & Ho) & Mi & _). apply selection_ok in R1; [|apply (mi_alloc _ _ _ Mi)|exact Ho]. destruct R1 as (_ & a & n & _ & -> & _). reflexivity. }
            destruct (ms_comps _ _ _ _ _ _ _ _ _ _ _ _ _ _ St) as (m' & -> & Em). cbn [c_mutation set_mutation] in *.
            destruct (c_mutation c) as [k' l|l|l]; [rewrite Em; reflexivity| |rewrite Em; reflexivity]. destruct Em as (x & ->).
            cbn [mutator level_of] in *. destruct (gspec_of (population gd)); auto. rewrite <- L. reflexivity.
          * rewrite (ms_log _ _ _ _ _ _ _ _ _ _ _ _ _ _ St), !app_length. cbn [log set_source set_ent set_tape]. lia.
          * congruence.
          * lia.
          * exists p. split; [|exact Lp]. eapply expects_same; [exact X|]. reflexivity.
    Qed.
    Lemma mwaits_any : forall fuel, mbounded_wait (fun _ _ _ => True) fuel 0 0.
    Proof.
      intros fuel. split; [|auto]. intros c gd s _ Hs _. apply tree_bound; auto; [apply tr_selection_execute|]. intros o _. destruct o; cbn; lra.
    Qed.
  End Target.
End MultiConverge.
