(** How likely a run is to miss a point of the search space. *)
From Coq Require Import String.
From Coq Require Import ZArith QArith List Bool Lia Lqa Permutation.
From Verif Require Import Spec Num State Binary Population GaData Crossover Mutation Selection Penalty Fitness NewGeneration Driver
  ListLemmas Rnd Exec Laws PopulationProofs CrossoverProofs MutationProofs SelectionProofs VegaProofs
  NewGenProofs UpdateProofs FitnessProofs StepProofs RunProofs Runs DomainProofs SafetyProofs Fuelless SeedProofs ReachProofs
  Chance ChanceProofs SelChanceProofs PropSelChance PropMutChance ChanceRun ChanceRunProofs.
Import ListNotations.
Open Scope list_scope.
Open Scope Z_scope.

Lemma indicator_bounds : forall b, (0 <= indicator b <= 1)%Q.
Proof. intros []; cbn; lra. Qed.

Section Converge.
  Context {NO : NumOps}.

  Lemma arises_seedless : forall {A} (m : M A) s a s', treelike m -> rnd_seed s = None -> arises m s (Ok a s') -> rnd_seed s' = None.
  Proof.
    intros A m s a s' T Hs Ho. destruct (Ho (tape s') (ent s')) as (t & e & E). cbn [with_source] in E.
    assert (X : rnd_seed (set_source (tape s') (ent s') s') = None); [|exact X]. eapply (proj2 (T (set_source t e s) Hs)). exact E.
  Qed.
  Lemma tree_bound : forall {A} s (f : outcome A -> Q) m c, treelike m -> rnd_seed s = None -> (forall o, arises m s o -> f o <= c)%Q -> at_most s f m c.
  Proof. intros A s f m c T Hs F. apply plain_bound; auto. apply T; auto. Qed.
  Lemma arises_fuel : forall {A} (m : M A) s, fuelless m -> ~ arises m s NoFuel.
  Proof. intros A m s F H. destruct (H (tape s) (ent s)) as (t & e & E). exact (F _ E). Qed.

  (** *** Mutation *)
  Ltac rc1 :=
    match goal with
    | |- forall _, _ => intros
    | |- steered (bind _ _) => apply rc_bind
    | |- steered (mmap _ _) => apply rc_mmap
    | |- steered (match ?x with _ => _ end) => destruct x
    | |- steered (ret _) => apply rc_ret
    | |- steered (raise _) => apply rc_raise
    | |- steered (lift _) => apply rc_lift
    | |- steered (lift_opt _ _) => apply rc_lift_opt
    | |- steered (randint _ _) => apply rc_randint
    | |- steered (choice _) => apply rc_choice
    | |- steered (draw _) => apply rc_draw
    end.
  Lemma rc_bin_mutation : forall lvl g, steered (bin_mutation lvl g).
  Proof. intros. unfold bin_mutation, bin_gene, determines_mutation. repeat rc1. Qed.
  Lemma rc_cat_mutation : forall lvl g ps, steered (cat_mutation lvl ps g).
  Proof. intros lvl g. induction g; intros [|p ps]; cbn [cat_mutation]; unfold cat_gene, determines_mutation; repeat rc1; auto. Qed.

  (** The genotype of the first child after the mutation misses a set of genotypes with
      probability at most 1 - d if the mutation function does. *)
  Definition misses (T : list gv -> bool) (o : outcome (list gv)) : Q := on_value (fun g => indicator (negb (T g))) o.
  Definition missed {A} (T : list gv -> bool) (c : nat) (o : outcome A) : Q :=
    match o with Ok _ s => indicator (negb (T (genotype (heap s c)))) | _ => 0%Q end.
  Lemma iter_misses : forall (Rel : list gv -> list gv -> Prop) f T c cs s q, (forall g, steered (f g)) -> (forall g, rnd_only (f g)) -> (forall g, treelike (f g)) ->
    (forall g s c s', f g s = Ok c s' -> Rel g c) -> rnd_seed s = None -> ~ In c cs -> NoDup cs ->
    (exists p, averages s (misses T) (f (genotype (heap s c))) p /\ p <= q)%Q ->
    at_most s (missed T c) (miter (mutate_child f) (c :: cs)) q.
  Proof.
    intros Rel f T c cs s q Sf Rf Tf Rl Hs Nc Nd (p & Av & Lq). cbn [miter].
    apply (am_bind s _ _ _ (fun _ s' => indicator (negb (T (genotype (heap s' c)))))).
    - assert (At : at_most s (misses T) (f (genotype (heap s c))) q).
      { exists p. split; auto. eapply averages_expects; [exact Av|]. intros t e. apply (proj1 (Sf _)). }
      apply (am_weaken s (missed T c) _ _ q); [|intros o _; destruct o; apply Qle_refl|apply Qle_refl].
      unfold mutate_child.
      assert (X : at_most s (missed T c) (bind (f (genotype (heap s c))) (fun g => modify c (set_genotype g))) q).
      { apply (am_bind s _ _ _ (fun g _ => indicator (negb (T g)))).
        - apply (am_weaken s (misses T) _ _ q); [exact At| |apply Qle_refl]. intros o _. destruct o; apply Qle_refl.
        - intros g s' _. eexists. split.
          + apply ex_done with (o := modify c (set_genotype g) s'); [reflexivity|reflexivity].
          + unfold modify. cbn [missed heap set_heap]. unfold upd. rewrite Nat.eqb_refl. apply Qle_refl. }
      destruct X as (p' & X & Lp). exists p'. split; [|exact Lp]. eapply expects_same; [exact X|]. reflexivity.
    - intros u s' Ho. apply tree_bound.
      + apply tr_miter. intros a. apply tr_mutate_child. exact Tf.
      + eapply arises_seedless; [|exact Hs|exact Ho]. apply tr_mutate_child. exact Tf.
      + intros o Ho'. destruct o as [u' s''|x|]; cbn [missed]; try apply indicator_bounds.
        destruct (Ho' (tape s'') (ent s'')) as (t & e & E). cbn [with_source] in E.
        apply (mut_step_iter Rel) in E; auto; [|apply mutate_child_step; auto].
        destruct E as (_ & _ & _ & _ & K). destruct (K c) as (g & E & _ & K2). change (heap (set_source (tape s'') (ent s'') s'') c) with (heap s'' c) in E.
        rewrite E, (K2 Nc). change (heap (set_source t e s') c) with (heap s' c). cbn. apply Qle_refl.
  Qed.

  (** The mutation function of a mutation object. *)
  Definition mutator (m : mutation) (g : gspec) : option (list gv -> M (list gv)) :=
    match m, g with
    | MutBin l, GenBinary _ _ bp => match update_level l (last (idx_bits bp) 0) with inr level => Some (bin_mutation level) | inl _ => None end
    | MutCat level, GenCat pools => Some (cat_mutation level pools)
    | _, _ => None
    end.
  Lemma execute_misses : forall m gd f T c cs s q, mutator m (gspec_of (population gd)) = Some f -> rnd_seed s = None ->
    children gd = c :: cs -> ~ In c cs -> NoDup cs ->
    (exists p, averages s (misses T) (f (genotype (heap s c))) p /\ p <= q)%Q ->
    at_most s (missed T c) (mutation_execute m gd) q.
  Proof.
    intros m gd f T c cs s q Mf Hs Ec Nc Nd Av.
    assert (Fin : forall lv : mutation, at_most s (missed T c) (miter (mutate_child f) (children gd)) q -> at_most s (missed T c) (bind (miter (mutate_child f) (children gd)) (fun _ => ret lv)) q).
    { intros lv X. apply (am_bind s _ _ _ (fun _ s' => indicator (negb (T (genotype (heap s' c)))))).
      - eapply am_weaken; [exact X| |apply Qle_refl]. intros o _. destruct o; apply Qle_refl.
      - intros u s' _. eexists. split; [apply ex_done with (o := Ok lv s'); reflexivity|]. apply Qle_refl. }
    unfold mutator in Mf. destruct m as [k l|l|l]; [discriminate| |]; destruct (gspec_of (population gd)) as [gray gens bp|pools|x y z] eqn:Eg; try discriminate; cbn [mutation_execute]; rewrite Eg.
    - destruct (update_level l _) as [er|level] eqn:Eu; [discriminate|]. inversion Mf; subst f.
      assert (X : at_most s (missed T c) (bind (miter (mutate_child (bin_mutation level)) (children gd)) (fun _ => ret (MutBin (LFloat level)))) q).
      { apply Fin. rewrite Ec. apply (iter_misses (fun _ _ => True)); auto; [apply rc_bin_mutation|apply rnd_only_bin|apply tr_bin_mutation]. }
      destruct X as (p' & X & Lp). exists p'. split; [|exact Lp]. eapply expects_same; [exact X|]. reflexivity.
    - inversion Mf; subst f. apply Fin. rewrite Ec. apply (iter_misses (fun _ _ => True)); auto; intros; [apply rc_cat_mutation|apply rnd_only_cat|apply tr_cat_mutation].
  Qed.

  (** *** One generation *)
  Lemma first_child : forall ok fuel c gd s gd1 s1 gd2 s2, going ok c gd s ->
    selection_execute fuel (c_selection c) gd s = Ok gd1 s1 -> crossover_execute (c_crossover c) gd1 s1 = Ok gd2 s2 ->
    population gd2 = population gd /\ exists r cs, children gd2 = r :: cs /\ ~ In r cs /\ NoDup cs /\ (next s <= r)%nat /\
      in_domain (gspec_of (population gd)) (genotype (heap s2 r)).
  Proof.
    intros ok fuel c gd s gd1 s1 gd2 s2 G R1 R2. pose proof G as (Gi & Si & Gs & Rd & Pi & Hn & Hg & Hb & He).
    destruct (rd_sel _ _ _ Rd) as (t & Et & Ht).
    apply selection_ok in R1; [|apply Gi|apply Si]. destruct R1 as (T1 & a & n & Hnn & E1 & La & N1 & Fp). destruct T1 as [(Nx1 & L1 & S1 & P1 & C1) T1].
    assert (Hn1 : (1 <= n)%nat).
    { rewrite Et in Hnn. cbn in Hnn. destruct Hnn as (x & Hx & ->). destruct (rd_pairs _ _ _ Rd) as (y & Hy & Hy1). assert (x = y) by congruence. lia. }
    apply crossover_made in R2.
    2:{ rewrite E1. cbn. intros r Hr. apply (gi_alloc _ _ _ Gi) in Hr. lia. }
    2:{ rewrite E1. cbn [parents set_parents]. intros r Hr. apply in_seq in Hr. cbn. lia. }
    rewrite E1 in R2. cbn [population set_parents parents] in R2. destruct R2 as (first & rest & n' & Em & Ln & E2 & N2 & X2 & F2).
    rewrite seq_length in Ln. assert (n' = n) by lia. subst n'. clear Ln.
    destruct n as [|n]; [lia|]. cbn [seq] in E2, F2.
    assert (G1 : forall r, In r (members (population gd)) -> genotype (heap s1 r) = genotype (heap s r)) by (intros r Hr; destruct (C1 r (gi_alloc _ _ _ Gi r Hr)) as (E & _); auto).
    assert (Par : forall r, In r (seq a (2 * S n)) -> exists m, In m (members (population gd)) /\ genotype (heap s1 r) = genotype (heap s m)).
    { intros r Hr. rewrite Forall_forall in Fp. destruct (Fp r Hr) as (m & Im & E). exists m. split; auto. destruct E as (E & _). auto. }
    split; [rewrite E2; reflexivity|]. exists (next s1), (seq (S (next s1)) n). split; [rewrite E2; reflexivity|].
    assert (Nd : NoDup (seq (next s1) (S n))) by apply seq_NoDup. inversion Nd as [|? ? Nc Nd']; subst. split; auto. split; auto. split; [lia|].
    rewrite Forall_forall in F2. destruct (F2 (next s1) (or_introl eq_refl)) as (p1 & p2 & g & I1 & I2 & Ma & E). rewrite E. cbn.
    assert (If : In first (members (population gd))) by (rewrite Em; left; auto).
    destruct (Par _ I1) as (m1 & M1 & Eq1). destruct (Par _ I2) as (m2 & M2 & Eq2). rewrite Eq1, Eq2, G1 in Ma by auto.
    eapply domain_made; [apply (rd_belongs _ _ _ Rd)| | | |exact Ma]; apply Pi; auto.
  Qed.

  Section Target.
    (** [T] describes the genotypes looked for, [Y] the points; [seen] says that such a
        point has been evaluated after the first [n0] calls. *)
    Variable T : list gv -> bool.
    Variable Y : list gv -> bool.
    Variable n0 : nat.
    Definition seen (s : st) : bool := existsb (fun call => Y (fst call)) (firstn (length (log s) - n0) (log s)).
    Definition unseen (s : st) : Q := indicator (negb (seen s)).
    (** The mutation of a genotype of the domain misses [T] with probability at most [q]. *)
    Definition may_hit (m : mutation) (g : gspec) (q : Q) : Prop :=
      (forall x pt, T x = true -> in_domain g x -> spec_point g x pt -> Y pt = true) /\
      exists f, mutator m g = Some f /\ forall x s, in_domain g x -> exists p, averages s (misses T) (f x) p /\ (p <= q)%Q.

    (** What a generation, or a run, is worth: [a] if it goes on without having seen the
        point, [w] if it runs out of fuel. *)
    Definition worth {A} (a b w : Q) (o : outcome A) : Q :=
      match o with Ok _ s => a * unseen s + b | Err _ => 0 | NoFuel => w end.
    Definition spent {A} (w : Q) (o : outcome A) : Q := match o with NoFuel => w | _ => 0%Q end.

    Lemma going_source : forall ok c gd s t e, going ok c gd s -> going ok c gd (set_source t e s).
    Proof. intros ok c gd s t e (G & R). split; auto. destruct G as [A1 A2 A3 A4 A5 A6]. constructor; auto. Qed.
    Lemma seen_source : forall t e s, seen (set_source t e s) = seen s.
    Proof. reflexivity. Qed.
    Lemma unseen_bounds : forall s, (0 <= unseen s <= 1)%Q.
    Proof. intros. apply indicator_bounds. Qed.
    Lemma seen_more : forall s s' l, (n0 <= length (log s))%nat -> log s' = l ++ log s -> seen s' = existsb (fun call => Y (fst call)) l || seen s.
    Proof.
      intros s s' l L E. unfold seen. rewrite E, app_length. replace (length l + length (log s) - n0)%nat with (length l + (length (log s) - n0))%nat by lia.
      rewrite firstn_app_2, existsb_app. reflexivity.
    Qed.
    Lemma unseen_grows : forall s s' l, (n0 <= length (log s))%nat -> log s' = l ++ log s -> (unseen s' <= unseen s)%Q.
    Proof.
      intros s s' l L E. unfold unseen. rewrite (seen_more _ _ _ L E). destruct (seen s); [rewrite orb_true_r; apply Qle_refl|].
      destruct (existsb _ l); cbn; lra.
    Qed.

    Lemma step_worth : forall ok fuel c gd s (a b w q eta : Q), NumOrder NO ok -> going ok c gd s -> rnd_seed s = None ->
      may_hit (c_mutation c) (gspec_of (population gd)) q -> (n0 <= length (log s))%nat ->
      (0 <= a)%Q -> (0 <= b)%Q -> (0 <= q)%Q ->
      at_most s (spent w) (selection_execute fuel (c_selection c) gd) eta ->
      at_most s (worth a b w) (ga_step fuel c gd) (a * q * unseen s + b + eta).
    Proof.
      intros ok fuel c gd s a b w q eta NL G Hs (TY & f & Mf & Hit) Ln Ha Hb Hq Hsel. unfold ga_step.
      pose proof (unseen_bounds s) as Us. set (K := (a * q * unseen s + b)%Q).
      assert (Kp : (0 <= K)%Q). { unfold K. assert (0 <= a * q * unseen s)%Q by (repeat apply Qmult_le_0_compat; tauto). lra. }
      apply (am_bind s _ _ _ (fun _ _ => K)).
      { eapply (am_affine s (spent w) _ _ eta 1 K); [lra|exact Hsel| |lra]. intros o _. destruct o; cbn [spent worth]; lra. }
      intros gd1 s1 A1. pose proof (arises_seedless _ _ _ _ (tr_selection_execute _ _ _) Hs A1) as Hs1.
      apply (am_bind s1 _ _ _ (fun _ _ => K)).
      { apply tree_bound; auto; [apply tr_crossover_execute|]. intros o Ho. destruct o; cbn [worth]; try apply Qle_refl; auto.
        exfalso. apply (arises_fuel _ _ (fl_crossover_execute _ _) Ho). }
      intros gd2 s2 A2. pose proof (arises_seedless _ _ _ _ (tr_crossover_execute _ _) Hs1 A2) as Hs2.
      (* the first child *)
      assert (Ch : population gd2 = population gd /\ exists r cs, children gd2 = r :: cs /\ ~ In r cs /\ NoDup cs /\ (next s <= r)%nat /\
        in_domain (gspec_of (population gd)) (genotype (heap s2 r))).
      { destruct (A2 (tape s2) (ent s2)) as (t2 & e2 & E2). destruct (A1 t2 e2) as (t1 & e1 & E1). cbn [with_source] in E1, E2.
        exact (first_child ok fuel c gd (set_source t1 e1 s) gd1 (set_source t2 e2 s1) gd2 (set_source (tape s2) (ent s2) s2) (going_source _ _ _ _ _ _ G) E1 E2). }
      destruct Ch as (Ep & r & cs & Ec & Nc & Nd & Lr & Dc).
      apply (am_bind s2 _ _ _ (fun _ s3 => a * unseen s * indicator (negb (T (genotype (heap s3 r)))) + b)%Q).
      { apply (am_affine s2 (missed T r) _ _ q (a * unseen s) b).
        - apply Qmult_le_0_compat; tauto.
        - eapply execute_misses; eauto. rewrite Ep. exact Mf.
        - intros o Ho. destruct o; cbn [worth missed]; [apply Qle_refl| |exfalso; apply (arises_fuel _ _ (fl_mutation_execute _ _) Ho)].
          setoid_replace (a * unseen s * 0 + b)%Q with b by ring. exact Hb.
        - unfold K. apply Qle_lteq. right. ring. }
      intros m' s3 A3. pose proof (arises_seedless _ _ _ _ (tr_mutation_execute _ _) Hs2 A3) as Hs3.
      assert (Ip : (0 <= a * unseen s * indicator (negb (T (genotype (heap s3 r)))))%Q).
      { apply Qmult_le_0_compat; [apply Qmult_le_0_compat; tauto|apply indicator_bounds]. }
      apply tree_bound; auto.
      { repeat (apply tr_bind; [|intros ?]); [apply tr_newgen|apply tr_fitness_execute|apply tr_update|apply tr_ret]. }
      intros o Ho. destruct o as [[c' gd'] s'|x|]; cbn [worth]; [|lra|exfalso; refine (arises_fuel _ _ _ Ho)].
      2:{ repeat (apply fl_bind; [|intros ?]); [apply fl_newgen|apply fl_fitness_execute|apply fl_update|apply fl_ret]. }
      (* a whole generation with this outcome *)
      destruct (Ho (tape s') (ent s')) as (t4 & e4 & E4). destruct (A3 t4 e4) as (t3 & e3 & E3). destruct (A2 t3 e3) as (t2 & e2 & E2). destruct (A1 t2 e2) as (t1 & e1 & E1).
      cbn [with_source] in E1, E2, E3, E4. change (set_source (tape s') (ent s') s') with (set_source (tape s') (ent s') s') in E4.
      pose proof (going_source _ _ _ _ t1 e1 G) as Gx.
      assert (R : ga_step fuel c gd (set_source t1 e1 s) = Ok (c', gd') (set_source (tape s') (ent s') s')).
      { unfold ga_step. unfold bind at 1. rewrite E1. unfold bind at 1. rewrite E2. unfold bind at 1. rewrite E3. exact E4. }
      destruct (child_stays ok fuel c gd _ c' gd' _ _ _ _ _ _ _ NL (proj1 (proj2 Gx)) (proj1 Gx) E1 E2 E3 R r) as [Im Eg]; [rewrite Ec; left; auto|].
      destruct (step_called ok _ _ _ _ _ _ _ r NL Gx R Im Lr) as (calls & pt & v & El & Ic & Sp).
      change (heap (set_source (tape s') (ent s') s') r) with (heap s' r) in *. change (heap (set_source t4 e4 s3) r) with (heap s3 r) in Eg.
      change (log (set_source (tape s') (ent s') s')) with (log s') in El. change (log (set_source t1 e1 s)) with (log s) in El.
      destruct (T (genotype (heap s3 r))) eqn:ET.
      - assert (D3 : in_domain (gspec_of (population gd)) (genotype (heap s' r))).
        { pose proof (going_step _ _ _ _ _ _ _ _ NL Gx R) as (_ & _ & _ & _ & Pi3 & _).
          destruct (generation_going _ fuel c gd _ NL Gx 1 c' gd' _ (steps_S _ _ _ _ _ _ _ _ _ _ _ (steps_0 _ _ _ _) R)) as (_ & _ & Eg' & _). rewrite <- Eg'.
          exact (Pi3 r Im). }
        rewrite <- Eg in ET.
        assert (Se : seen s' = true). { rewrite (seen_more _ _ _ Ln El). apply orb_true_iff. left. apply existsb_exists. exists (pt, v). split; [exact Ic|]. cbn. eapply TY; eauto. }
        unfold unseen at 1. rewrite Se. cbn [negb indicator]. lra.
      - cbn [negb indicator]. pose proof (unseen_grows _ _ _ Ln El). assert (a * unseen s' <= a * unseen s)%Q by (rewrite !(Qmult_comm a); apply Qmult_le_compat_r; auto). lra.
    Qed.

    (** *** The main loop *)
    Lemma mutator_kept : forall fuel c gd s c' gd' s' kids els h cs l0 bst md w, ga_step fuel c gd s = Ok (c', gd') s' ->
      Step c gd s c' gd' s' kids els h cs l0 bst md w ->
      (forall gd1 s1, selection_execute fuel (c_selection c) gd s = Ok gd1 s1 -> population gd1 = population gd) ->
      mutator (c_mutation c') (gspec_of (population gd)) = mutator (c_mutation c) (gspec_of (population gd)).
    Proof.
      intros fuel c gd s c' gd' s' kids els h cs l0 bst md w H St Hp. destruct (step_level _ _ _ _ _ _ _ H Hp) as [L _].
      destruct (st_comps _ _ _ _ _ _ _ _ _ _ _ _ _ _ St) as (m' & -> & Em). cbn [c_mutation set_mutation] in *.
      destruct (c_mutation c) as [k l|l|l]; [rewrite Em; reflexivity| |rewrite Em; reflexivity]. destruct Em as (x & ->).
      cbn [mutator level_of] in *. destruct (gspec_of (population gd)); auto. rewrite <- L. reflexivity.
    Qed.
    Definition bounded_wait (Inv : comps -> gadata -> st -> Prop) (ok : num -> Prop) (fuel : nat) (w eta : Q) : Prop :=
      (forall c gd s, going ok c gd s -> rnd_seed s = None -> Inv c gd s -> at_most s (spent w) (selection_execute fuel (c_selection c) gd) eta) /\
      (forall c gd s c' gd' s', going ok c gd s -> Inv c gd s -> ga_step fuel c gd s = Ok (c', gd') s' -> Inv c' gd' s') /\
      (forall c gd s t e, Inv c gd s -> Inv c gd (set_source t e s)).
    Lemma loop_worth : forall Inv ok fuel w q eta, NumOrder NO ok -> (0 <= q)%Q -> (0 <= eta)%Q -> bounded_wait Inv ok fuel w eta ->
      forall k c gd s e, going ok c gd s -> rnd_seed s = None -> Inv c gd s -> may_hit (c_mutation c) (gspec_of (population gd)) q ->
      (n0 <= length (log s))%nat -> early_stop gd = Some e -> Z.max 0 (no_improve gd) + Z.of_nat k <= e ->
      at_most s (worth 1 0 w) (ga_loop fuel k c gd) (qpow q k * unseen s + inject_Z (Z.of_nat k) * eta).
    Proof.
      intros Inv ok fuel w q eta NL Hq He (W1 & W2 & W3) k. induction k as [|k IH]; intros c gd s e G Hs HI MH Ln Es Hn; cbn [ga_loop].
      - eexists. split; [apply ex_done with (o := Ok (c, gd) s); reflexivity|]. cbn [worth qpow]. change (inject_Z (Z.of_nat 0)) with 0%Q. lra.
      - pose proof (step_worth ok fuel c gd s (qpow q k) (inject_Z (Z.of_nat k) * eta) w q eta NL G Hs MH Ln) as SW.
        assert (Kp : (0 <= inject_Z (Z.of_nat k))%Q) by (unfold Qle; cbn; lia).
        apply (am_bind s _ _ _ (fun r s' => qpow q k * unseen s' + inject_Z (Z.of_nat k) * eta)%Q).
        + eapply am_weaken; [apply SW; auto; [apply qpow_nonneg; auto|apply Qmult_le_0_compat; auto]|intros o _; destruct o; apply Qle_refl|].
          apply Qle_lteq. right. cbn [qpow]. rewrite Nat2Z.inj_succ. unfold Z.succ. rewrite inject_Z_plus. change (inject_Z 1) with 1%Q. ring.
        + intros [c' gd'] s' A. destruct (A (tape s') (ent s')) as (t & e0 & R). cbn [with_source] in R. rewrite source_same in R.
          pose proof (going_source _ _ _ _ t e0 G) as Gx. pose proof (going_step _ _ _ _ _ _ _ _ NL Gx R) as G'.
          pose proof Gx as (GIx & Si & Gs & _). pose proof Si as (Fk & Ng & Ho).
          destruct (step_ok ok fuel c gd _ c' gd' s' NL Gs Fk Ng Ho GIx R) as (kids & els & h & cs & l0 & bst & md & wr & St & _).
          destruct (st_params _ _ _ _ _ _ _ _ _ _ _ _ _ _ St) as (_ & Ee & _). pose proof (st_best _ _ _ _ _ _ _ _ _ _ _ _ _ _ St) as Bs.
          assert (Nn : no_improve gd' <= Z.max 0 (no_improve gd) + 1).
          { unfold best_after in Bs. destruct (best_solution gd); [inversion Bs; lia| |inversion Bs; lia]. destruct (sv_lt _ _); inversion Bs; lia. }
          assert (Eg : gspec_of (population gd') = gspec_of (population gd)) by (rewrite (st_pop _ _ _ _ _ _ _ _ _ _ _ _ _ _ St); reflexivity).
          cbn [fst snd].
          assert (Sp : should_stop gd' = ret false).
          { unfold should_stop. rewrite Ee, Es. destruct (Z.ltb_spec e (no_improve gd')); [lia|reflexivity]. }
          rewrite Sp. destruct (IH c' gd' s' e) as (p & X & Lp); auto.
          * eapply arises_seedless; [|exact Hs|exact A]. apply tr_ga_step.
          * eapply W2; [exact Gx|apply W3; exact HI|exact R].
          * destruct MH as (M1 & f & M2 & M3). rewrite Eg. split; auto. exists f. split; auto. rewrite <- M2.
            eapply mutator_kept; [exact R|exact St|]. intros gd1 s1 R1. apply selection_ok in R1; [|apply GIx|exact Ho]. destruct R1 as (_ & a & n & _ & -> & _). reflexivity.
          * rewrite (st_log _ _ _ _ _ _ _ _ _ _ _ _ _ _ St), app_length. cbn [log set_source set_ent set_tape]. lia.
          * congruence.
          * lia.
          * exists p. split; [|exact Lp]. eapply expects_same; [exact X|]. reflexivity.
    Qed.
    Lemma waits_any : forall ok fuel, bounded_wait (fun _ _ _ => True) ok fuel 0 0.
    Proof.
      intros ok fuel. split; [|auto]. intros c gd s _ Hs _. apply tree_bound; auto; [apply tr_selection_execute|]. intros o _. destruct o; cbn; lra.
    Qed.
  End Target.

  (** *** The loop for the second parent *)
  Lemma fuelless_bind : forall {A B} s (m : M A) (k : A -> M B) q, treelike m -> fuelless m -> rnd_seed s = None -> (0 <= q)%Q ->
    (forall a s', arises m s (Ok a s') -> at_most s' (spent 1) (k a) q) -> at_most s (spent 1) (bind m k) q.
  Proof.
    intros A B s m k q Tm Fm Hs Hq Hk. apply (am_bind s _ _ _ (fun _ _ => q)); auto. apply tree_bound; auto.
    intros o Ho. destruct o; cbn [spent]; [apply Qle_refl|exact Hq|exfalso; exact (arises_fuel _ _ Fm Ho)].
  Qed.
  Lemma spent_fuelless : forall {A} s (m : M A) q, treelike m -> fuelless m -> rnd_seed s = None -> (0 <= q)%Q -> at_most s (spent 1) m q.
  Proof. intros A s m q Tm Fm Hs Hq. apply tree_bound; auto. intros o Ho. destruct o; cbn [spent]; auto. exfalso; exact (arises_fuel _ _ Fm Ho). Qed.
  Lemma spent_repeat : forall {A} (m : M A) (Inv : st -> Prop) q, treelike m -> (0 <= q)%Q ->
    (forall s, Inv s -> rnd_seed s = None -> at_most s (spent 1) m q) -> (forall s a s', Inv s -> arises m s (Ok a s') -> Inv s') ->
    forall n s, Inv s -> rnd_seed s = None -> at_most s (spent 1) (mrepeat n m) (inject_Z (Z.of_nat n) * q).
  Proof.
    intros A m Inv q Tm Hq H1 H2 n. induction n as [|n IH]; intros s HI Hs; cbn [mrepeat].
    - apply spent_fuelless; auto; [apply tr_ret|apply fl_ret|]. change (inject_Z (Z.of_nat 0)) with 0%Q. lra.
    - assert (Np : (0 <= inject_Z (Z.of_nat n) * q)%Q) by (apply Qmult_le_0_compat; auto; unfold Qle; cbn; lia).
      apply (am_bind s _ _ _ (fun _ _ => inject_Z (Z.of_nat n) * q)%Q).
      + eapply (am_affine s (spent 1) _ _ q 1 (inject_Z (Z.of_nat n) * q)); [lra|apply H1; auto| |].
        * intros o _. destruct o; cbn [spent]; lra.
        * rewrite Nat2Z.inj_succ. unfold Z.succ. rewrite inject_Z_plus. change (inject_Z 1) with 1%Q. lra.
      + intros a s' Ho. pose proof (arises_seedless _ _ _ _ Tm Hs Ho) as Hs'.
        apply (am_bind s' _ _ _ (fun _ _ => 0%Q)).
        * eapply am_weaken; [apply IH; eauto|intros o _; destruct o; cbn [spent]; apply Qle_refl|apply Qle_refl].
        * intros b s'' Ho'. apply spent_fuelless; [apply tr_ret|apply fl_ret| |lra]. eapply arises_seedless; [|exact Hs'|exact Ho']. apply tr_mrepeat. exact Tm.
  Qed.
  Lemma qpow_le : forall p q n, (0 <= p)%Q -> (p <= q)%Q -> (qpow p n <= qpow q n)%Q.
  Proof.
    intros p q n H0 H. induction n as [|n IH]; cbn [qpow]; [apply Qle_refl|]. apply Qle_trans with (p * qpow q n)%Q.
    - rewrite (Qmult_comm p), (Qmult_comm p). apply Qmult_le_compat_r; auto.
    - apply Qmult_le_compat_r; auto. apply qpow_nonneg. lra.
  Qed.

  (** One tournament is won by a given member with probability at most t / n. *)
  Lemma winner_bound : forall ok, NumOrder NO ok -> forall s idx t l ks first, keys_of s idx l ks -> Forall ok ks -> NoDup l -> In first l -> 1 <= t <= Z.of_nat (length l) ->
    exists p, chance (run_tournament idx t l) s (returns (Nat.eqb first)) p /\ (0 <= p)%Q /\ (p <= inject_Z t / inject_Z (Z.of_nat (length l)))%Q.
  Proof.
    intros ok NL s idx t l ks first K O Nd Hf Ht. pose proof (keys_of_ok ok s idx l ks K O) as Kok.
    set (AR := arrangements (Z.to_nat t) (zrange 0 (Z.of_nat (length l)))).
    set (pr := (inject_Z (Z.of_nat (length (filter (fun tr => Nat.eqb first (winner s idx l tr)) AR))) / inject_Z (Z.of_nat (length AR)))%Q).
    exists pr. split; [|split].
    - eapply averages_eq; [|apply (tournament_mean ok NL); auto; lia]. cbn [returns]. apply (mean_indicator (fun tr => Nat.eqb first (winner s idx l tr))).
    - unfold pr. apply Qmult_le_0_compat; [|apply Qinv_le_0_compat]; unfold Qle; cbn; lia.
    - set (other := fun p => match nth_error l (Z.to_nat p) with Some r => negb (Nat.eqb r first) | None => false end).
      assert (X : length (filter other (zrange 0 (Z.of_nat (length l)))) = (length l - 1)%nat).
      { assert (G : forall l1 l0, length (filter (fun p => match nth_error (l0 ++ l1) (Z.to_nat p) with Some r => negb (Nat.eqb r first) | None => false end)
          (map Z.of_nat (seq (length l0) (length l1)))) = length (filter (fun r => negb (Nat.eqb r first)) l1)).
        { intros l1. induction l1 as [|r l1 IH]; intros l0; auto. cbn [length seq map filter]. rewrite Nat2Z.id, nth_error_app2, Nat.sub_diag by lia. cbn [nth_error].
          specialize (IH (l0 ++ [r])). rewrite <- app_assoc, app_length in IH. cbn [app length] in IH. rewrite Nat.add_1_r in IH. destruct (negb (Nat.eqb r first)); cbn [length]; auto. }
        specialize (G l []). cbn [app length] in G. 
        transitivity (length (filter (fun r => negb (Nat.eqb r first)) l)); [rewrite <- G; unfold other; rewrite <- (seq_zrange 0 (length l)); reflexivity|]. clear - Nd Hf.
        assert (Z0 : forall l', ~ In first l' -> length (filter (fun r => negb (Nat.eqb r first)) l') = length l').
        { induction l' as [|r l' IH]; intros N; auto. cbn [filter]. destruct (Nat.eqb_spec r first) as [->|]; [exfalso; apply N; left; auto|]. cbn [negb length]. rewrite IH; auto. intros C. apply N. right; auto. }
        induction Nd as [|r l Nr Nd IH]; [contradiction|]. cbn [filter]. destruct (Nat.eqb_spec r first) as [->|N].
        - cbn [negb length]. rewrite Z0 by auto. lia.
        - destruct Hf as [|Hf]; [congruence|]. cbn [negb length]. rewrite IH by auto. destruct l; [contradiction|cbn [length]; lia]. }
      assert (Dj : forall (R T : list Z -> bool) A, (forall tr, In tr A -> T tr = true -> R tr = false) -> (length (filter R A) + length (filter T A) <= length A)%nat).
      { intros R T A. induction A as [|a A IH]; intros D; [auto|]. cbn [filter length]. specialize (D a (or_introl eq_refl)) as Da.
        assert (IH' := IH ltac:(intros; apply D; [right|]; auto)). destruct (T a); [rewrite Da by auto; cbn [length]; lia|]. destruct (R a); cbn [length]; lia. }
      assert (Le : (length (filter (fun tr => Nat.eqb first (winner s idx l tr)) AR) + length (filter (forallb other) AR) <= length AR)%nat).
      { apply Dj. intros tr Htr Hall. apply arrangements_in in Htr. destruct Htr as [L I].
        assert (Ne : tr <> []) by (destruct tr; [cbn in L; lia|discriminate]).
        assert (Rg : forall p, In p tr -> 0 <= p < Z.of_nat (length l)) by (intros p Hp'; apply I, in_zrange in Hp'; lia).
        destruct (winner_ok ok NL s idx l tr Kok Ne Rg) as (_ & (p0 & Hp0 & E0) & _). rewrite forallb_forall in Hall. specialize (Hall p0 Hp0). unfold other in Hall. rewrite E0 in Hall.
        apply negb_true_iff in Hall. rewrite Nat.eqb_sym. exact Hall. }
      unfold pr. unfold AR at 2. unfold AR in Le at 2 3. rewrite arrangements_filter, X in Le. rewrite !arrangements_count, zrange_length, Z.sub_0_r, Nat2Z.id in *.
      destruct (Z.to_nat t) as [|k] eqn:Et; [lia|]. destruct (length l) as [|n] eqn:El; [lia|]. replace (S n - 1)%nat with n in Le by lia.
      rewrite falling_step in Le. assert (Lw : (length (filter (fun tr => Nat.eqb first (winner s idx l tr)) AR) <= S k * falling n k)%nat) by lia. clear Le.
      cbn [falling] in *. replace (S n - 1)%nat with n by lia.
      assert (Fp : (0 < falling n k)%nat) by (apply falling_pos; lia).
      set (W := length (filter (fun tr => Nat.eqb first (winner s idx l tr)) AR)) in *. clearbody W. set (F := falling n k) in *. clearbody F.
      assert (Fq : (0 < inject_Z (Z.of_nat F))%Q) by (unfold Qlt; cbn; lia). assert (Nq : (0 < inject_Z (Z.of_nat (S n)))%Q) by (unfold Qlt; cbn; lia).
      rewrite Nat2Z.inj_mul, inject_Z_mult. apply Qle_shift_div_r; [apply Qmult_lt_0_compat; auto|].
      setoid_replace (inject_Z t / inject_Z (Z.of_nat (S n)) * (inject_Z (Z.of_nat (S n)) * inject_Z (Z.of_nat F)))%Q with (inject_Z (t * Z.of_nat F)) by (rewrite inject_Z_mult; field; lra).
      rewrite <- Zle_Qle. nia.
  Qed.

  (** What the pairs need: distinct members, told apart, with keys. *)
  Definition paired (ok : num -> Prop) (l : list nat) (ks : list num) (s : st) : Prop :=
    keys_of s None l ks /\ Forall ok ks /\ told_apart s l /\ (forall r, In r l -> (r < next s)%nat).
  Lemma pair_spent : forall ok, NumOrder NO ok -> forall l ks t n fuel s, NoDup l -> 1 <= t < n -> n <= Z.of_nat (length l) -> paired ok l ks s -> rnd_seed s = None ->
    at_most s (spent 1) (tournament_pair fuel None t l) (qpow (inject_Z t / inject_Z n) fuel).
  Proof.
    intros ok NL l ks t n fuel s Nd Ht Hn (K & O & TA & Al) Hs. pose proof (keys_of_ok ok s None l ks K O) as Kok.
    assert (Qp : (0 <= inject_Z t / inject_Z n)%Q) by (apply Qmult_le_0_compat; [|apply Qinv_le_0_compat]; unfold Qle; cbn; lia).
    unfold tournament_pair. apply fuelless_bind; auto; [apply tr_run_tournament| |apply qpow_nonneg; auto|].
    { unfold run_tournament, get_best. apply fl_bind; [apply fl_sample|]. intros tr. destruct tr as [|i tr]; [apply fl_raise|]. apply fl_bind; [apply fl_lift_opt|]. intros b.
      revert b. induction tr as [|j tr IH]; intros b; cbn [get_best_loop]; [apply fl_ret|]. repeat (apply fl_bind; [first [apply fl_lift_opt|apply fl_get|idtac]|intros ?]); auto. }
    intros p1 s1 A1. pose proof (arises_seedless _ _ _ _ (tr_run_tournament _ _ _) Hs A1) as Hs1.
    assert (P1 : In p1 l /\ forall r, heap s1 r = heap s r).
    { destruct (A1 (tape s1) (ent s1)) as (t1 & e1 & E1). cbn [with_source] in E1. rewrite source_same in E1.
      assert (Hb : 1 <= t <= Z.of_nat (length l)) by lia.
      destruct (run_tournament_possible ok NL (set_source t1 e1 s) None t l Kok Hb) as [P _]. destruct (P t1) as (b & t' & E' & q & others & Hq & _).
      change (set_tape t1 (set_source t1 e1 s)) with (set_source t1 e1 s) in E'. rewrite E1 in E'. inversion E'; subst. split; [eapply nth_error_In; eauto|reflexivity]. }
    destruct P1 as (I1 & H1).
    assert (K1 : keys_of s1 None l ks). { unfold keys_of in *. eapply Forall2_impl; [|exact K]. intros a b E. rewrite H1. exact E. }
    assert (TA1 : told_apart s1 l). { intros a b Ia Ib. specialize (TA a b Ia Ib). unfold same_idx in *. rewrite !H1. exact TA. }
    destruct (winner_bound ok NL s1 None t l ks p1 K1 O Nd I1 ltac:(lia)) as (p & Cp & Pp & Lp).
    destruct (C75_second_parent ok NL s1 None t l ks p1 p K1 O ltac:(lia) TA1 I1 Cp) as [Ex _].
    apply (am_bind s1 _ _ _ (fun _ _ => 0%Q)).
    - exists (qpow p fuel). split.
      + eapply expects_ext with (f := fun o => indicator (exhausted o)).
        * eapply averages_expects; [exact (Ex fuel)|]. intros t0 e0. apply (proj1 (rc_second_parent _ _ _ _ _)).
        * intros o _. destruct o; reflexivity.
      + apply qpow_le; auto. eapply Qle_trans; [exact Lp|]. apply Qle_shift_div_l; [unfold Qlt; cbn; lia|].
        setoid_replace (inject_Z t / inject_Z (Z.of_nat (length l)) * inject_Z n)%Q with (inject_Z (t * n) / inject_Z (Z.of_nat (length l)))%Q by (rewrite inject_Z_mult; unfold Qdiv; ring).
        apply Qle_shift_div_r; [unfold Qlt; cbn; lia|]. rewrite <- inject_Z_mult, <- Zle_Qle. nia.
    - intros p2 s2 A2. pose proof (arises_seedless _ _ _ _ (tr_second_parent _ _ _ _ _) Hs1 A2) as Hs2.
      apply spent_fuelless; auto; [|  |lra].
      + repeat (apply tr_bind; [first [apply tr_get|apply tr_alloc]|intros ?]). apply tr_ret.
      + repeat (apply fl_bind; [first [apply fl_get|apply fl_alloc]|intros ?]). apply fl_ret.
  Qed.

  Lemma pair_paired : forall ok l ks t fuel s c s', paired ok l ks s -> tournament_pair fuel None t l s = Ok c s' -> paired ok l ks s'.
  Proof.
    intros ok l ks t fuel s c s' (K & O & TA & Al) H. apply (tournament_pair_ok fuel None t l s c s' (fun _ => True)) in H; auto.
    destruct H as (p1 & p2 & Mp & _). destruct Mp as (_ & Nx & (_ & _ & _ & _ & Hh) & _).
    assert (E : forall r, In r l -> heap s' r = heap s r) by (intros r Hr; apply Hh; auto).
    split; [|split; [auto|split]].
    - unfold keys_of in *. clear - K E. induction K; constructor; [rewrite E by (left; auto); auto|apply IHK; intros; apply E; right; auto].
    - intros a b Ia Ib. specialize (TA a b Ia Ib). unfold same_idx in *. rewrite !E by auto. exact TA.
    - intros r Hr. rewrite Nx. specialize (Al r Hr). lia.
  Qed.

  Lemma selection_spent : forall ok, NumOrder NO ok -> forall fuel c gd s t m, going ok c gd s -> rnd_seed s = None -> NoDup (members (population gd)) ->
    c_selection c = SelTournament t -> ntrunc (nmul (children_percent gd) (nofZ (num_individ (population gd)))) = Some m ->
    at_most s (spent 1) (selection_execute fuel (c_selection c) gd) (inject_Z (Z.max 0 m) * qpow (inject_Z t / inject_Z (num_individ (population gd))) fuel).
  Proof.
    intros ok NL fuel c gd s t m G Hs Nd Et Em. pose proof G as (Gi & Si & Gs & Rd & Pi & Hn & _).
    destruct (rd_sel _ _ _ Rd) as (t' & Et' & Ht). assert (t' = t) by congruence. subst t'. rewrite Et. cbn [selection_execute].
    set (n := num_individ (population gd)) in *. set (l := members (population gd)) in *.
    assert (Qp : (0 <= qpow (inject_Z t / inject_Z n) fuel)%Q).
    { apply qpow_nonneg. apply Qmult_le_0_compat; [|apply Qinv_le_0_compat]; unfold Qle; cbn; lia. }
    assert (Mp : (0 <= inject_Z (Z.max 0 m) * qpow (inject_Z t / inject_Z n) fuel)%Q) by (apply Qmult_le_0_compat; auto; unfold Qle; cbn; lia).
    apply fuelless_bind; auto; [unfold check_tournament_size; destruct (_ || _); [apply tr_raise|apply tr_ret]|unfold check_tournament_size; destruct (_ || _); [apply fl_raise|apply fl_ret]|].
    intros u s0 A0. assert (E0 : exists t0 e0, s0 = set_source t0 e0 s).
    { destruct (A0 (tape s0) (ent s0)) as (t0 & e0 & E). cbn [with_source] in E. rewrite source_same in E. unfold check_tournament_size in E. destruct (_ || _); [discriminate|]. apply ret_ok in E. destruct E as [_ ->]. eauto. }
    destruct E0 as (t0 & e0 & ->).
    assert (Tb : treelike (base_execute gd)). { unfold base_execute, get_empty_copy, reset_idx_individ. repeat (apply tr_bind; [|intros ?]); try apply tr_ret; [apply tr_reset|apply tr_do_seed]. }
    assert (Fb : fuelless (base_execute gd)). { unfold base_execute, get_empty_copy, reset_idx_individ. repeat (apply fl_bind; [|intros ?]); try apply fl_ret; [apply fl_reset|apply fl_do_seed]. }
    apply fuelless_bind; auto. intros gd1 s1 A1. pose proof (arises_seedless _ _ _ _ Tb Hs A1) as Hs1.
    destruct (A1 (tape s1) (ent s1)) as (t1 & e1 & E1). cbn [with_source] in E1. rewrite source_same in E1. change (set_source t1 e1 (set_source t0 e0 s)) with (set_source t1 e1 s) in E1.
    unfold base_execute in E1. bd E1 u1 s2 R1. unfold get_empty_copy in E1. bd E1 l2 s3 R2. bd R2 u3 s4 R3. apply ret_ok in R2. destruct R2 as [-> ->]. apply ret_ok in E1. destruct E1 as [-> ->].
    apply reset_idx_ok in R1. destruct R1 as (N1 & _ & _ & _ & _ & _ & H1). apply extends_do_seed in R3. destruct R3 as ((N3 & _ & _ & _ & H3) & N3').
    fold l in H1. cbn [next heap set_source set_ent set_tape] in N1, H1.
    assert (Al : forall r, In r l -> (r < next s)%nat) by (apply Gi).
    assert (Hh : forall r, In r l -> exists j, last_pos 0 l r = Some j /\ heap s4 r = set_idx (Some j) (heap s r)).
    { intros r Hr. rewrite H3 by (rewrite N1; auto). rewrite H1. destruct (last_pos 0 l r) as [j|] eqn:Ej; [eauto|]. exfalso. apply (last_pos_in l 0 r); auto. }
    assert (Ks : exists ks, keys_of s None l ks /\ Forall ok ks).
    { pose proof (gi_settled _ _ _ Gi) as It. fold l in It. clear - It. induction l as [|r l IH]; [exists []; split; constructor|].
      destruct IH as (ks & K & O); [intros; apply It; right; auto|]. destruct (It r (or_introl eq_refl)) as [(x & Ex & Ox) _]. exists (x :: ks). split; constructor; auto. cbn. rewrite Ex. reflexivity. }
    destruct Ks as (ks & K & O).
    assert (Pa : paired ok l ks s4).
    { split; [|split; [auto|split]].
      - unfold keys_of in *. assert (Hg : forall r, In r l -> exists j, heap s4 r = set_idx j (heap s r)) by (intros r Hr; destruct (Hh r Hr) as (j & _ & E); eauto).
        clear - K Hg. induction K as [|r k l' ks' E K IH]; constructor.
        + destruct (Hg r (or_introl eq_refl)) as (j & ->). exact E.
        + apply IH. intros x Hx. apply Hg. right. exact Hx.
      - intros a b Ia Ib. unfold same_idx. destruct (Hh a Ia) as (ja & La & ->). destruct (Hh b Ib) as (jb & Lb & ->). cbn [idx_individ set_idx opt_eqb]. split.
        + intros E. apply Z.eqb_eq in E. subst jb. eapply last_pos_inj; eauto.
        + intros ->. assert (ja = jb) by congruence. subst. apply Z.eqb_refl.
      - intros r Hr. specialize (Al r Hr). lia. }
    unfold tournament. cbn [population set_parents members]. fold l.
    apply fuelless_bind; auto; [unfold get_total_num_parents; repeat (apply tr_bind; [|intros ?]); [apply tr_ret|apply tr_lift_opt]|unfold get_total_num_parents; repeat (apply fl_bind; [|intros ?]); [apply fl_ret|apply fl_lift_opt]|].
    intros total s5 A5. unfold get_total_num_parents in A5. cbn [children_percent population set_parents] in A5.
    destruct (A5 (tape s5) (ent s5)) as (t5 & e5 & E5). cbn [with_source] in E5. rewrite source_same in E5. unfold bind in E5. cbn [ret] in E5. fold n in E5. rewrite Em in E5. cbn [lift_opt ret] in E5. inversion E5 as [[Et5 Es5]]. clear E5 A5.
    assert (Hs5 : rnd_seed s5 = None) by (rewrite <- Es5; exact Hs1).
    assert (Tp : treelike (tournament_pair fuel None t l)) by apply tr_tournament_pair.
    rewrite Es5. apply (am_bind s5 _ _ _ (fun _ _ => 0%Q)).
    + rewrite <- Et5. replace (Z.max 0 m) with (Z.of_nat (Z.to_nat m)) by lia.
      eapply (am_affine s5 (spent 1) _ _ _ 1 0); [lra|eapply (spent_repeat _ (paired ok l ks) (qpow (inject_Z t / inject_Z n) fuel) Tp Qp); [| | |exact Hs5]| |].
      * intros x Px Hx. apply (pair_spent ok NL l ks t n fuel x Nd); auto; lia.
      * intros x a x' Px Ax. destruct (Ax (tape x') (ent x')) as (t6 & e6 & E6). cbn [with_source] in E6. rewrite source_same in E6.
        apply (pair_paired ok l ks t fuel (set_source t6 e6 x) a x'); auto.
      * rewrite <- Es5. exact Pa.
      * intros o _. destruct o; cbn [spent]; lra.
      * apply Qle_lteq. right. ring.
    + intros ps s6 A6. apply spent_fuelless; [apply tr_ret|apply fl_ret| |apply Qle_refl].
      apply (arises_seedless _ _ _ _ (tr_mrepeat _ _ Tp) Hs5 A6).
  Qed.

  (** Members that are all different stay so when the carried-over ones are drawn at
      random or when only the best one is carried over. *)
  Definition apart (t n m : Z) (c : comps) (gd : gadata) (s : st) : Prop :=
    NoDup (members (population gd)) /\ c_selection c = SelTournament t /\ (ng_transfer (c_newgen c) = TRandom \/ n <= m) /\
    num_individ (population gd) = n /\ ntrunc (nmul (children_percent gd) (nofZ n)) = Some m.
  Lemma apart_source : forall t n m c gd s u e, apart t n m c gd s -> apart t n m c gd (set_source u e s).
  Proof. intros t n m c gd s u e H. exact H. Qed.
  Lemma apart_step : forall ok, NumOrder NO ok -> forall t n m fuel c gd s c' gd' s', going ok c gd s -> apart t n m c gd s ->
    ga_step fuel c gd s = Ok (c', gd') s' -> apart t n m c' gd' s'.
  Proof.
    intros ok NL t n m fuel c gd s c' gd' s' G (Nd & Et & Tr & En & Em) R. pose proof G as (Gi & Si & Gs & _). pose proof Si as (Fk & Ng & Ho).
    destruct (step_ok ok fuel c gd s c' gd' s' NL Gs Fk Ng Ho Gi R) as (kids & els & h & cs & l0 & bst & md & w & St & _).
    destruct (step_same_comps _ _ _ _ _ _ _ _ _ _ _ _ _ _ St) as (E1 & E2 & E3 & E4).
    destruct (st_params _ _ _ _ _ _ _ _ _ _ _ _ _ _ St) as (_ & _ & Ec).
    destruct (st_members _ _ _ _ _ _ _ _ _ _ _ _ _ _ St) as [_ Pm].
    split; [|split; [congruence|split; [congruence|split]]].
    - apply (Permutation_NoDup (Permutation_sym Pm)).
      destruct (st_kids _ _ _ _ _ _ _ _ _ _ _ _ _ _ St) as (a & Ek & La & _).
      destruct (st_els _ _ _ _ _ _ _ _ _ _ _ _ _ _ St) as (e & b & l1 & Ee & El & Ie).
      assert (Ne : NoDup els).
      { destruct (st_taken _ _ _ _ _ _ _ _ _ _ _ _ _ _ St) as (s1 & _ & Tk). unfold taken in Tk. rewrite En in Tk.
        destruct (Z.ltb_spec 0 (n - Z.of_nat (length kids))) as [L|L]; [|destruct Tk as (l2 & b2 & _ & ->); constructor; [intros []|constructor]].
        destruct Tr as [Tr|Tr].
        - rewrite Tr in Tk. destruct Tk as (l2 & b2 & e2 & E2' & Pk & -> & _). rewrite E2' in Nd. apply NoDup_remove in Nd. rewrite app_nil_r in Nd. destruct Nd as [Nd Nb].
          apply nodup_app; [eapply picks_nodup; eauto|constructor; [intros []|constructor]|]. intros x Hx [<-|[]]. apply Nb. eapply picks_incl; eauto.
        - exfalso. pose proof (st_count _ _ _ _ _ _ _ _ _ _ _ _ _ _ St) as C. rewrite Et in C. destruct C as (x & Px & Lx). unfold pairs_wanted in Px. rewrite En in Px. cbn in Px. assert (x = m) by congruence. lia. }
      apply nodup_app; [rewrite Ek; apply seq_NoDup|exact Ne|]. intros x Hx Hy. rewrite Ek in Hx. apply in_seq in Hx.
      assert (In x (members (population gd))) as Hz by (rewrite Ee in Hy; apply in_app_or in Hy; destruct Hy as [Hy|[<-|[]]]; [apply Ie; auto|rewrite El; apply in_or_app; right; left; auto]).
      apply (gi_alloc _ _ _ Gi) in Hz. lia.
    - rewrite (st_pop _ _ _ _ _ _ _ _ _ _ _ _ _ _ St). exact En.
    - congruence.
  Qed.
  Lemma waits_apart : forall ok, NumOrder NO ok -> forall fuel t n m, 0 <= m -> bounded_wait (apart t n m) ok fuel 1 (inject_Z m * qpow (inject_Z t / inject_Z n) fuel).
  Proof.
    intros ok NL fuel t n m Hm. split; [|split].
    - intros c gd s G Hs (Nd & Et & _ & En & Em). rewrite <- En in Em. pose proof (selection_spent ok NL fuel c gd s t m G Hs Nd Et Em) as H. rewrite En, Z.max_r in H; auto.
    - intros. eapply apart_step; eauto.
    - intros. apply apart_source; auto.
  Qed.
End Converge.
