(** The bound on the loops that choose a second parent: results do not depend on it,
    and only these loops can exceed it. *)
From Coq Require Import String.
From Coq Require Import ZArith List Bool Lia.
From Verif Require Import Num State Binary Population GaData Crossover Mutation Selection Penalty Fitness NewGeneration Driver ListLemmas Exec Fuelless RunProofs.
Import ListNotations.
Open Scope list_scope.
Open Scope Z_scope.

Section FuelProofs.
  Context {NO : NumOps}.

  (** *** Results do not depend on the bound *)
  Definition settled_at {A} (o o' : outcome A) : Prop := o <> NoFuel -> o' = o.
  Definition mono {A} (m m' : M A) : Prop := forall s, settled_at (m s) (m' s).
  Lemma mono_refl : forall {A} (m : M A), mono m m.
  Proof. intros A m s _. reflexivity. Qed.
  Lemma mono_bind : forall {A B} (m m' : M A) (k k' : A -> M B), mono m m' -> (forall a, mono (k a) (k' a)) -> mono (bind m k) (bind m' k').
  Proof.
    intros A B m m' k k' Hm Hk s. unfold bind, settled_at. pose proof (Hm s) as H. unfold settled_at in H. destruct (m s) as [a s1|e|].
    - rewrite H by discriminate. apply Hk.
    - rewrite H by discriminate. auto.
    - congruence.
  Qed.
  Lemma mono_nofuel : forall {A} (m : M A), mono nofuel m.
  Proof. intros A m s H. destruct H. reflexivity. Qed.
  Lemma mono_mrepeat : forall {A} n (m m' : M A), mono m m' -> mono (mrepeat n m) (mrepeat n m').
  Proof. intros A n m m' H. induction n; cbn [mrepeat]; [apply mono_refl|]. repeat (apply mono_bind; auto using mono_refl; intros). Qed.
  Lemma mono_mfold : forall {A B} (f f' : A -> B -> M A) l a, (forall a b, mono (f a b) (f' a b)) -> mono (mfold f l a) (mfold f' l a).
  Proof. intros A B f f' l. induction l; intros b H; cbn [mfold]; [apply mono_refl|]. apply mono_bind; auto. Qed.
  Ltac mn := repeat match goal with
    | |- mono (bind _ _) (bind _ _) => apply mono_bind
    | |- mono (mrepeat _ _) (mrepeat _ _) => apply mono_mrepeat
    | |- mono (mfold _ _ _) (mfold _ _ _) => apply mono_mfold
    | |- forall _, _ => intros
    | |- mono ?a ?a => apply mono_refl
    | |- mono (match ?x with _ => _ end) _ => destruct x
    end.
  Lemma mono_second_parent : forall f f' idx t l p, (f <= f')%nat -> mono (second_parent f idx t l p) (second_parent f' idx t l p).
  Proof.
    induction f as [|f IH]; intros f' idx t l p H; [apply mono_nofuel|]. destruct f' as [|f']; [lia|]. cbn [second_parent]. mn. apply IH. lia.
  Qed.
  Lemma mono_second_index : forall f f' sc p, (f <= f')%nat -> mono (second_index f sc p) (second_index f' sc p).
  Proof.
    induction f as [|f IH]; intros f' sc p H; [apply mono_nofuel|]. destruct f' as [|f']; [lia|]. cbn [second_index]. mn. apply IH. lia.
  Qed.
  Lemma mono_selection : forall f f' sel gd, (f <= f')%nat -> mono (selection_execute f sel gd) (selection_execute f' sel gd).
  Proof.
    intros f f' sel gd H. destruct sel; cbn [selection_execute]; unfold tournament, tournament_pair, balanced_pass, balanced_selection, balanced_pair; mn;
      try (apply mono_second_parent; auto); try (apply mono_second_index; auto).
  Qed.
  Lemma mono_step : forall f f' c gd, (f <= f')%nat -> mono (ga_step f c gd) (ga_step f' c gd).
  Proof. intros f f' c gd H. unfold ga_step. mn. apply mono_selection; auto. Qed.
  Lemma mono_loop : forall f f' k c gd, (f <= f')%nat -> mono (ga_loop f k c gd) (ga_loop f' k c gd).
  Proof. intros f f' k. induction k as [|k IH]; intros c gd H; cbn [ga_loop]; mn; [apply mono_step; auto|apply IH; auto]. Qed.
  Lemma mono_run : forall f f' c gd, (f <= f')%nat -> mono (run_loop f c gd) (run_loop f' c gd).
  Proof. intros f f' c gd H. unfold run_loop. mn. apply mono_loop; auto. Qed.
  Lemma mono_collector : forall f f' c gd, (f <= f')%nat -> mono (collector_optimize f c gd) (collector_optimize f' c gd).
  Proof. intros f f' c gd H. unfold collector_optimize. mn. apply mono_run; auto. Qed.
  Lemma mono_optimize : forall f f' cf multi g fk sel ck mk ngm, (f <= f')%nat ->
    mono (ga_optimize f cf multi g fk sel ck mk ngm) (ga_optimize f' cf multi g fk sel ck mk ngm).
  Proof. intros. unfold ga_optimize. mn. apply mono_run; auto. Qed.
  Lemma mono_vega : forall f f' cf gray gens, (f <= f')%nat -> mono (vega f cf gray gens) (vega f' cf gray gens).
  Proof. intros. unfold vega. mn; apply mono_optimize; auto. Qed.

  (** *** Where the bound is exceeded *)
  Lemma bind_nofuel : forall {A B} (m : M A) (k : A -> M B) s, bind m k s = NoFuel ->
    m s = NoFuel \/ exists a s1, m s = Ok a s1 /\ k a s1 = NoFuel.
  Proof. intros A B m k s H. unfold bind in H. destruct (m s) as [a s1|e|]; [right; eauto|discriminate|left; auto]. Qed.
  Lemma bind_fl : forall {A B} (m : M A) (k : A -> M B) s, fuelless m -> bind m k s = NoFuel -> exists a s1, m s = Ok a s1 /\ k a s1 = NoFuel.
  Proof. intros A B m k s F H. apply bind_nofuel in H. destruct H as [H|H]; auto. destruct (F _ H). Qed.
  Lemma mrepeat_nofuel : forall {A} n (m : M A) s, mrepeat n m s = NoFuel -> exists s1, m s1 = NoFuel.
  Proof.
    intros A n m. induction n as [|n IH]; intros s H; cbn [mrepeat] in H; [discriminate|]. apply bind_nofuel in H. destruct H as [H|(a & s1 & _ & H)]; eauto.
    apply bind_nofuel in H. destruct H as [H|(b & s2 & _ & H)]; eauto. discriminate.
  Qed.
  Lemma mfold_nofuel : forall {A B} (P : A -> Prop) (f : A -> B -> M A) l a s, P a -> (forall a b s a' s', P a -> f a b s = Ok a' s' -> P a') ->
    mfold f l a s = NoFuel -> exists a1 b s1, P a1 /\ In b l /\ f a1 b s1 = NoFuel.
  Proof.
    intros A B P f l. induction l as [|b l IH]; intros a s Pa K H; cbn [mfold] in H; [discriminate|]. apply bind_nofuel in H.
    destruct H as [H|(a1 & s1 & R & H)]; [exists a, b, s; repeat split; auto; left; auto|].
    destruct (IH a1 s1 (K _ _ _ _ _ Pa R) K H) as (a2 & b2 & s2 & P2 & I2 & E2). exists a2, b2, s2. repeat split; auto. right; auto.
  Qed.

  (** [n] consecutive draws with the property [P]. *)
  Fixpoint in_a_row {A} (draw : M A) (P : A -> st -> Prop) (n : nat) (s : st) : Prop :=
    match n with
    | O => True
    | S n' => exists a s', draw s = Ok a s' /\ P a s' /\ in_a_row draw P n' s'
    end.
  Lemma fl_get_best_loop : forall idx l t b, fuelless (get_best_loop idx l t b).
  Proof.
    intros idx l t. induction t as [|i t IH]; intros b; cbn [get_best_loop]; [apply fl_ret|].
    apply fl_bind; [apply fl_lift_opt|]. intros r. apply fl_bind; [apply fl_get|]. intros c. apply fl_bind; [apply fl_get|]. intros c2.
    apply fl_bind; [|intros y; destruct y; auto]. unfold better. destruct idx; [|apply fl_ltb].
    unfold sv_at. apply fl_bind; [destruct (score c); try apply fl_raise; apply fl_lift_opt|]. intros u. apply fl_bind; [destruct (score c2); try apply fl_raise; apply fl_lift_opt|]. intros v. apply fl_ret.
  Qed.
  Lemma fl_run_tournament : forall idx t l, fuelless (run_tournament idx t l).
  Proof.
    intros. unfold run_tournament, get_best. apply fl_bind; [apply fl_sample|]. intros tr. destruct tr; [apply fl_raise|].
    apply fl_bind; [apply fl_lift_opt|]. intros. apply fl_get_best_loop.
  Qed.
  Lemma fl_get_index : forall sc, fuelless (get_index sc).
  Proof. intros. unfold get_index. apply fl_bind; [apply fl_random|]. intros. apply fl_lift. Qed.
  Lemma opt_eqb_eq : forall a b, opt_eqb Z.eqb a b = true -> a = b.
  Proof. intros [a|] [b|] H; cbn in H; try discriminate; auto. apply Z.eqb_eq in H. subst. auto. Qed.
  Lemma second_parent_nofuel : forall f idx t l p s, second_parent f idx t l p s = NoFuel ->
    in_a_row (run_tournament idx t l) (fun b s' => idx_individ (heap s' b) = idx_individ (heap s' p)) f s.
  Proof.
    induction f as [|f IH]; intros idx t l p s H; cbn [second_parent in_a_row] in *; auto.
    apply bind_fl in H; [|apply fl_run_tournament]. destruct H as (b & s1 & R & H). exists b, s1. split; auto.
    unfold bind, get in H. destruct (opt_eqb Z.eqb _ _) eqn:E; [|discriminate]. apply opt_eqb_eq in E. auto.
  Qed.
  Lemma second_index_nofuel : forall f sc p s, second_index f sc p s = NoFuel -> in_a_row (get_index sc) (fun i _ => i = p) f s.
  Proof.
    induction f as [|f IH]; intros sc p s H; cbn [second_index in_a_row] in *; auto.
    apply bind_fl in H; [|apply fl_get_index]. destruct H as (i & s1 & R & H). exists i, s1. split; auto.
    destruct (Z.eqb_spec i p); [auto|discriminate].
  Qed.
  (** A pair of parents whose second member was not found within [f] draws. *)
  Definition stuck_tournament (f : nat) (idx : option Z) (t : Z) (l : list nat) : Prop :=
    exists p s s1, run_tournament idx t l s = Ok p s1 /\
      in_a_row (run_tournament idx t l) (fun b s' => idx_individ (heap s' b) = idx_individ (heap s' p)) f s1.
  Definition stuck_index (f : nat) : Prop :=
    exists sc p s s1, get_index sc s = Ok p s1 /\ in_a_row (get_index sc) (fun i _ => i = p) f s1.
  Definition stuck (f : nat) (sel : selection) (l : list nat) : Prop :=
    match sel with
    | SelTournament t => stuck_tournament f None t l
    | SelVegaTournament m t => exists i, 0 <= i < m /\ stuck_tournament f (Some i) t l
    | _ => stuck_index f
    end.
  Lemma tournament_pair_nofuel : forall f idx t l s, tournament_pair f idx t l s = NoFuel -> stuck_tournament f idx t l.
  Proof.
    intros f idx t l s H. unfold tournament_pair in H. apply bind_fl in H; [|apply fl_run_tournament]. destruct H as (p & s1 & R & H).
    exists p, s, s1. split; auto. apply bind_nofuel in H. destruct H as [H|(q & s2 & _ & H)]; [apply second_parent_nofuel; auto|].
    unfold bind, get, alloc, ret in H. discriminate.
  Qed.
  Lemma balanced_pair_nofuel : forall f sc l s, balanced_pair f sc l s = NoFuel -> stuck_index f.
  Proof.
    intros f sc l s H. unfold balanced_pair in H. apply bind_fl in H; [|apply fl_get_index]. destruct H as (p & s1 & R & H).
    exists sc, p, s, s1. split; auto. apply bind_nofuel in H. destruct H as [H|(q & s2 & _ & H)]; [apply second_index_nofuel; auto|].
    exfalso. revert H. repeat (apply fl_bind; [auto using fl_pop_at, fl_alloc|intros]). apply fl_ret.
  Qed.
  Lemma tournament_nofuel : forall f m idx t gd s, tournament f m idx t gd s = NoFuel -> stuck_tournament f idx t (members (population gd)).
  Proof.
    intros f m idx t gd s H. unfold tournament in H. apply bind_fl in H.
    - destruct H as (total & s1 & _ & H). apply bind_nofuel in H. destruct H as [H|(ps & s2 & _ & H)]; [|discriminate].
      apply mrepeat_nofuel in H. destruct H as (s2 & H). eapply tournament_pair_nofuel; eauto.
    - unfold get_total_num_parents. destruct m; repeat (apply fl_bind; [auto using fl_ret, fl_lift|intros]); apply fl_lift_opt.
  Qed.
  Lemma tournament_pop : forall f m idx t gd s gd' s', tournament f m idx t gd s = Ok gd' s' -> population gd' = population gd.
  Proof.
    intros f m idx t gd s gd' s' H. unfold tournament in H. apply bind_ok in H. destruct H as (total & s1 & _ & H). apply bind_ok in H.
    destruct H as (ps & s2 & _ & H). apply ret_ok in H. destruct H as [-> _]. reflexivity.
  Qed.
  Lemma base_pop : forall gd s gd' s', base_execute gd s = Ok gd' s' -> population gd' = population gd.
  Proof.
    intros gd s gd' s' H. unfold base_execute in H. apply bind_ok in H. destruct H as (u & s1 & _ & H). apply bind_ok in H.
    destruct H as (l & s2 & _ & H). apply ret_ok in H. destruct H as [-> _]. reflexivity.
  Qed.
  Lemma fl_base_execute : forall gd, fuelless (base_execute gd).
  Proof. intros. unfold base_execute, reset_idx_individ, get_empty_copy. apply fl_bind; [apply fl_reset|]. intros u. apply fl_bind; [|intros l; apply fl_ret]. apply fl_bind; [apply fl_do_seed|]. intros v. apply fl_ret. Qed.
  Lemma fl_put_rank : forall idx l i v, fuelless (put_rank idx l i v).
  Proof.
    intros. unfold put_rank. apply fl_bind; [apply fl_lift_opt|]. intros r. destruct idx; [|apply fl_modify]. apply fl_bind; [apply fl_get|]. intros x.
    destruct (rank x) as [[]|]; try apply fl_raise. destruct (_ && _); [apply fl_modify|apply fl_raise].
  Qed.
  Lemma fl_sv_at : forall v i, fuelless (sv_at v i).
  Proof. intros. unfold sv_at. destruct v; try apply fl_raise. apply fl_lift_opt. Qed.
  Lemma fl_ranks : forall idx l, fuelless (assign_selection_ranks idx l).
  Proof.
    intros. unfold assign_selection_ranks. apply fl_bind; [|intros; apply fl_ret]. apply fl_mfold. intros [prev count] i. unfold rank_step.
    apply fl_bind; [apply fl_put_rank|]. intros _. apply fl_bind.
    - unfold rank_score. apply fl_bind; [apply fl_pop_at|]. intros x. destruct idx; [|apply fl_ret]. apply fl_bind; [apply fl_sv_at|]. intros; apply fl_ret.
    - intros sc. destruct (sv_eqb sc prev); cbv zeta.
      + apply fl_bind; [|intros; apply fl_ret]. destruct (_ =? _); [|apply fl_ret]. unfold put_group. apply fl_miter. intros; apply fl_put_rank.
      + destruct (1 <? count); [|apply fl_ret]. apply fl_bind; [|intros; apply fl_ret]. unfold put_group. apply fl_miter. intros; apply fl_put_rank.
  Qed.
  Lemma fl_probabilities : forall k idx l, fuelless (add_probabilities k idx l).
  Proof.
    intros. unfold add_probabilities. apply fl_bind; [|intros; apply fl_lift]. apply fl_mmap. intros r. unfold weight. apply fl_bind; [apply fl_get|]. intros i.
    apply fl_bind; [apply fl_lift_opt|]. intros v. destruct idx; [apply fl_sv_at|]. destruct v; apply fl_ret || apply fl_raise.
  Qed.
  Lemma balanced_nofuel : forall f rk m idx gd s, balanced_pass f rk m idx gd s = NoFuel -> stuck_index f.
  Proof.
    intros f rk m idx gd s H. unfold balanced_pass in H. apply bind_fl in H; [|apply fl_base_execute]. destruct H as (gd1 & s1 & R1 & H). cbv zeta in H.
    apply bind_fl in H; [|destruct rk; [apply fl_ranks|apply fl_ret]]. destruct H as (u & s2 & _ & H). apply bind_fl in H; [|apply fl_probabilities].
    destruct H as (sc & s3 & _ & H). unfold balanced_selection in H. apply bind_fl in H.
    - destruct H as (total & s4 & _ & H). apply bind_nofuel in H. destruct H as [H|(ps & s5 & _ & H)]; [|discriminate].
      apply mrepeat_nofuel in H. destruct H as (s5 & H). eapply balanced_pair_nofuel; eauto.
    - unfold get_total_num_parents. destruct m; repeat (apply fl_bind; [auto using fl_ret, fl_lift|intros]); apply fl_lift_opt.
  Qed.
  Lemma balanced_pop : forall f rk m idx gd s gd' s', balanced_pass f rk m idx gd s = Ok gd' s' -> population gd' = population gd.
  Proof.
    intros f rk m idx gd s gd' s' H. unfold balanced_pass in H. apply bind_ok in H. destruct H as (gd1 & s1 & R1 & H). cbv zeta in H.
    apply bind_ok in H. destruct H as (u & s2 & _ & H). apply bind_ok in H. destruct H as (sc & s3 & _ & H). unfold balanced_selection in H.
    apply bind_ok in H. destruct H as (total & s4 & _ & H). apply bind_ok in H. destruct H as (ps & s5 & _ & H). apply ret_ok in H. destruct H as [-> _].
    apply base_pop in R1. exact R1.
  Qed.
  Lemma check_size_fl : forall t n, fuelless (check_tournament_size t n).
  Proof. intros. unfold check_tournament_size. destruct (_ || _); [apply fl_raise|apply fl_ret]. Qed.
  Lemma selection_nofuel : forall f sel gd s, selection_execute f sel gd s = NoFuel -> stuck f sel (members (population gd)).
  Proof.
    intros f sel gd s H. destruct sel; cbn [selection_execute] in H.
    - apply bind_fl in H; [|apply check_size_fl]. destruct H as (u & s1 & _ & H). apply bind_fl in H; [|apply fl_base_execute]. destruct H as (gd1 & s2 & R & H).
      apply base_pop in R. rewrite <- R. eapply tournament_nofuel; eauto.
    - eapply balanced_nofuel; eauto.
    - eapply balanced_nofuel; eauto.
    - apply bind_fl in H; [|apply check_size_fl]. destruct H as (u & s1 & _ & H). apply bind_fl in H; [|apply fl_base_execute]. destruct H as (gd1 & s2 & R & H).
      apply base_pop in R. rewrite <- R. apply mfold_nofuel with (P := fun g => population g = population gd1) in H; auto.
      + destruct H as (g1 & b & s3 & <- & Ib & H). apply in_zrange in Ib. exists b. split; [lia|]. eapply tournament_nofuel; eauto.
      + intros a b sa a' sb E T. apply tournament_pop in T. congruence.
    - apply mfold_nofuel with (P := fun g => population g = population gd) in H; auto.
      + destruct H as (g1 & b & s3 & _ & _ & H). eapply balanced_nofuel; eauto.
      + intros a b sa a' sb E T. apply balanced_pop in T. congruence.
    - apply bind_fl in H; [|apply fl_miter; intros; apply fl_modify]. destruct H as (u & s1 & _ & H).
      apply mfold_nofuel with (P := fun g => population g = population gd) in H; auto.
      + destruct H as (g1 & b & s3 & _ & _ & H). eapply balanced_nofuel; eauto.
      + intros a b sa a' sb E T. apply balanced_pop in T. congruence.
  Qed.
  Lemma step_nofuel : forall f c gd s, ga_step f c gd s = NoFuel -> selection_execute f (c_selection c) gd s = NoFuel.
  Proof.
    intros f c gd s H. unfold ga_step in H. apply bind_nofuel in H. destruct H as [H|(gd1 & s1 & _ & H)]; auto. exfalso. revert H.
    apply fl_bind; [apply fl_crossover_execute|intros]. apply fl_bind; [apply fl_mutation_execute|intros]. apply fl_bind; [apply fl_newgen|intros].
    apply fl_bind; [apply fl_fitness_execute|intros]. apply fl_bind; [apply fl_update|intros]. apply fl_ret.
  Qed.
  Lemma loop_nofuel : forall f k c gd s, ga_loop f k c gd s = NoFuel ->
    exists j c' gd' s', (j < k)%nat /\ steps f c gd s j c' gd' s' /\ selection_execute f (c_selection c') gd' s' = NoFuel.
  Proof.
    intros f k. induction k as [|k IH]; intros c gd s H; cbn [ga_loop] in H; [discriminate|]. apply bind_nofuel in H. destruct H as [H|([c1 gd1] & s1 & R & H)].
    - exists 0%nat, c, gd, s. split; [lia|]. split; [constructor|]. apply step_nofuel; auto.
    - cbn [fst snd] in H. apply bind_fl in H; [|unfold should_stop; destruct (early_stop gd1); apply fl_ret || apply fl_raise]. destruct H as (b & s2 & E & H). destruct b; [discriminate|].
      assert (s2 = s1) by (unfold should_stop in E; destruct (early_stop gd1); inversion E; auto). subst s2.
      destruct (IH _ _ _ H) as (j & c' & gd' & s' & L & St & E'). exists (S j), c', gd', s'. split; [lia|]. split; auto. eapply steps_cons; eauto.
  Qed.
  Lemma run_nofuel : forall f c gd s, run_loop f c gd s = NoFuel ->
    exists gd1 s1 j c' gd' s', first_generation (c_fitness c) gd s = Ok gd1 s1 /\ (j < Z.to_nat (num_generations gd1 - 1))%nat /\
      steps f c gd1 s1 j c' gd' s' /\ selection_execute f (c_selection c') gd' s' = NoFuel.
  Proof.
    intros f c gd s H. unfold run_loop in H. apply bind_fl in H; [|apply fl_fitness_execute]. destruct H as (u & s0 & R0 & H).
    apply bind_fl in H; [|apply fl_update]. destruct H as (gd1 & s1 & R1 & H). apply loop_nofuel in H. destruct H as (j & c' & gd' & s' & L & St & E).
    exists gd1, s1, j, c', gd', s'. split; [|auto]. unfold first_generation, bind. rewrite R0. exact R1.
  Qed.
End FuelProofs.
