(** Property C64: the choice of the second parent is the only unbounded loop, and the
    results do not depend on the bound that the model puts on it. *)
From Coq Require Import String.
From Coq Require Import ZArith QArith List Bool Lia.
From Verif Require Import Num State Binary Population GaData Crossover Mutation Selection Penalty Fitness NewGeneration Driver
  ListLemmas Exec Fuelless FuelProofs RunProofs Runs PropRun PropSeed PropSelection Demo.
Import ListNotations.
Open Scope list_scope.
Open Scope Z_scope.

Section C64.
  Context {NO : NumOps}.
  (** With a larger bound a run that was over gives the same result: the same data, the
      same final state and draws, or the same exception. *)
  Theorem C64_bound : forall f f' cf a s, (f <= f')%nat -> optimize f cf a s <> NoFuel -> optimize f' cf a s = optimize f cf a s.
  Proof. intros f f' cf a s H. destruct a; cbn [optimize]; try (apply mono_optimize; auto). apply mono_vega; auto. Qed.
  (** So any two bounds agree as soon as neither is exceeded. *)
  Theorem C64_one_result : forall f f' cf a s, optimize f cf a s <> NoFuel -> optimize f' cf a s <> NoFuel -> optimize f cf a s = optimize f' cf a s.
  Proof.
    intros f f' cf a s H H'. destruct (Nat.le_ge_cases f f') as [L|L]; [symmetry|]; apply C64_bound; auto.
  Qed.
  Theorem C64_collector : forall f f' c gd s, collector_optimize f c gd s <> NoFuel -> collector_optimize f' c gd s <> NoFuel ->
    collector_optimize f c gd s = collector_optimize f' c gd s.
  Proof.
    intros f f' c gd s H H'. destruct (Nat.le_ge_cases f f') as [L|L]; [symmetry|]; apply mono_collector; auto.
  Qed.
  (** A run exceeds the bound [f] only in this way: it completes some generations, fewer
      than asked for, and in the next selection, after a first parent was drawn, [f]
      draws in a row give the same one again. *)
  Theorem C64_second_parent : forall f cf a s, optimize f cf a s = NoFuel ->
    exists c gd0 s0 k c' gd' s', at_generation f c gd0 s0 k c' gd' s' /\ Z.of_nat k + 1 < cf_num_generations cf /\
      selection_execute f (c_selection c') gd' s' = NoFuel /\ stuck f (c_selection c') (members (population gd')).
  Proof.
    assert (G : forall f cf multi g fk sel ck mk ngm s, ga_optimize f cf multi g fk sel ck mk ngm s = NoFuel ->
      exists c gd0 s0 k c' gd' s', at_generation f c gd0 s0 k c' gd' s' /\ Z.of_nat k + 1 < cf_num_generations cf /\
        selection_execute f (c_selection c') gd' s' = NoFuel /\ stuck f (c_selection c') (members (population gd'))).
    { intros f cf multi g fk sel ck mk ngm s H. unfold ga_optimize in H.
      apply bind_fl in H; [|apply fl_do_seed]. destruct H as (u & s1 & _ & H).
      do 4 (apply bind_fl in H; [|apply fl_lift]; let x := fresh "x" in let y := fresh "s" in destruct H as (x & y & _ & H)).
      apply bind_fl in H; [|apply fl_fill]. destruct H as (p & s6 & _ & H). cbv zeta in H. apply bind_nofuel in H. destruct H as [H|(r & s7 & _ & H)].
      - apply run_nofuel in H. destruct H as (gd1 & s8 & j & c' & gd' & s' & F & L & St & E).
        eexists _, _, s6, j, c', gd', s'. split; [exists gd1, s8; split; [exact F|exact St]|]. split; [|split; [exact E|apply selection_nofuel with (1 := E)]].
        assert (N : num_generations gd1 = cf_num_generations cf); [|lia].
        unfold first_generation in F. bd F v s9 Rv. clear - F. unfold update in F. destruct multi; cbn [is_multi new_gadata] in F.
        + unfold update_multi in F. cbn [new_gadata population best_solution] in F. bd F l s1 R1. bd F rf s2 R2. bd F pset s3 R3. cbn in F. inversion F. reflexivity.
        + unfold update_single in F. cbn [new_gadata population best_solution] in F. bd F l s1 R1. bd F b s2 R2. bd F md s3 R3. bd F w s4 R4. cbn in F. inversion F. reflexivity.
      - exfalso. revert H. apply fl_bind; [|intros; apply fl_ret]. destruct (cf_is_print cf); [|apply fl_ret].
        unfold print_best_solution. destruct (best_solution (snd r)) as [|i n|pset [n|]]; try apply fl_raise; try apply fl_ret.
        apply fl_miter. intros i. destruct (phenotype i); apply fl_raise || apply fl_ret. }
    intros f cf a s H. destruct a; cbn [optimize] in H; try (apply G in H; exact H). unfold vega in H. apply bind_fl in H.
    - destruct H as (m & s1 & _ & H). apply G in H. exact H.
    - destruct (cf_conditions cf); [apply fl_ret|]. apply fl_bind; [|intros; apply fl_ret]. unfold call_list, call1. destruct (cf_objective cf); try apply fl_raise;
        (apply fl_bind; [apply fl_logged|]; intros v; destruct v; apply fl_raise || apply fl_ret).
  Qed.
End C64.

Local Existing Instance Qops.
Definition over {A} (o : outcome A) : bool := match o with NoFuel => true | _ => false end.
(** One draw for the second parent is not enough in this run; 2 and 12 give the same
    result. *)
Definition bounded (f : nat) := optimize f (demo_cf (LFloat (1#2)) 5 6 None) (CategoricalGA pools) fresh_world.
Definition seen (o : outcome (gadata * option (list string))) := observe (fun r s => (hist_best (fst r), length (log s))) o.
Example C64_case : (over (bounded 1), seen (bounded 2), seen (bounded 12)) =
  (true, Some (map q [-4; -4; -4; -1; -1; -1]%Q, 20%nat), Some (map q [-4; -4; -4; -1; -1; -1]%Q, 20%nat)).
Proof. run. Qed.

Print Assumptions C64_bound.
Print Assumptions C64_one_result.
Print Assumptions C64_collector.
Print Assumptions C64_second_parent.
