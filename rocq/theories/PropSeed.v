(** Runs with a fixed rnd_seed (C58, C59). *)
From Coq Require Import String.
From Coq Require Import ZArith QArith List Bool Lia Lqa.
From Verif Require Import Spec Num State Binary Population GaData Crossover Mutation Selection Penalty Fitness NewGeneration Driver
  ListLemmas Rnd Exec Laws CrossoverProofs PopulationProofs SelectionProofs TournamentProofs VegaProofs SeedProofs LockstepProofs PropSelection PropRun PropPareto Demo.
Import ListNotations.
Open Scope list_scope.
Open Scope Z_scope.

Section Seeded.
  Context {NO : NumOps}.

  (** Two states that differ only in the generator and in the entropy source. *)
  Record same_but_random (s1 s2 : st) : Prop := {
    sr_heap : heap s1 = heap s2; sr_next : next s1 = next s2; sr_seed : rnd_seed s1 = rnd_seed s2;
    sr_prng : prng s1 = prng s2; sr_log : log s1 = log s2 }.
  (** The same value with the same individuals and the same calls of the objective, or
      the same exception, or both unfinished. *)
  Definition same_result {A} (o1 o2 : outcome A) : Prop :=
    match o1, o2 with
    | Ok a s1, Ok b s2 => a = b /\ same_but_random s1 s2
    | Err x, Err y => x = y
    | NoFuel, NoFuel => True
    | _, _ => False
    end.
  Lemma same_but_split : forall s1 s2, same_but_random s1 s2 -> s2 = set_tape (tape s2) (set_ent (ent s2) s1).
  Proof. intros [] [] []; cbn in *; subst; reflexivity. Qed.
  Lemma settled_same : forall {A} (m : M A) s1 s2 z, settled m -> blind m -> rnd_seed s1 = Some z -> same_but_random s1 s2 -> same_result (m s1) (m s2).
  Proof.
    intros A m s1 s2 z R B Z S. rewrite (same_but_split _ _ S). destruct (R (set_ent (ent s2) s1) z (tape s2) Z) as (tp & E). rewrite E.
    destruct (B s1 z Z) as [Eb _]. rewrite Eb. destruct (m s1); cbn; auto. split; auto. constructor; reflexivity.
  Qed.
  Lemma same_result_bind : forall {A B} (m : M A) (k : A -> M B) s1 s2 z, rnd_seed s1 = Some z -> same_but_random s1 s2 -> restart m -> blind m -> (forall a, blind (k a)) ->
    same_result (bind m k s1) (bind m k s2).
  Proof. intros. eapply settled_same; eauto; [apply restart_settled, rs_bind; auto|apply sb_bind; auto]. Qed.

  (** The ready-made classes. *)
  Inductive algorithm :=
  | BinaryGA (gray : bool) (gens : list bgene)
  | CombinatoryGA (a b k : Z)
  | CategoricalGA (gens : list cgen)
  | VEGA (gray : bool) (gens : list bgene)
  | FFGA (gray : bool) (gens : list bgene).
  Definition optimize (fuel : nat) (cf : config) (a : algorithm) : M (gadata * option (list string)) :=
    match a with
    | BinaryGA gray gens => binary_ga fuel cf gray gens
    | CombinatoryGA a b k => combinatory_ga fuel cf a b k
    | CategoricalGA gens => categorical_ga fuel cf gens
    | VEGA gray gens => vega fuel cf gray gens
    | FFGA gray gens => ffga fuel cf gray gens
    end.

  (** *** C58 *)
  (** Every ready-made algorithm. *)
  Theorem C58_reproducible : forall fuel cf a s1 s2 z, rnd_seed s1 = Some z -> same_but_random s1 s2 ->
    same_result (optimize fuel cf a s1) (optimize fuel cf a s2).
  Proof.
    intros fuel cf a s1 s2 z Z S. eapply settled_same; eauto; destruct a; cbn [optimize]; try (apply restart_settled, rs_ga_optimize); try apply sb_ga_optimize.
    - apply restart_settled, rs_vega.
    - apply sb_vega.
  Qed.
  (** CollectorGA: set_population and then optimize with any components. *)
  Theorem C58_collector : forall fuel c multi n ng g inp cp es s1 s2 z, rnd_seed s1 = Some z -> same_but_random s1 s2 ->
    let run := gd <- collector_set_population multi n ng g inp cp es ;; collector_optimize fuel c gd in
    same_result (run s1) (run s2).
  Proof.
    intros. eapply same_result_bind; eauto; [unfold collector_set_population; apply rs_seed|apply sb_collector_population|intros; apply sb_collector_optimize].
  Qed.

  (** *** C59 *)
  (** Every selection, every crossover and hence every generation restarts from the
      seed: the draws made before have no influence. *)
  Theorem C59_selection : forall fuel sel gd s1 s2 z, rnd_seed s1 = Some z -> same_but_random s1 s2 ->
    same_result (selection_execute fuel sel gd s1) (selection_execute fuel sel gd s2).
  Proof. intros. eapply settled_same; eauto; [apply settled_selection|apply sb_selection]. Qed.
  Theorem C59_crossover : forall k gd s1 s2 z, rnd_seed s1 = Some z -> same_but_random s1 s2 ->
    same_result (crossover_execute k gd s1) (crossover_execute k gd s2).
  Proof. intros. eapply settled_same; eauto; [apply restart_settled, rs_crossover|apply sb_crossover_execute]. Qed.
  Theorem C59_generation : forall fuel c gd s1 s2 z, rnd_seed s1 = Some z -> same_but_random s1 s2 ->
    same_result (ga_step fuel c gd s1) (ga_step fuel c gd s2).
  Proof. intros. eapply settled_same; eauto; [apply restart_settled, rs_step|apply sb_step]. Qed.

  (** The parents are copies of the members at the positions [ps], in this order. *)
  Definition selected_at (gd : gadata) (s : st) (ps : list nat) (gd' : gadata) (s' : st) : Prop :=
    Forall2 (fun p c => exists r, nth_error (members (population gd)) p = Some r /\ same_contents (heap s r) (heap s' c)) ps (parents gd').
  Lemma base_seeded : forall gd s z, rnd_seed s = Some z -> NoDup (members (population gd)) ->
    exists s1, base_execute gd s = Ok (set_parents [] gd) s1 /\ tape s1 = prng s z /\ next s1 = next s /\ renumbered (members (population gd)) s s1 /\ numbered s1 (members (population gd)).
  Proof.
    intros gd s z Z ND. destruct (base_execute gd s) as [gd1 s1|x|] eqn:E.
    - exists s1. pose proof E as E0. apply base_execute_ok in E0. destruct E0 as (-> & N & _ & _ & _ & Rn). split; [reflexivity|].
      split; [|split; [exact N|split; [exact Rn|]]].
      + unfold base_execute, reset_idx_individ in E. bd E u s2 R. apply reset_idx_ok in R. destruct R as (_ & _ & S2 & P2 & _).
        unfold get_empty_copy, do_seed, bind in E. rewrite S2, Z in E. cbn in E. inversion E; subst. cbn. rewrite P2. reflexivity.
      + intros k r Hk. rewrite Rn, (last_pos_nodup _ 0 r k ND Hk). reflexivity.
    - exfalso. eapply base_execute_safe; eauto.
    - exfalso. unfold base_execute, reset_idx_individ in E. unfold bind in E.
      assert (F : forall l i s, reset_idx_loop i l s <> NoFuel).
      { induction l as [|a l IH]; intros i s'; cbn [reset_idx_loop]; [discriminate|]. unfold bind, modify. apply IH. }
      destruct (reset_idx_loop 0 (members (population gd)) s) as [u s2|x|] eqn:R; [|discriminate|eapply F; eauto].
      unfold get_empty_copy, do_seed, bind in E. destruct (rnd_seed s2); discriminate.
  Qed.
  (** Two populations of distinct individuals whose scores compare in the same way: the
      same positions are selected. *)
  Theorem C59_positions : forall fuel t gd1 gd2 s1 s2 z ks1 ks2 gd1' s1',
    rnd_seed s1 = Some z -> rnd_seed s2 = Some z -> prng s1 = prng s2 ->
    allocated gd1 s1 -> allocated gd2 s2 -> NoDup (members (population gd1)) -> NoDup (members (population gd2)) ->
    keys_of s1 None (members (population gd1)) ks1 -> keys_of s2 None (members (population gd2)) ks2 -> same_order ks1 ks2 ->
    num_individ (population gd1) = num_individ (population gd2) -> children_percent gd1 = children_percent gd2 ->
    selection_execute fuel (SelTournament t) gd1 s1 = Ok gd1' s1' ->
    exists gd2' s2' ps, selection_execute fuel (SelTournament t) gd2 s2 = Ok gd2' s2' /\
      selected_at gd1 s1 ps gd1' s1' /\ selected_at gd2 s2 ps gd2' s2'.
  Proof.
    intros fuel t gd1 gd2 s1 s2 z ks1 ks2 gd1' s1' Z1 Z2 Pr A1 A2 D1 D2 K1 K2 SO Nn Cp H. cbn [selection_execute] in *.
    bd H u s3 R. apply check_size_ok in R. destruct R as [Ht ->]. unfold bind at 1.
    unfold check_tournament_size. rewrite <- Nn. replace ((t <? 2) || (num_individ (population gd1) <=? t)) with false
      by (symmetry; apply orb_false_iff; split; [apply Z.ltb_ge|apply Z.leb_gt]; lia). cbn [ret].
    destruct (base_seeded gd1 s1 z Z1 D1) as (a1 & B1 & T1 & N1 & R1 & M1). destruct (base_seeded gd2 s2 z Z2 D2) as (a2 & B2 & T2 & N2 & R2 & M2).
    unfold bind at 1 in H. rewrite B1 in H. unfold bind at 1. rewrite B2. unfold tournament in *. bd H x s4 R4.
    pose proof (total_ok _ _ _ _ _ R4) as E4. assert (s4 = a1) by apply E4. subst s4. 
    assert (R5 : get_total_num_parents None (set_parents [] gd2) a2 = Ok x a2).
    { unfold get_total_num_parents in *. cbn [children_percent set_parents population] in *. rewrite <- Cp, <- Nn. unfold bind, ret, lift_opt in *.
      destruct (ntrunc _); [|discriminate]. inversion R4; reflexivity. }
    unfold bind at 1. rewrite R5. bd H cs1 s5 R6. apply ret_ok in H. destruct H as [-> ->]. cbn [population set_parents members parents app] in *.
    destruct (pairs_lock (members (population gd1)) (members (population gd2)) ks1 ks2 SO fuel t (Z.to_nat x) a1 a2 cs1 s5) as (ps & cs2 & b2 & R7 & X1 & X2 & C1 & C2); auto.
    { split; [congruence|]. split; [|split; [|split; [auto|split; [auto|split]]]].
      - unfold keys_of in *. eapply Forall2_impl; [|exact K1]. intros r k Hk. rewrite (renumbered_key _ _ _ _ _ R1). exact Hk.
      - unfold keys_of in *. eapply Forall2_impl; [|exact K2]. intros r k Hk. rewrite (renumbered_key _ _ _ _ _ R2). exact Hk.
      - intros r Hr. apply A1 in Hr. lia.
      - intros r Hr. apply A2 in Hr. lia. }
    exists (set_parents (flatten_pairs cs2) gd2), b2, ps. unfold bind. rewrite R7. split; [reflexivity|]. unfold selected_at. cbn [parents set_parents].
    split; [eapply Forall2_impl; [|exact C1]|eapply Forall2_impl; [|exact C2]]; intros p c (r & Hr & Hc); exists r; (split; [exact Hr|]); rewrite Hc;
      [destruct (renumbered_core _ _ _ r R1)|destruct (renumbered_core _ _ _ r R2)]; split; auto.
  Qed.
  (** In particular two ascending populations of the same size with distinct scores. *)
  Definition strictly_ascending (ks : list num) : Prop :=
    forall i j x y, nth_error ks i = Some x -> nth_error ks j = Some y -> (i < j)%nat -> nltb x y = true.
  Lemma ascending_same_order : forall ok, NumOrder NO ok -> forall ks1 ks2, Forall ok ks1 -> Forall ok ks2 -> strictly_ascending ks1 -> strictly_ascending ks2 ->
    length ks1 = length ks2 -> same_order ks1 ks2.
  Proof.
    intros ok NL ks1 ks2 O1 O2 S1 S2 L. split; auto. intros i j a1 b1 a2 b2 A1 B1 A2 B2.
    rewrite Forall_forall in O1, O2.
    pose proof (nth_error_In _ _ A1) as I1. pose proof (nth_error_In _ _ B1) as I2. pose proof (nth_error_In _ _ A2) as I3. pose proof (nth_error_In _ _ B2) as I4.
    destruct (lt_eq_lt_dec i j) as [[C|C]|C].
    - rewrite (S1 _ _ _ _ A1 B1 C), (S2 _ _ _ _ A2 B2 C). reflexivity.
    - subst j. assert (a1 = b1) by congruence. assert (a2 = b2) by congruence. subst. rewrite (no_irrefl _ _ NL), (no_irrefl _ _ NL); auto.
    - rewrite (lt_asym NL b1 a1), (lt_asym NL b2 a2); auto; [apply (S2 _ _ _ _ B2 A2 C)|apply (S1 _ _ _ _ B1 A1 C)].
  Qed.
  Theorem C59_sorted_positions : forall ok, NumOrder NO ok -> forall fuel t gd1 gd2 s1 s2 z ks1 ks2 gd1' s1',
    rnd_seed s1 = Some z -> rnd_seed s2 = Some z -> prng s1 = prng s2 ->
    allocated gd1 s1 -> allocated gd2 s2 -> NoDup (members (population gd1)) -> NoDup (members (population gd2)) ->
    keys_of s1 None (members (population gd1)) ks1 -> keys_of s2 None (members (population gd2)) ks2 ->
    Forall ok ks1 -> Forall ok ks2 -> strictly_ascending ks1 -> strictly_ascending ks2 -> length ks1 = length ks2 ->
    num_individ (population gd1) = num_individ (population gd2) -> children_percent gd1 = children_percent gd2 ->
    selection_execute fuel (SelTournament t) gd1 s1 = Ok gd1' s1' ->
    exists gd2' s2' ps, selection_execute fuel (SelTournament t) gd2 s2 = Ok gd2' s2' /\
      selected_at gd1 s1 ps gd1' s1' /\ selected_at gd2 s2 ps gd2' s2'.
  Proof. intros. eapply C59_positions; eauto using ascending_same_order. Qed.
End Seeded.

Section SeedExamples.
  Local Existing Instance Qops.
  (** A state with the given seed, individuals, generator and entropy source. *)
  Definition seeded_world (seed : option Z) (inds : list individ) (tp : nat -> Z) (e : nat -> nat -> Z) : st :=
    mkSt (fun r => nth r inds blank_individ) (length inds) tp e seed (fun z => wide (Z.to_nat z)) [].
  Definition geno_view (r : gadata * option (list string)) (s : st) := map (fun r => genotype (heap s r)) (members (population (fst r))).
  Definition seed_run (seed : option Z) (tp : nat -> Z) (e : nat -> nat -> Z) :=
    observe geno_view (optimize 50 (demo_cf (LFloat (1#2)) 5 6 None) (CategoricalGA pools) (seeded_world seed [] tp e)).
  (** The hypotheses of C58: the same seed, different generators and entropy sources;
      both runs end in the same population. *)
  Example C58_meets : same_but_random (seeded_world (Some 7) [] (fun _ => 0) mixed) (seeded_world (Some 7) [] (mixed 3) wide).
  Proof. constructor; reflexivity. Qed.
  Example C58_case : seed_run (Some 7) (fun _ => 0) mixed =
      Some (map ints [[2; 7; 1]; [0; 5; 2]; [2; 5; 2]; [2; 5; 2]; [0; 0; 2]; [1; 0; 2]]) /\
    seed_run (Some 7) (mixed 3) wide = Some (map ints [[2; 7; 1]; [0; 5; 2]; [2; 5; 2]; [2; 5; 2]; [0; 0; 2]; [1; 0; 2]]).
  Proof. split; run. Qed.
  (** Another seed and no seed give other populations. *)
  Example C58_other_seed : seed_run (Some 3) (mixed 3) wide = Some (map ints [[1; 7; 1]; [0; 0; 1]; [1; 0; 1]; [2; 0; 2]; [2; 0; 1]; [2; 0; 1]]).
  Proof. run. Qed.
  Example C58_no_seed : seed_run None (fun _ => 0) mixed = Some (map ints [[3; 7; 2]; [2; 5; 2]; [1; 0; 2]; [1; 0; 1]; [3; 0; 2]; [2; 0; 1]]) /\
    seed_run None (mixed 3) wide = Some (map ints [[2; 5; 2]; [2; 5; 1]; [3; 5; 1]; [0; 0; 2]; [0; 0; 1]; [1; 0; 1]]).
  Proof. split; run. Qed.

  (** Two ascending populations of four; positions 3, 2, 1, 2 are selected in both. *)
  Definition other_four : list individ := [ind (ints [50]) (q (-(7#2))); ind (ints [60]) (q 0); ind (ints [70]) (q (1#9)); ind (ints [80]) (q 100)].
  Example C59_case : observe (fun gd s => map (fun c => genotype (heap s c)) (parents gd))
      (selection_execute 30 (SelTournament 2) (gd4 (1#2)) (seeded_world (Some 7) four (fun _ => 0) mixed)) = Some (map ints [[4]; [3]; [2]; [3]]) /\
    observe (fun gd s => map (fun c => genotype (heap s c)) (parents gd))
      (selection_execute 30 (SelTournament 2) (gd4 (1#2)) (seeded_world (Some 7) other_four (mixed 5) wide)) = Some (map ints [[80]; [70]; [60]; [70]]).
  Proof. split; run. Qed.
  Example C59_meets : keys_of (seeded_world (Some 7) other_four (mixed 5) wide) None (members (population (gd4 (1#2)))) ([-(7#2); 0; 1#9; 100]%Q : list (@num Qops)) /\
    strictly_ascending ([-(7#2); 0; 1#9; 100]%Q : list (@num Qops)) /\ NoDup (members (population (gd4 (1#2)))) /\
    allocated (gd4 (1#2)) (seeded_world (Some 7) other_four (mixed 5) wide).
  Proof.
    split; [repeat constructor|]. split.
    - intros i j x y Hi Hj L. do 4 (destruct j as [|j]; [do 4 (destruct i as [|i]; [inversion Hi; inversion Hj; subst; first [reflexivity|lia]|]); try lia; destruct i; discriminate|]). destruct j; discriminate.
    - split; [apply seq_NoDup|]. intros r Hr. cbn in Hr. cbn. lia.
  Qed.
End SeedExamples.

Print Assumptions C58_reproducible.
Print Assumptions C58_collector.
Print Assumptions C59_selection.
Print Assumptions C59_crossover.
Print Assumptions C59_generation.
Print Assumptions C59_positions.
Print Assumptions C59_sorted_positions.
