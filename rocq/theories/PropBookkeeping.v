(** Statement C79: what one iteration writes into the data object. *)
From Coq Require Import String.
From Coq Require Import ZArith QArith List Bool Lia Permutation.
From Verif Require Import Num State Binary Population GaData Crossover Mutation Selection Penalty Fitness NewGeneration Driver
  ListLemmas Exec NewGenProofs Demo PropRun.
Import ListNotations.
Open Scope list_scope.
Open Scope Z_scope.

Section C79.
  Context {NO : NumOps}.
  (** The settings. *)
  Definition settings_kept (gd gd' : gadata) : Prop :=
    is_multi gd' = is_multi gd /\ num_generations gd' = num_generations gd /\ early_stop gd' = early_stop gd /\ children_percent gd' = children_percent gd /\
    num_individ (population gd') = num_individ (population gd) /\ gspec_of (population gd') = gspec_of (population gd) /\ input_population (population gd') = input_population (population gd).
  (** The results so far. *)
  Definition records_kept (gd gd' : gadata) : Prop :=
    idx_generation gd' = idx_generation gd /\ no_improve gd' = no_improve gd /\ hist_best gd' = hist_best gd /\ hist_mediocre gd' = hist_mediocre gd /\
    hist_worst gd' = hist_worst gd /\ hist_pareto gd' = hist_pareto gd /\ best_solution gd' = best_solution gd.
  Definition selects (gd gd' : gadata) : Prop := settings_kept gd gd' /\ records_kept gd gd' /\ population gd' = population gd /\ children gd' = children gd.
  Lemma selects_refl : forall gd, selects gd gd.
  Proof. intros. unfold selects, settings_kept, records_kept. auto 20. Qed.
  Lemma selects_trans : forall a b c, selects a b -> selects b c -> selects a c.
  Proof. unfold selects, settings_kept, records_kept. intros a b c H1 H2. intuition congruence. Qed.
  Lemma selects_set : forall ps gd, selects gd (set_parents ps gd).
  Proof. intros. unfold selects, settings_kept, records_kept. cbn. auto 20. Qed.
  Lemma tournament_selects : forall f m i t gd s gd' s', tournament f m i t gd s = Ok gd' s' -> selects gd gd'.
  Proof. intros f m i t gd s gd' s' H. unfold tournament in H. bd H n s1 R1. bd H ps s2 R2. apply ret_ok in H. destruct H as [-> _]. apply selects_set. Qed.
  Lemma base_selects : forall gd s gd' s', base_execute gd s = Ok gd' s' -> selects gd gd'.
  Proof. intros gd s gd' s' H. unfold base_execute in H. bd H u s1 R1. bd H l s2 R2. apply ret_ok in H. destruct H as [-> _]. apply selects_set. Qed.
  Lemma pass_selects : forall f rk m i gd s gd' s', balanced_pass f rk m i gd s = Ok gd' s' -> selects gd gd'.
  Proof.
    intros f rk m i gd s gd' s' H. unfold balanced_pass in H. bd H g1 s1 R1. apply base_selects in R1. bd H u s2 R2. bd H sc s3 R3.
    eapply selects_trans; [exact R1|]. unfold balanced_selection in H. bd H n s4 R4. bd H ps s5 R5. apply ret_ok in H. destruct H as [-> _]. apply selects_set.
  Qed.
  Lemma fold_selects : forall (k : gadata -> Z -> M gadata) l, (forall gd i s gd' s', k gd i s = Ok gd' s' -> selects gd gd') ->
    forall gd s gd' s', mfold k l gd s = Ok gd' s' -> selects gd gd'.
  Proof.
    intros k l Hk. induction l as [|i l IH]; intros gd s gd' s' H; cbn [mfold] in H; [apply ret_ok in H; destruct H as [-> _]; apply selects_refl|].
    bd H g1 s1 R. eapply selects_trans; [eapply Hk; exact R|eapply IH; exact H].
  Qed.
  (** Selection writes the parents and nothing else. *)
  Theorem C79_selection : forall f sel gd s gd' s', selection_execute f sel gd s = Ok gd' s' -> selects gd gd'.
  Proof.
    intros f sel gd s gd' s' H. destruct sel; cbn [selection_execute] in H; try (eapply pass_selects; exact H).
    - bd H u s1 R1. bd H g1 s2 R2. eapply selects_trans; [eapply base_selects; exact R2|eapply tournament_selects; exact H].
    - bd H u s1 R1. bd H g1 s2 R2. eapply selects_trans; [eapply base_selects; exact R2|]. eapply fold_selects; [|exact H]. intros gd0 i0 s0 gd0' s0' H0. cbv beta in H0. eapply tournament_selects. exact H0.
    - eapply fold_selects; [|exact H]. intros gd0 i0 s0 gd0' s0' H0. cbv beta in H0. eapply pass_selects. exact H0.
    - bd H u s1 R1. eapply fold_selects; [|exact H]. intros gd0 i0 s0 gd0' s0' H0. cbv beta in H0. eapply pass_selects. exact H0.
  Qed.
  (** Crossover writes the children and nothing else. *)
  Theorem C79_crossover : forall k gd s gd' s', crossover_execute k gd s = Ok gd' s' ->
    settings_kept gd gd' /\ records_kept gd gd' /\ population gd' = population gd /\ parents gd' = parents gd.
  Proof.
    intros k gd s gd' s' H. unfold crossover_execute in H. destruct (members (population gd)) as [|first l]; [discriminate|].
    bd H i0 s1 R1. bd H u s2 R2. bd H cs s3 R3. apply ret_ok in H. destruct H as [-> _]. unfold settings_kept, records_kept. cbn. auto 20.
  Qed.
  (** The new generation replaces the members: they are the children now; parents and
      results stay. *)
  Theorem C79_new_generation : forall ng gd s gd' s', newgen_execute ng gd s = Ok gd' s' ->
    settings_kept gd gd' /\ records_kept gd gd' /\ parents gd' = parents gd /\ children gd' = members (population gd') /\ is_sorted (population gd') = false.
  Proof.
    intros ng gd s gd' s' H. unfold newgen_execute in H. destruct (ng_multi ng).
    - bd H u s1 R1. bd H nx s2 R2. apply ret_ok in H. destruct H as [-> _]. unfold settings_kept, records_kept. cbn. auto 20.
    - bd H l s1 R1. bd H nx s2 R2. apply ret_ok in H. destruct H as [-> _]. unfold settings_kept, records_kept. cbn. auto 20.
  Qed.
  Lemma sorted_perm : forall k p s l s', (if is_sorted p then ret (members p) else sort_by_dict k (members p)) s = Ok l s' -> Permutation l (members p).
  Proof.
    intros k p s l s' H. destruct (is_sorted p); [apply ret_ok in H; destruct H as [-> _]; reflexivity|]. apply sort_ok in H. destruct H as (_ & H & _). exact H.
  Qed.
  (** update: one more generation, one more entry in the histories of its kind, the
      members at most reordered. *)
  Theorem C79_update : forall gd s gd' s', update gd s = Ok gd' s' ->
    settings_kept gd gd' /\ parents gd' = parents gd /\ children gd' = children gd /\ idx_generation gd' = idx_generation gd + 1 /\
    Permutation (members (population gd')) (members (population gd)) /\
    (is_multi gd = false -> hist_pareto gd' = hist_pareto gd /\ exists b m w, hist_best gd' = hist_best gd ++ [b] /\ hist_mediocre gd' = hist_mediocre gd ++ [m] /\ hist_worst gd' = hist_worst gd ++ [w]) /\
    (is_multi gd = true -> hist_best gd' = hist_best gd /\ hist_mediocre gd' = hist_mediocre gd /\ hist_worst gd' = hist_worst gd /\ exists front, hist_pareto gd' = hist_pareto gd ++ [front]).
  Proof.
    intros gd s gd' s' H. unfold update in H. destruct (is_multi gd) eqn:Em.
    - unfold update_multi in H. bd H l s1 R1. apply sorted_perm in R1. bd H refs s2 R2. bd H set s3 R3. bd H og s4 R4. destruct og as [old g]. apply ret_ok in H. destruct H as [-> _].
      unfold settings_kept. cbn. repeat (split; auto); try discriminate. eauto.
    - unfold update_single in H. bd H l s1 R1. apply sorted_perm in R1. bd H b s2 R2. bd H md s3 R3. bd H w s4 R4. bd H r s5 R5. apply ret_ok in H. destruct H as [-> _].
      unfold settings_kept. cbn. repeat (split; auto); try discriminate. eauto 10.
  Qed.
  (** What grows in the histories. *)
  Definition recorded (k : nat) (gd gd' : gadata) : Prop :=
    idx_generation gd' = idx_generation gd + Z.of_nat k /\
    if is_multi gd then hist_best gd' = hist_best gd /\ hist_mediocre gd' = hist_mediocre gd /\ hist_worst gd' = hist_worst gd /\ exists fs, List.length fs = k /\ hist_pareto gd' = hist_pareto gd ++ fs
    else hist_pareto gd' = hist_pareto gd /\ exists bs ms ws, List.length bs = k /\ List.length ms = k /\ List.length ws = k /\
           hist_best gd' = hist_best gd ++ bs /\ hist_mediocre gd' = hist_mediocre gd ++ ms /\ hist_worst gd' = hist_worst gd ++ ws.
  (** One iteration: the settings and components stay except the mutation's resolved
      level, one entry is added to the histories, the parents are the ones just selected
      and the children are the members. *)
  Theorem C79_step : forall fuel c gd s c' gd' s', ga_step fuel c gd s = Ok (c', gd') s' ->
    settings_kept gd gd' /\ recorded 1 gd gd' /\ Permutation (children gd') (members (population gd')) /\
    (exists gd1 s1, selection_execute fuel (c_selection c) gd s = Ok gd1 s1 /\ parents gd' = parents gd1) /\
    c_fitness c' = c_fitness c /\ c_selection c' = c_selection c /\ c_crossover c' = c_crossover c /\ c_newgen c' = c_newgen c.
  Proof.
    intros fuel c gd s c' gd' s' H. unfold ga_step in H. bd H g1 s1 R1. bd H g2 s2 R2. bd H m s3 R3. bd H g3 s4 R4. bd H u s5 R5. bd H g4 s6 R6. apply ret_ok in H. destruct H as [E _].
    inversion E; subst c' gd'. clear E R3 R5. pose proof R1 as R1'. apply C79_selection in R1. apply C79_crossover in R2. apply C79_new_generation in R4. apply C79_update in R6.
    destruct R1 as (S1 & K1 & P1 & C1). destruct R2 as (S2 & K2 & P2 & C2). destruct R4 as (S3 & K3 & P3 & C3 & _). destruct R6 as (S4 & P4 & C4 & I4 & Pm & H1 & H2).
    split; [|split; [|split; [|split; [exists g1, s1; split; [exact R1'|congruence]|auto]]]].
    - unfold settings_kept in *. intuition congruence.
    - unfold recorded, records_kept, settings_kept in *. split; [intuition; lia|]. assert (Em : is_multi g3 = is_multi gd) by intuition congruence. rewrite Em in H1, H2.
      destruct (is_multi gd).
      + destruct (H2 eq_refl) as (B & M & W & f & F). split; [intuition congruence|]. split; [intuition congruence|]. split; [intuition congruence|]. exists [f]. split; [reflexivity|]. rewrite F. f_equal. intuition congruence.
      + destruct (H1 eq_refl) as (F & b & m' & w & B & M & W). split; [intuition congruence|]. exists [b], [m'], [w]. split; [reflexivity|]. split; [reflexivity|]. split; [reflexivity|].
        rewrite B, M, W. split; [|split]; f_equal; intuition congruence.
    - rewrite C4, C3. symmetry. exact Pm.
  Qed.
  Lemma recorded_trans : forall a b x y z, is_multi y = is_multi x -> recorded a x y -> recorded b y z -> recorded (a + b) x z.
  Proof.
    intros a b x y z Em [I1 H1] [I2 H2]. split; [lia|]. rewrite Em in H2. destruct (is_multi x).
    - destruct H1 as (B & M & W & fs & L & F). destruct H2 as (B' & M' & W' & fs' & L' & F'). split; [congruence|]. split; [congruence|]. split; [congruence|].
      exists (fs ++ fs'). rewrite app_length. split; [lia|]. rewrite F', F, app_assoc. reflexivity.
    - destruct H1 as (F & bs & ms & ws & L1 & L2 & L3 & B & M & W). destruct H2 as (F' & bs' & ms' & ws' & L1' & L2' & L3' & B' & M' & W'). split; [congruence|].
      exists (bs ++ bs'), (ms ++ ms'), (ws ++ ws'). rewrite !app_length. split; [lia|]. split; [lia|]. split; [lia|]. rewrite B', M', W', B, M, W, !app_assoc. auto.
  Qed.
  (** The main loop: as many entries as iterations, settings untouched. *)
  Theorem C79_loop : forall fuel k c gd s c' gd' s', ga_loop fuel k c gd s = Ok (c', gd') s' ->
    settings_kept gd gd' /\ exists n, (n <= k)%nat /\ recorded n gd gd' /\ (n = 0%nat -> gd' = gd) /\ (n <> 0%nat -> Permutation (children gd') (members (population gd'))).
  Proof.
    intros fuel k. induction k as [|k IH]; intros c gd s c' gd' s' H; cbn [ga_loop] in H.
    - apply ret_ok in H. destruct H as [E _]. inversion E; subst. split; [unfold settings_kept; auto 20|]. exists 0%nat. split; [lia|]. split; [|split; [auto|congruence]].
      split; [lia|]. destruct (is_multi gd); [repeat (split; auto); exists []; rewrite app_nil_r; auto|]. split; auto. exists [], [], []. rewrite !app_nil_r. auto 10.
    - bd H r s1 R1. destruct r as [c1 g1]. apply C79_step in R1. destruct R1 as (S1 & Rc & Pm & _). bd H stop s2 R2. cbn [fst snd] in *. destruct stop.
      + apply ret_ok in H. destruct H as [E _]. inversion E; subst. split; auto. exists 1%nat. split; [lia|]. split; auto. split; [discriminate|auto].
      + apply IH in H. destruct H as (S2 & n & Ln & Rn & Zn & Pn). split; [unfold settings_kept in *; intuition congruence|]. exists (S n). split; [lia|].
        split; [change (S n) with (1 + n)%nat; apply (recorded_trans 1 n gd g1 gd'); [unfold settings_kept in S1; intuition|exact Rc|exact Rn]|]. split; [discriminate|]. intros _. destruct n as [|n]; [|apply Pn; discriminate].
        rewrite (Zn eq_refl). exact Pm.
  Qed.
End C79.

Section Examples79.
  Local Existing Instance Qops.
  Open Scope string_scope.
  (** A run of four generations of five: three pairs selected in the last one, the
      settings as given, the children are the members. *)
  Example C79_case : observe (fun r s => let gd := fst r in
      (idx_generation gd, num_generations gd, early_stop gd, num_individ (population gd), List.length (parents gd), (List.length (hist_best gd), List.length (hist_worst gd), List.length (hist_pareto gd)), (children gd, members (population gd))))
      (combinatory_ga 50 (demo_cf (LStr "normal") 5 6 (Some 1)) 0 6 3 fresh_world)
    = Some (4, 6, Some 1, 5, 6%nat, (4, 4, 0)%nat, ([29; 30; 31; 11; 1; 13], [29; 30; 31; 11; 1; 13])%nat).
  Proof. run. Qed.
End Examples79.

Print Assumptions C79_selection. Print Assumptions C79_crossover. Print Assumptions C79_new_generation. Print Assumptions C79_update. Print Assumptions C79_step. Print Assumptions C79_loop.
