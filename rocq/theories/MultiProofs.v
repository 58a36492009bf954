(** One generation of a multi-objective run: ranking, evaluation, update and
    replacement. *)
From Coq Require Import ZArith List Bool Lia Permutation Sorted.
From Verif Require Import Spec Num State Binary Population GaData Crossover Mutation Selection Penalty Fitness NewGeneration Driver
  ListLemmas Rnd Exec Laws PopulationProofs CrossoverProofs MutationProofs SelectionProofs BalancedProofs VegaProofs
  NewGenProofs UpdateProofs FitnessProofs StepProofs RunProofs RankingProofs.
Import ListNotations.
Open Scope list_scope.
Open Scope Z_scope.

Section MultiProofs.
  Context {NO : NumOps}.

  (** *** An objective function that returns the same values each time *)
  (** Whenever the objective, called with the phenotype alone, returns a tuple, it is
      the tuple [F]; nothing is said about calls that fail. *)
  Definition steady (o : objfun) (F : list gv -> list num) : Prop :=
    forall k genes v, one_arg o k genes = inr (OTuple v) -> v = F genes.
  Definition sized (ok : num -> Prop) (F : list gv -> list num) (m : nat) : Prop :=
    forall genes, length (F genes) = m /\ Forall ok (F genes).
  Definition ideal (F : list gv -> list num) : objfun := Obj1 (fun _ genes => inr (OTuple (F genes))).

  Lemma call1_ok : forall o genes s v s', call1 o genes s = Ok v s' ->
    one_arg o (length (log s)) genes = inr v /\ s' = set_log ((genes, v) :: log s) s.
  Proof.
    intros o genes s v s' H. destruct o; cbn in *; unfold call_logged in H; try discriminate;
      destruct (_ (length (log s)) genes) eqn:E; inversion H; subst; auto.
  Qed.
  Definition follows {A} (m m' : M A) : Prop := forall s a s', m s = Ok a s' -> m' s = Ok a s'.
  Lemma follows_bind : forall {A B} (m m' : M A) (k k' : A -> M B), follows m m' -> (forall a, follows (k a) (k' a)) -> follows (bind m k) (bind m' k').
  Proof. intros A B m m' k k' H K s b s' R. bd R a s1 R1. unfold bind. rewrite (H _ _ _ R1). apply K. auto. Qed.
  Lemma follows_refl : forall {A} (m : M A), follows m m. Proof. intros A m s a s' H. auto. Qed.
  Lemma follows_miter : forall {A} (f f' : A -> M unit) l, (forall x, follows (f x) (f' x)) -> follows (miter f l) (miter f' l).
  Proof. intros A f f' l H. induction l as [|x l IH]; cbn [miter]; [apply follows_refl|]. apply follows_bind; auto. Qed.
  Lemma ideal_call : forall o F genes, steady o F -> follows (call_list o genes) (call_list (ideal F) genes).
  Proof.
    intros o F genes St s a s' H. unfold call_list in *. bd H v s1 R. apply call1_ok in R. destruct R as [E ->].
    destruct v as [x|l]; [discriminate|]. apply ret_ok in H. destruct H as [-> ->]. apply St in E. subst l. reflexivity.
  Qed.
  Lemma ideal_ranks : forall o F l, steady o F -> follows (assign_ranks o l) (assign_ranks (ideal F) l).
  Proof.
    intros o F l St. unfold assign_ranks. apply follows_bind; [apply follows_refl|]. intros _.
    induction l as [|x l IH]; cbn [compare_all]; [apply follows_refl|]. apply follows_bind; [|intros; auto].
    apply follows_miter. intros y. unfold compare_pair. apply follows_bind; [|intros; apply follows_refl]. unfold inferior.
    apply follows_bind; [apply follows_refl|intros px]. apply follows_bind; [apply ideal_call; auto|intros xs].
    apply follows_bind; [apply follows_refl|intros py]. apply follows_bind; [apply ideal_call; auto|intros ys]. apply follows_refl.
  Qed.

  (** The rank counts. *)
  Definition rank_count (F : list gv -> list num) (h : nat -> individ) (l : list nat) (r : nat) : nat :=
    (occ l r * dominators F (phen h) l r)%nat.
  Lemma phen_set_rank : forall v i h r, h r = set_rank v i -> phen h r = match phenotype i with Some (Some pt) => pt | _ => [] end.
  Proof. intros v i h r E. unfold phen. rewrite E. reflexivity. Qed.
  Lemma dominators_ext : forall F p p' l r, (forall x, In x l -> p x = p' x) -> p r = p' r -> dominators F p l r = dominators F p' l r.
  Proof.
    intros F p p' l r H Hr. unfold dominators. f_equal. apply filter_ext_in. intros x Hx. unfold dom. rewrite (H x Hx), Hr. reflexivity.
  Qed.
  Lemma dominators_perm : forall F p l l' r, Permutation l l' -> dominators F p l r = dominators F p l' r.
  Proof.
    intros F p l l' r P. unfold dominators. induction P; cbn [filter].
    - auto.
    - destruct (dom F p x r); cbn; auto.
    - destruct (dom F p x r), (dom F p y r); cbn; auto.
    - congruence.
  Qed.
  Lemma occ_perm : forall l l' r, Permutation l l' -> occ l r = occ l' r.
  Proof. intros l l' r P. unfold occ. apply (proj1 (Permutation_count_occ Nat.eq_dec l l') P). Qed.
  Lemma rank_count_perm : forall F h l l' r, Permutation l l' -> rank_count F h l r = rank_count F h l' r.
  Proof. intros F h l l' r P. unfold rank_count. rewrite (occ_perm _ _ r P), (dominators_perm F (phen h) _ _ r P). reflexivity. Qed.
  Lemma rank_count_ext : forall F h h' l r, (forall x, In x l -> phen h x = phen h' x) -> In r l -> rank_count F h l r = rank_count F h' l r.
  Proof. intros F h h' l r H I. unfold rank_count. rewrite (dominators_ext F (phen h) (phen h')); auto. Qed.
  Lemma rank_count_0 : forall F h l r, In r l -> (rank_count F h l r = 0%nat <-> forall y, In y l -> ~ beats F h y r).
  Proof.
    intros F h l r I. unfold rank_count. assert (O : (occ l r > 0)%nat) by (apply count_occ_In; auto).
    assert (E : (occ l r * dominators F (phen h) l r = 0)%nat <-> (dominators F (phen h) l r = 0)%nat) by nia.
    rewrite E, dominators_0. unfold beats. split; intros H y Hy.
    - intros C. apply dom_true in C. rewrite H in C; auto. discriminate.
    - destruct (dom F (phen h) y r) eqn:D; auto. apply dom_true in D. destruct (H y Hy D).
  Qed.

  (** *** Ranking followed by evaluation *)
  Lemma filled_idem : forall g i j k, filled g i j -> filled g j k -> k = j.
  Proof.
    intros g i j k H1 H2. unfold filled in *. destruct (is_phenotype g); auto. destruct H1 as [_ [ph P]].
    destruct H2 as [[->|(C & _)] _]; auto. congruence.
  Qed.
  Lemma multi_fitness_ok : forall ok, NumOrder NO ok -> forall f F m gd s u s',
    let l := members (population gd) in let g := gspec_of (population gd) in
    is_multi_kind (fkind f) = true -> steady (obj_function f) F -> sized ok F m -> is_phenotype g = true ->
    (forall r, In r l -> unscored s r = true -> once l r) ->
    fitness_execute f gd s = Ok u s' ->
    exists h1 h2 rc cs, (forall r, In r l -> filled g (heap s r) (h1 r)) /\ (forall r, ~ In r l -> h1 r = heap s r) /\
      ranks l (rank_count F h1 l) h1 h2 /\
      Z.of_nat (length rc) = Z.of_nat (length l) * (Z.of_nat (length l) - 1) /\
      (forall pt v, In (pt, v) rc -> v = OTuple (F pt) /\ exists r, In r l /\ phenotype (h1 r) = Some (Some pt)) /\
      quiet s s' /\ log s' = rev cs ++ rev rc ++ log s /\
      assessed f g (idx_generation gd) (best_solution gd) h2 (heap s') (length rc + length (log s)) (news s l) cs /\
      forall r, ~ In r (news s l) -> heap s' r = h2 r.
  Proof.
    intros ok NL f F m gd s u s' l g Mk St Sz Ep Ho H. unfold fitness_execute in H. rewrite Mk in H. fold l g in H. rewrite Ep in H.
    bd H u1 s1 R1. bd H u2 s2 R2. destruct u2.
    apply get_phenotype_ok in R1. destruct R1 as (N1 & L1 & S1 & P1 & T1 & E1 & O1 & F1 & K1).
    apply (ideal_ranks _ F _ St) in R2.
    assert (H1 : forall r, In r l -> phenotype (heap s1 r) = Some (Some (phen (heap s1) r))).
    { intros r I. destruct (K1 r I) as [ph Ph]. unfold phen. rewrite Ph. reflexivity. }
    destruct (assign_run ok NL (ideal F) F (heap s1) l m (phen (heap s1)) H1 (fun r k _ => eq_refl) (fun r _ => Sz _) s1 eq_refl) as (s2' & E2 & Rk & L2 & Q2).
    assert (s2' = s2) by congruence. subst s2'. clear R2 E2.
    apply base_fitness_ok in H.
    2:{ fold l. intros r I U. apply Ho; auto. unfold unscored in *. destruct Rk as [Rk _]. rewrite Rk in U by auto. cbn [score set_rank] in U.
        destruct (F1 r) as [E|(_ & gr & ge & bp & ph & _ & _ & E)]; rewrite E in U; auto. }
    fold l g in H. destruct H as (h & cs & Fh & Fo & Q3 & L3 & As & O3). destruct Rk as [Rk Rn].
    assert (Hh : forall r, h r = heap s2 r).
    { intros r. destruct (in_dec Nat.eq_dec r l) as [I|I]; [|apply Fo; auto]. specialize (Fh r I). rewrite (Rk r I) in *.
      unfold filled in Fh. rewrite Ep in Fh. destruct Fh as [[E|(C & _)] _]; [congruence|]. cbn [phenotype set_rank] in C. rewrite (H1 r I) in C. discriminate. }
    assert (En : news s2 l = news s l).
    { unfold news. apply filter_ext. intros r. unfold unscored.
      assert (Es : score (heap s1 r) = score (heap s r)) by (destruct (F1 r) as [->|(_ & gr & ge & bp & ph & _ & _ & ->)]; auto).
      destruct (in_dec Nat.eq_dec r l) as [I|I]; [rewrite (Rk r I); cbn [score set_rank]|rewrite (Rn r I)]; rewrite Es; auto. }
    rewrite En in *. exists (heap s1), (heap s2), (all_calls F (phen (heap s1)) l), cs.
    split; [intros r I; unfold filled; rewrite Ep; auto|]. split; auto. split; [split; auto|]. split; [apply all_calls_length|]. split; [|split; [|split; [|split]]].
    - assert (G : forall xs, incl xs l -> forall pt v, In (pt, v) (all_calls F (phen (heap s1)) xs) -> v = OTuple (F pt) /\ exists r, In r l /\ phenotype (heap s1 r) = Some (Some pt)).
      { induction xs as [|x xs IH]; intros Inc pt v Hin; cbn [all_calls] in Hin; [destruct Hin|]. apply in_app_or in Hin. destruct Hin as [Hin|Hin].
        - apply in_flat_map in Hin. destruct Hin as (y & Hy & [Hin|[Hin|[]]]); inversion Hin; subst; split; auto.
          + exists x. split; [apply Inc; left; auto|apply H1; apply Inc; left; auto].
          + exists y. split; [apply Inc; right; auto|apply H1; apply Inc; right; auto].
        - apply IH; auto. intros z Hz. apply Inc. right; auto. }
      intros pt v Hin. apply (G l (incl_refl l)); auto.
    - unfold quiet in *. destruct Q2 as (A1 & A2 & A3 & A4 & A5). destruct Q3 as (B1 & B2 & B3 & B4 & B5). repeat split; congruence.
    - rewrite L3, L2, L1. reflexivity.
    - eapply assessed_ext; [|replace (length (all_calls F (phen (heap s1)) l) + length (log s))%nat with (length (log s2)); [exact As|]].
      + intros r Hr. split; auto.
      + rewrite L2, app_length, rev_length, L1. reflexivity.
    - intros r Hr. rewrite O3 by auto. auto.
  Qed.

  (** *** The update *)
  (** Adding ones to one gives something larger than one. *)
  Definition counting (ok : num -> Prop) : Prop := forall n, ok (ones n) /\ ((0 < n)%nat -> nltb none_ (ones n) = true).
  Lemma ones_1 : forall ok, NumOrder NO ok -> counting ok -> forall n, neqb (ones n) none_ = true <-> n = 0%nat.
  Proof.
    intros ok NL Ct n. destruct (Ct n) as [On Gn]. destruct (Ct 0%nat) as [O0 _]. cbn [ones] in O0. rewrite (no_eq _ _ NL) by auto. split.
    - intros [_ H]. destruct n as [|n]; auto. rewrite Gn in H by lia. discriminate.
    - intros ->. cbn [ones]. rewrite (no_irrefl _ _ NL) by auto. auto.
  Qed.
  Definition well_ranked (F : list gv -> list num) (s : st) (l : list nat) : Prop :=
    forall r, In r l -> rank (heap s r) = Some (SV1 (ones (rank_count F (heap s) l r))).
  (** [front] is the beginning of [l] and consists of the members nobody dominates. *)
  Definition front_first (F : list gv -> list num) (h : nat -> individ) (l front : list nat) : Prop :=
    exists rest, l = front ++ rest /\
      (forall r, In r front -> forall y, In y l -> ~ beats F h y r) /\
      (forall r, In r rest -> exists y, In y l /\ beats F h y r).

  Lemma rank1_prefix_ok : forall ok, NumOrder NO ok -> counting ok -> forall s l (c : nat -> nat) front s',
    (forall r, In r l -> rank (heap s r) = Some (SV1 (ones (c r)))) ->
    rank1_prefix l s = Ok front s' ->
    s' = s /\ exists rest, l = front ++ rest /\ Forall (fun r => c r = 0%nat) front /\ match rest with [] => True | r :: _ => c r <> 0%nat end.
  Proof.
    intros ok NL Ct s l c. induction l as [|x l IH]; intros front s' Hr H; cbn [rank1_prefix] in H.
    - apply ret_ok in H. destruct H as [-> ->]. split; auto. exists []. auto.
    - unfold rank_is_1 in H. bd H b s1 R. bd R i s2 R1. apply get_ok in R1. destruct R1 as [-> ->].
      bd R v s2 R1. apply lift_opt_ok in R1. destruct R1 as [E ->]. apply ret_ok in R. destruct R as [-> ->].
      rewrite Hr in E by (left; auto). inversion E; subst v. cbn [sv_eqb] in H. destruct (neqb (ones (c x)) none_) eqn:Eq.
      + apply (ones_1 ok NL Ct) in Eq. bd H t s1 R1. apply ret_ok in H. destruct H as [-> ->]. apply IH in R1; [|intros; apply Hr; right; auto].
        destruct R1 as (-> & rest & -> & Fc & Rc). split; auto. exists rest. auto.
      + apply ret_ok in H. destruct H as [-> ->]. split; auto. exists (x :: l). split; auto. split; [constructor|].
        intros C. apply (ones_1 ok NL Ct) in C. congruence.
  Qed.
  Lemma asc_front : forall ok, NumOrder NO ok -> counting ok -> forall s l (c : nat -> nat) front rest,
    (forall r, In r l -> rank (heap s r) = Some (SV1 (ones (c r)))) -> asc KRank s l ->
    l = front ++ rest -> match rest with [] => True | r :: _ => c r <> 0%nat end -> Forall (fun r => c r <> 0%nat) rest.
  Proof.
    intros ok NL Ct s l c front rest Hr A E Hd. subst l. destruct rest as [|x rest]; [constructor|]. constructor; auto.
    apply Forall_forall. intros y Hy C.
    assert (Sx : Forall (fun b => key_lt KRank (heap s b) (heap s x) = false) rest).
    { unfold asc in A. clear - A. induction front as [|a front IH]; cbn [app] in A; inversion A; subst; auto. }
    rewrite Forall_forall in Sx. specialize (Sx y Hy). unfold key_lt in Sx. cbn [key_of] in Sx.
    rewrite (Hr x) in Sx by (apply in_or_app; right; left; auto). rewrite (Hr y) in Sx by (apply in_or_app; right; right; auto). cbn [sv_lt] in Sx. unfold sv_lt in Sx. cbn in Sx.
    rewrite C in Sx. cbn [ones] in Sx. destruct (Ct (c x)) as [_ G]. rewrite G in Sx by lia. discriminate.
  Qed.

  Definition multi_updated (gd : gadata) (l front : list nat) (best : best_sol) (ni : Z) : gadata :=
    mkGD (is_multi gd) (idx_generation gd + 1) ni (set_members l (population gd)) (parents gd) (children gd)
         (hist_best gd) (hist_mediocre gd) (hist_worst gd) (hist_pareto gd ++ [front]) best
         (num_generations gd) (early_stop gd) (children_percent gd).
  Definition old_set (b : best_sol) : list individ := match b with BPareto set _ => set | _ => [] end.
  Definition old_gen (b : best_sol) : option Z := match b with BPareto _ g => g | _ => None end.
  Lemma mmap_get : forall l s, mmap get l s = Ok (map (heap s) l) s.
  Proof. induction l as [|r l IH]; intros s; cbn [mmap map]; auto. unfold bind at 1, get at 1. unfold bind. rewrite IH. reflexivity. Qed.
  Lemma update_multi_ok : forall ok, NumOrder NO ok -> counting ok -> forall F gd s gd' s',
    is_sorted (population gd) = false -> well_ranked F s (members (population gd)) ->
    update_multi gd s = Ok gd' s' ->
    s' = s /\ exists l front, Permutation l (members (population gd)) /\ asc KRank s l /\ front_first F (heap s) l front /\
      gd' = multi_updated gd l front
        (if inds_eqb (old_set (best_solution gd)) (map (heap s) front) then BPareto (old_set (best_solution gd)) (old_gen (best_solution gd))
         else BPareto (map (heap s) front) (Some (idx_generation gd)))
        (if inds_eqb (old_set (best_solution gd)) (map (heap s) front) then no_improve gd + 1 else 0).
  Proof.
    intros ok NL Ct F gd s gd' s' So Wr H. unfold update_multi in H. rewrite So in H.
    bd H l s1 R1. apply sort_ok in R1. destruct R1 as (-> & Pm & Sa). destruct (Sa ok NL) as [Asc _].
    { intros r Hr. exists (ones (rank_count F (heap s) (members (population gd)) r)). split; [apply Wr; auto|apply Ct]. }
    assert (Wr' : forall r, In r l -> rank (heap s r) = Some (SV1 (ones (rank_count F (heap s) l r)))).
    { intros r Hr. rewrite (rank_count_perm F (heap s) _ _ r Pm). apply Wr. eapply Permutation_in; eauto. }
    bd H front s1 R1. destruct (rank1_prefix_ok ok NL Ct s l (rank_count F (heap s) l) front s1 Wr' R1) as (-> & rest & El & Fc & Rc).
    pose proof (asc_front ok NL Ct s l (rank_count F (heap s) l) front rest Wr' Asc El Rc) as Fr.
    bd H set s1 R2. rewrite mmap_get in R2. inversion R2; subst set s1. clear R2.
    assert (FF : front_first F (heap s) l front).
    { exists rest. split; auto. rewrite Forall_forall in Fc, Fr. split.
      - intros r Hr. apply rank_count_0; [rewrite El; apply in_or_app; auto|]. apply Fc; auto.
      - intros r Hr. assert (Ir : In r l) by (rewrite El; apply in_or_app; auto). specialize (Fr r Hr).
        destruct (existsb (fun y => dom F (phen (heap s)) y r) l) eqn:Ex.
        + apply existsb_exists in Ex. destruct Ex as (y & Hy & D). exists y. split; auto. apply dom_true in D. auto.
        + destruct Fr. apply rank_count_0; auto. intros y Hy B. apply dom_true in B.
          assert (existsb (fun y => dom F (phen (heap s)) y r) l = true) by (apply existsb_exists; exists y; auto). congruence. }
    bd H r s1 R2.
    assert (r = (old_set (best_solution gd), old_gen (best_solution gd)) /\ s1 = s).
    { destruct (best_solution gd); cbn in *; [apply ret_ok in R2; tauto|discriminate|apply ret_ok in R2; tauto]. }
    destruct H0 as [-> ->]. cbv beta iota zeta in H. apply ret_ok in H. destruct H as [-> ->]. split; auto. exists l, front. auto.
  Qed.

  (** *** Replacement *)
  Definition multi_taken (F : list gv -> list num) (h : nat -> individ) (ng : newgen) (l els : list nat) : Prop :=
    match ng_transfer ng with
    | TBest => front_first F h l els
    | TRandom => exists l0 b e, l = l0 ++ [b] /\ picks 10 l0 e /\ els = e ++ [b]
    end.

  Lemma phenotype_noop : forall g l s, (forall r, In r l -> exists ph, phenotype (heap s r) = Some (Some ph)) -> get_phenotype g l s = Ok tt s.
  Proof.
    intros g. unfold get_phenotype. induction l as [|x l IH]; intros s H; cbn [miter]; auto.
    unfold bind, get_phenotype1, get at 1. unfold bind. destruct (H x) as [ph ->]; [left; auto|]. unfold ret. apply IH. intros; apply H; right; auto.
  Qed.
  Lemma rank1_prefix_incl : forall l s front s', rank1_prefix l s = Ok front s' -> s' = s /\ exists rest, l = front ++ rest.
  Proof.
    induction l as [|x l IH]; intros s front s' H; cbn [rank1_prefix] in H.
    - apply ret_ok in H. destruct H as [-> ->]. split; auto. exists []. auto.
    - unfold rank_is_1 in H. bd H b s1 R. bd R i s2 R1. apply get_ok in R1. destruct R1 as [-> ->].
      bd R v s2 R1. apply lift_opt_ok in R1. destruct R1 as [E ->]. apply ret_ok in R. destruct R as [-> ->].
      destruct (sv_eqb v (SV1 none_)).
      + bd H t s1 R1. apply ret_ok in H. destruct H as [-> ->]. apply IH in R1. destruct R1 as (-> & rest & ->). split; auto. exists rest. auto.
      + apply ret_ok in H. destruct H as [-> ->]. split; auto. exists (x :: l). auto.
  Qed.
  Lemma front_of : forall ok, NumOrder NO ok -> counting ok -> forall F s l front s',
    well_ranked F s l -> asc KRank s l -> rank1_prefix l s = Ok front s' -> front_first F (heap s) l front.
  Proof.
    intros ok NL Ct F s l front s' Wr Asc H. destruct (rank1_prefix_ok ok NL Ct s l (rank_count F (heap s) l) front s' Wr H) as (-> & rest & El & Fc & Rc).
    pose proof (asc_front ok NL Ct s l (rank_count F (heap s) l) front rest Wr Asc El Rc) as Fr.
    exists rest. split; auto. rewrite Forall_forall in Fc, Fr. split.
    - intros r Hr. apply rank_count_0; [rewrite El; apply in_or_app; auto|]. apply Fc; auto.
    - intros r Hr. assert (Ir : In r l) by (rewrite El; apply in_or_app; auto). specialize (Fr r Hr).
      destruct (existsb (fun y => dom F (phen (heap s)) y r) l) eqn:Ex.
      + apply existsb_exists in Ex. destruct Ex as (y & Hy & D). exists y. split; auto. apply dom_true in D. auto.
      + destruct Fr. apply rank_count_0; auto. intros y Hy B. apply dom_true in B.
        assert (existsb (fun y => dom F (phen (heap s)) y r) l = true) by (apply existsb_exists; exists y; auto). congruence.
  Qed.
  Lemma newgen_multi_ok : forall ng gd s gd' s', ng_multi ng = true ->
    (forall r, In r (members (population gd)) -> exists ph, phenotype (heap s r) = Some (Some ph)) ->
    newgen_execute ng gd s = Ok gd' s' ->
    exists els, incl els (members (population gd)) /\ s' = set_tape (tape s') s /\ gd' = with_next (children gd ++ els) gd /\
      (forall ok, NumOrder NO ok -> counting ok -> forall F, well_ranked F s (members (population gd)) -> asc KRank s (members (population gd)) ->
         multi_taken F (heap s) ng (members (population gd)) els).
  Proof.
    intros ng gd s gd' s' M Hp H. unfold newgen_execute in H. rewrite M in H. bd H u s1 R.
    assert (s1 = s). { destruct (is_phenotype (gspec_of (population gd))); [rewrite phenotype_noop in R by auto; inversion R; auto|apply ret_ok in R; tauto]. }
    subst s1. clear R. bd H nx s1 R. apply ret_ok in H. destruct H as [-> ->]. unfold add_parents in R. rewrite M in R. bd R els s2 R1. apply ret_ok in R. destruct R as [-> ->].
    exists els. unfold multi_taken. destruct (ng_transfer ng).
    - pose proof R1 as R2. apply rank1_prefix_incl in R2. destruct R2 as (-> & rest & El). split; [rewrite El; intros x Hx; apply in_or_app; auto|].
      split; [destruct s; reflexivity|]. split; auto. intros ok NL Ct F Wr Asc. eapply front_of; eauto.
    - apply add_random_ok in R1. destruct R1 as [R1 (l0 & b & e & El & P & -> & D)]. split; [|split; [auto|split; [auto|]]].
      + rewrite El. intros x Hx. apply in_app_or in Hx. apply in_or_app. destruct Hx as [Hx|Hx]; auto. left. eapply picks_incl; eauto.
      + intros. exists l0, b, e. auto.
  Qed.

  (** *** Selections that leave the rank alone *)
  Definition plain_selection (sel : selection) : Prop := match sel with SelRanked | SelVegaRanked _ => False | _ => True end.
  Definition rank_kept (s s' : st) : Prop := (next s <= next s')%nat /\ forall r, (r < next s)%nat -> rank (heap s' r) = rank (heap s r).
  Lemma rank_kept_trans : forall a b c, rank_kept a b -> rank_kept b c -> rank_kept a c.
  Proof. intros a b c [N1 H1] [N2 H2]. split; [lia|]. intros r Hr. rewrite H2 by lia. auto. Qed.
  Lemma rank_kept_extends : forall s s', extends s s' -> rank_kept s s'.
  Proof. intros s s' (N & _ & _ & _ & H). split; auto. intros r Hr. rewrite H by auto. auto. Qed.
  Lemma rank_kept_base : forall gd s gd' s', base_execute gd s = Ok gd' s' -> rank_kept s s'.
  Proof.
    intros gd s gd' s' H. apply base_execute_ok in H. destruct H as (_ & N & _ & _ & _ & Rn). split; [lia|]. intros r _. rewrite Rn.
    destruct (last_pos 0 (members (population gd)) r); reflexivity.
  Qed.
  Lemma rank_kept_pass : forall f m idx gd s gd' s', (forall r, In r (members (population gd)) -> (r < next s)%nat) ->
    balanced_pass f false m idx gd s = Ok gd' s' -> rank_kept s s' /\ population gd' = population gd.
  Proof.
    intros f m idx gd s gd' s' Hlt H. apply balanced_pass_ok in H; auto.
    destruct H as (s1 & s2 & ws & scores & x & prs & Rn & N1 & -> & _ & _ & _ & _ & _ & _ & -> & _ & X & _). split; auto.
    eapply rank_kept_trans; [|apply rank_kept_extends; exact X]. split; [lia|]. intros r _. apply (renumbered_core _ _ _ r Rn).
  Qed.
  Lemma selection_rank : forall f sel gd s gd' s', (forall r, In r (members (population gd)) -> (r < next s)%nat) -> plain_selection sel ->
    selection_execute f sel gd s = Ok gd' s' -> rank_kept s s'.
  Proof.
    intros f sel gd s gd' s' Hlt Pl H. destruct sel as [t| | |m t|m|m]; try contradiction; cbn [selection_execute] in H.
    - bd H u s1 R1. apply check_size_ok in R1. destruct R1 as [_ ->]. bd H gd1 s2 R2. pose proof (rank_kept_base _ _ _ _ R2) as K.
      apply base_execute_ok in R2. destruct R2 as (-> & N2 & _). eapply rank_kept_trans; [exact K|].
      apply (tournament_ok f None None t _ s2 gd' s' (fun _ => True)) in H; auto; [|cbn [population set_parents]; rewrite N2; auto].
      destruct H as (x & prs & _ & _ & _ & _ & X & _). apply rank_kept_extends; auto.
    - apply rank_kept_pass in H; tauto.
    - bd H u s1 R1. apply check_size_ok in R1. destruct R1 as [_ ->]. bd H gd1 s2 R2. pose proof (rank_kept_base _ _ _ _ R2) as K.
      apply base_execute_ok in R2. destruct R2 as (-> & N2 & _).
      apply (mfold_inv _ (fun _ g s3 => rank_kept s s3 /\ population g = population gd)) in H; [tauto|auto|].
      intros d k rest g s3 g' s4 _ [K3 P3] R.
      apply (tournament_ok f (Some m) (Some k) t _ s3 g' s4 (fun _ => True)) in R; auto.
      + destruct R as (x & prs & _ & _ & -> & _ & X & _). split; auto. eapply rank_kept_trans; [exact K3|]. apply rank_kept_extends; auto.
      + rewrite P3. intros r Hr. apply Hlt in Hr. destruct K3. lia.
    - apply (mfold_inv _ (fun _ g s3 => rank_kept s s3 /\ population g = population gd)) in H; [tauto|split; [split; auto|auto]|].
      intros d k rest g s3 g' s4 _ [K3 P3] R. apply rank_kept_pass in R; [|rewrite P3; intros r Hr; apply Hlt in Hr; destruct K3; lia].
      destruct R as [K4 P4]. split; [eapply rank_kept_trans; eauto|congruence].
  Qed.

  (** *** One generation *)
  Record MI (F : list gv -> list num) (gd : gadata) (s : st) : Prop := {
    mi_multi : is_multi gd = true;
    mi_unsorted : is_sorted (population gd) = false;
    mi_bin : is_phenotype (gspec_of (population gd)) = true;
    mi_alloc : forall r, In r (members (population gd)) -> (r < next s)%nat;
    mi_settled : forall r, In r (members (population gd)) -> unscored s r = false /\ decoded (gspec_of (population gd)) (heap s r);
    mi_ranked : well_ranked F s (members (population gd));
    mi_asc : asc KRank s (members (population gd))
  }.
  Record MStep (F : list gv -> list num) (c : comps) (gd : gadata) (s : st) (c' : comps) (gd' : gadata) (s' : st)
         (kids els : list nat) (h1 h2 : nat -> individ) (rc cs : list (list gv * oval)) (front : list nat) : Prop := {
    ms_comps : exists m', c' = set_mutation m' c /\ match c_mutation c with MutBin _ => exists x, m' = MutBin (LFloat x) | m => m' = m end;
    ms_kids : exists a, kids = seq a (length kids) /\ (next s <= a)%nat /\ next s' = (a + length kids)%nat;
    ms_count : num_pairs (c_selection c) gd (length kids);
    ms_made : forall r, In r kids -> exists first rest m1 m2 g, members (population gd) = first :: rest /\
      In m1 (members (population gd)) /\ In m2 (members (population gd)) /\
      made (c_crossover c) (length (genotype (heap s first))) (genotype (heap s m1)) (genotype (heap s m2)) g /\
      mutated (c_mutation c) (gspec_of (population gd)) g (genotype (h1 r));
    (* the children before ranking and evaluation *)
    ms_fresh : forall r, In r kids -> fresh (gspec_of (population gd)) (h1 r) /\ decoded (gspec_of (population gd)) (h1 r);
    (* the ranking of the new population: h1 before, h2 after *)
    ms_ranks : ranks (kids ++ els) (rank_count F h1 (kids ++ els)) h1 h2;
    ms_rank_calls : Z.of_nat (length rc) = Z.of_nat (length (kids ++ els)) * (Z.of_nat (length (kids ++ els)) - 1);
    ms_rank_points : forall pt v, In (pt, v) rc -> v = OTuple (F pt) /\ exists r, In r (kids ++ els) /\ phenotype (h1 r) = Some (Some pt);
    ms_log : log s' = rev cs ++ rev rc ++ log s;
    ms_eval : assessed (c_fitness c) (gspec_of (population gd)) (idx_generation gd) (best_solution gd) h2 (heap s')
                (length rc + length (log s)) kids cs;
    ms_els_heap : forall r, In r els -> heap s' r = h2 r;
    ms_core : forall r, (r < next s)%nat -> same_core (heap s r) (heap s' r) /\ same_core (heap s r) (h1 r);
    ms_seed : rnd_seed s' = rnd_seed s /\ prng s' = prng s;
    (* the members carried over *)
    ms_els : incl els (members (population gd));
    ms_taken : ng_multi (c_newgen c) = true -> plain_selection (c_selection c) ->
      multi_taken F (heap s) (c_newgen c) (members (population gd)) els;
    ms_taken_single : ng_multi (c_newgen c) = false -> exists l s1, Permutation l (members (population gd)) /\
      (forall r, (r < next s)%nat -> same_core (heap s r) (heap s1 r)) /\
      taken s1 (ng_transfer (c_newgen c)) (num_individ (population gd) - Z.of_nat (length kids)) l els;
    (* the new population and its record *)
    ms_perm : Permutation (members (population gd')) (kids ++ els);
    ms_pop : population gd' = set_members (members (population gd')) (population gd);
    ms_front : front_first F (heap s') (members (population gd')) front;
    ms_gen : idx_generation gd' = idx_generation gd + 1;
    ms_hist : hist_pareto gd' = hist_pareto gd ++ [front];
    ms_best : best_solution gd' = if inds_eqb (old_set (best_solution gd)) (map (heap s') front)
        then BPareto (old_set (best_solution gd)) (old_gen (best_solution gd)) else BPareto (map (heap s') front) (Some (idx_generation gd));
    ms_no_improve : no_improve gd' = if inds_eqb (old_set (best_solution gd)) (map (heap s') front) then no_improve gd + 1 else 0;
    ms_params : num_generations gd' = num_generations gd /\ early_stop gd' = early_stop gd /\ children_percent gd' = children_percent gd
  }.

  Lemma decoded_phen : forall g i, is_phenotype g = true -> decoded g i -> exists ph, phenotype i = Some (Some ph).
  Proof. intros g i Ep D. destruct g; try discriminate. destruct D as (ph & E & _). eauto. Qed.
  Lemma decoded_core : forall g i j, same_core i j -> decoded g i -> decoded g j.
  Proof. intros g i j (E1 & E2 & _) D. unfold decoded in *. rewrite <- E1, <- E2. auto. Qed.
  Lemma unscored_core : forall s s' r, same_core (heap s r) (heap s' r) -> unscored s' r = unscored s r.
  Proof. intros s s' r (_ & _ & E & _). unfold unscored. rewrite E. reflexivity. Qed.
  Lemma phen_core : forall h h' r, same_core (h r) (h' r) -> phen h r = phen h' r.
  Proof. intros h h' r (_ & E & _). unfold phen. rewrite E. reflexivity. Qed.

  Lemma multi_step_ok : forall ok fuel F m c gd s c' gd' s', NumOrder NO ok -> counting ok ->
    is_multi_kind (fkind (c_fitness c)) = true -> steady (obj_function (c_fitness c)) F -> sized ok F m ->
    objectives_ok (c_selection c) -> MI F gd s ->
    ga_step fuel c gd s = Ok (c', gd') s' ->
    exists kids els h1 h2 rc cs front, MStep F c gd s c' gd' s' kids els h1 h2 rc cs front /\ MI F gd' s'.
  Proof.
    intros ok fuel F m c gd s c' gd' s' NL Ct Mk Stdy Sz Ho I H. destruct I as [Im Iu Ib Ia It Ir Iasc].
    unfold ga_step in H.
    bd H gd1 s1 R1. pose proof (selection_rank fuel (c_selection c) gd s gd1 s1 Ia) as Rk. specialize (fun P => Rk P R1).
    apply selection_ok in R1; auto. destruct R1 as (T1 & a & n & Hn & -> & La & N1 & Fp).
    destruct T1 as [(Nx1 & L1 & S1 & P1 & C1) T1].
    bd H gd2 s2 R2. apply crossover_made in R2.
    2:{ cbn. intros r Hr. apply Ia in Hr. lia. }
    2:{ cbn [parents set_parents]. intros r Hr. apply in_seq in Hr. lia. }
    cbn [population set_parents parents] in R2. destruct R2 as (first & rest & n' & Em & Ln & -> & N2 & X2 & F2).
    rewrite seq_length in Ln. assert (n' = n) by lia. subst n'. clear Ln. destruct X2 as (_ & L2 & S2 & P2 & X2).
    set (kids := seq (next s1) n) in *. assert (NDk : NoDup kids) by apply seq_NoDup.
    assert (Hkids : forall r, In r kids <-> (next s1 <= r < next s1 + n)%nat) by (intros; apply in_seq).
    bd H m' s3 R3. apply mutation_execute_ok in R3; [|exact NDk]. cbn [children set_children population set_parents] in R3.
    destruct R3 as [(N3 & L3 & S3 & P3 & Mu) Hm'].
    assert (Old3 : forall r, (r < next s)%nat -> heap s3 r = heap s1 r).
    { intros r Hr. destruct (Mu r) as (g & E & _ & K). rewrite K in E; [|rewrite Hkids; lia]. rewrite E, set_genotype_same. apply X2. lia. }
    assert (Core3 : forall r, (r < next s)%nat -> same_core (heap s r) (heap s3 r)) by (intros r Hr; rewrite Old3 by auto; auto).
    bd H gd3 s4 R4.
    assert (G : exists els, incl els (members (population gd)) /\ s4 = set_tape (tape s4) s3 /\ gd3 = with_next (kids ++ els) (set_children kids (set_parents (seq a (2 * n)) gd)) /\
      (ng_multi (c_newgen c) = true -> plain_selection (c_selection c) -> multi_taken F (heap s) (c_newgen c) (members (population gd)) els) /\
      (ng_multi (c_newgen c) = false -> exists l s1, Permutation l (members (population gd)) /\
        (forall r, (r < next s)%nat -> same_core (heap s r) (heap s1 r)) /\
        taken s1 (ng_transfer (c_newgen c)) (num_individ (population gd) - Z.of_nat (length kids)) l els)).
    { destruct (ng_multi (c_newgen c)) eqn:Ng.
      - apply newgen_multi_ok in R4; auto; cbn [children set_children population set_parents] in *.
        2:{ intros r Hr. eapply decoded_phen; [exact Ib|]. eapply decoded_core; [apply Core3; auto|]. apply It; auto. }
        destruct R4 as (els & Ie & E4 & -> & Tk). exists els. split; auto. split; auto. split; auto. split; [|discriminate]. intros _ Pl.
        destruct (Rk Pl) as [_ Rk']. assert (Rk3 : forall r, In r (members (population gd)) -> rank (heap s3 r) = rank (heap s r)).
        { intros r Hr. rewrite Old3 by auto. apply Rk'. auto. }
        assert (Ph3 : forall r, In r (members (population gd)) -> phen (heap s3) r = phen (heap s) r).
        { intros r Hr. symmetry. apply phen_core. auto. }
        assert (B3 : forall y r, In y (members (population gd)) -> In r (members (population gd)) -> (beats F (heap s3) y r <-> beats F (heap s) y r)).
        { intros y r Hy Hr. unfold beats. rewrite !Ph3 by auto. reflexivity. }
        assert (Mt : multi_taken F (heap s3) (c_newgen c) (members (population gd)) els).
        { apply (Tk ok NL Ct).
          - intros r Hr. rewrite Rk3 by auto. rewrite Ir by auto. do 3 f_equal. apply rank_count_ext; auto. intros x Hx. symmetry. auto.
          - eapply asc_heap; [|exact Iasc]. intros r Hr. cbn [key_of]. auto. }
        unfold multi_taken in *. destruct (ng_transfer (c_newgen c)); auto. destruct Mt as (rst & El & A & B). exists rst. split; auto. split.
        + intros r Hr y Hy C. apply (A r Hr y Hy). apply B3; auto.
        + intros r Hr. destruct (B r Hr) as (y & Hy & C). exists y. split; auto. apply B3; auto. rewrite El. apply in_or_app; auto.
      - apply newgen_single_ok in R4; auto. cbn [children set_children population set_parents] in R4.
        destruct R4 as (l & els & So & Tk & E4 & ->). apply sorted_from_perm in So.
        assert (Ne : l <> []) by (intros ->; apply Permutation_nil in So; rewrite So in Em; discriminate).
        destruct (list_snoc _ Ne) as (l1 & b & Eb). rewrite Eb in Tk. destruct (taken_snoc s3 _ _ l1 b els Tk) as (e & Ee & Ie). rewrite <- Eb in Ie, Tk.
        exists els. split; [|split; [auto|split; [auto|split; [discriminate|]]]].
        + rewrite Ee. intros x Hx. apply (Permutation_in _ So). apply in_app_or in Hx. destruct Hx as [Hx|[<-|[]]]; auto. rewrite Eb. apply in_or_app; right; left; auto.
        + intros _. exists l, s3. auto. }
    clear Rk R4. destruct G as (els & Iels & E4 & -> & Tk1 & Tk2).
    assert (H4 : heap s4 = heap s3) by (rewrite E4; auto). assert (N4 : next s4 = next s3) by (rewrite E4; auto).
    assert (L4 : log s4 = log s3) by (rewrite E4; auto). assert (S4 : rnd_seed s4 = rnd_seed s3) by (rewrite E4; auto).
    assert (P4 : prng s4 = prng s3) by (rewrite E4; auto). clear E4.
    assert (Old : forall r, (r < next s)%nat -> heap s4 r = heap s1 r) by (intros r Hr; rewrite H4; auto).
    assert (Kid : forall r, In r kids -> exists p1 p2 g, In p1 (seq a (2 * n)) /\ In p2 (seq a (2 * n)) /\
        made (c_crossover c) (length (genotype (heap s first))) (genotype (heap s1 p1)) (genotype (heap s1 p2)) g /\
        heap s4 r = child_of (heap s1 first) (genotype (heap s4 r)) /\
        mutated (c_mutation c) (gspec_of (population gd)) g (genotype (heap s4 r))).
    { intros r Hr. rewrite Forall_forall in F2. destruct (F2 r Hr) as (p1 & p2 & g & I1 & I2 & Ma & E). rewrite H4.
      destruct (Mu r) as (g' & E' & K & _). exists p1, p2, g.
      assert (Lf : length (genotype (heap s first)) = length (genotype (heap s1 first))).
      { destruct (C1 first) as (E0 & _); [apply Ia; rewrite Em; left; auto|]. congruence. }
      rewrite Lf. split; auto. split; auto. split; auto. rewrite E', E. cbn. split; auto.
      specialize (K Hr). rewrite E in K. exact K. }
    assert (Elsc : forall r, In r els -> unscored s4 r = false /\ decoded (gspec_of (population gd)) (heap s4 r)).
    { intros r Hr. apply Iels in Hr. destruct (It r Hr) as [U D]. assert (Cr : same_core (heap s r) (heap s4 r)) by (rewrite H4; auto). split.
      - rewrite (unscored_core s s4 r Cr). auto.
      - eapply decoded_core; eauto. }
    assert (Hun1 : forall r, In r kids -> unscored s4 r = true).
    { intros r Hr. destruct (Kid r Hr) as (p1 & p2 & g & _ & _ & _ & E & _). unfold unscored. rewrite E. reflexivity. }
    assert (Hun2 : forall r, In r els -> unscored s4 r = false) by (intros r Hr; apply Elsc; auto).
    assert (Dis : forall r, In r kids -> ~ In r els).
    { intros r Hr C. apply Iels, Ia in C. apply Hkids in Hr. lia. }
    bd H u5 s5 R5. apply (multi_fitness_ok ok NL _ F m) in R5; auto.
    2:{ cbn [population with_next set_children set_population set_sorted set_members members]. intros r Hr Hu. apply in_app_or in Hr.
        destruct Hr as [Hr|Hr]; [apply once_app; auto|]. rewrite Hun2 in Hu by auto. discriminate. }
    cbn [population with_next set_children set_population set_sorted set_members set_parents members gspec_of idx_generation best_solution] in R5.
    rewrite (news_app s4 kids els NDk Hun1 Hun2) in R5.
    destruct R5 as (h1 & h2 & rc & cs & Fh & Fo & Rks & Lrc & Rpt & (Q1 & Q2 & Q3 & Q4 & Q5) & L5 & As & O5).
    assert (Rks' := Rks). destruct Rks' as [Rk1 Rk2].
    assert (H1els : forall r, In r els -> h1 r = heap s4 r).
    { intros r Hr. eapply filled_same; [|apply Fh; apply in_or_app; auto]. apply Elsc; auto. }
    assert (H1old : forall r, (r < next s)%nat -> h1 r = heap s1 r).
    { intros r Hr. rewrite <- Old by auto. destruct (in_dec Nat.eq_dec r els) as [i|i]; auto. apply Fo. intros C. apply in_app_or in C.
      destruct C as [C|C]; auto. apply Hkids in C. lia. }
    assert (Hfr : forall r, In r kids -> fresh (gspec_of (population gd)) (h1 r) /\ decoded (gspec_of (population gd)) (h1 r)).
    { intros r Hr. apply filled_fresh with (i := heap s4 r); [|apply Fh; apply in_or_app; auto].
      destruct (Kid r Hr) as (p1 & p2 & g & _ & _ & _ & E & _). rewrite E. split; auto. split; auto. split; auto.
      assert (D : decoded (gspec_of (population gd)) (heap s1 first)).
      { assert (Ifm : In first (members (population gd))) by (rewrite Em; left; auto). apply (decoded_core _ (heap s first)); [apply C1|apply It]; auto. }
      destruct (gspec_of (population gd)) as [gray gens bp|gens|x y z]; cbn in D |- *; try discriminate.
      right. destruct D as (ph & -> & _). auto. }
    assert (Hels : forall r, In r els -> heap s5 r = h2 r) by (intros r Hr; apply O5; intros C; apply (Dis r); auto).
    assert (Keep : forall r, In r (kids ++ els) -> genotype (heap s5 r) = genotype (h1 r) /\ phenotype (heap s5 r) = phenotype (h1 r) /\
        rank (heap s5 r) = Some (SV1 (ones (rank_count F h1 (kids ++ els) r)))).
    { intros r Hr. apply in_app_or in Hr. destruct Hr as [Hr|Hr].
      - destruct (assessed_in _ _ _ _ _ _ _ _ _ _ As Hr) as (v & k' & _ & Cv & Av). apply assess_keeps in Av. destruct Av as (A1 & A2 & _ & A4).
        rewrite A1, A2, A4, Rk1 by (apply in_or_app; auto). cbn. auto.
      - rewrite Hels, Rk1 by (auto; apply in_or_app; auto). cbn. auto. }
    assert (Sall : forall r, In r (kids ++ els) -> unscored s5 r = false /\ decoded (gspec_of (population gd)) (heap s5 r)).
    { intros r Hr. destruct (Keep r Hr) as (K1 & K2 & _). split.
      - apply in_app_or in Hr. destruct Hr as [Hr|Hr].
        + destruct (assessed_in _ _ _ _ _ _ _ _ _ _ As Hr) as (v & k' & _ & Cv & Av). apply assess_scored in Av. exact Av.
        + unfold unscored. rewrite Hels, Rk1 by (auto; apply in_or_app; auto). cbn [score set_rank]. rewrite H1els by auto. apply Hun2; auto.
      - apply in_app_or in Hr. destruct Hr as [Hr|Hr].
        + destruct (Hfr r Hr) as [_ D]. unfold decoded in *. rewrite K1, K2. auto.
        + destruct (Elsc r Hr) as [_ D]. rewrite <- H1els in D by auto. unfold decoded in *. rewrite K1, K2. auto. }
    assert (Wr5 : well_ranked F s5 (kids ++ els)).
    { intros r Hr. destruct (Keep r Hr) as (_ & _ & ->). do 3 f_equal. apply rank_count_ext; auto. intros x Hx. unfold phen. destruct (Keep x Hx) as (_ & -> & _). auto. }
    bd H gd4 s6 R6. apply ret_ok in H. destruct H as [E ->]. inversion E; subst c' gd4. clear E.
    unfold update in R6. cbn [is_multi with_next set_children set_population set_parents] in R6. rewrite Im in R6.
    apply (update_multi_ok ok NL Ct F) in R6; auto.
    destruct R6 as (-> & l & front & Pm & Asc & FF & ->).
    cbn [population with_next set_children set_population set_parents set_sorted set_members members best_solution idx_generation no_improve] in Pm |- *.
    exists kids, els, h1, h2, rc, cs, front. split.
    - constructor; cbn [multi_updated population idx_generation hist_best hist_mediocre hist_worst hist_pareto num_generations early_stop children_percent members set_members set_sorted
          with_next set_children set_population set_parents best_solution no_improve is_multi]; auto.
      + exists m'. split; auto. destruct (c_mutation c); auto.
      + exists (next s1). unfold kids. rewrite seq_length. split; auto. split; [auto|]. lia.
      + unfold kids. rewrite seq_length. auto.
      + intros r Hr. destruct (Kid r Hr) as (p1 & p2 & g & I1 & I2 & Ma & E & Mt). rewrite Forall_forall in Fp.
        destruct (Fp _ I1) as (m1 & M1 & E1). destruct (Fp _ I2) as (m2 & M2 & E2). exists first, rest, m1, m2, g.
        destruct E1 as (E1 & _). destruct E2 as (E2 & _). rewrite E1, E2.
        rewrite (filled_genotype _ _ _ (Fh r (in_or_app _ _ _ (or_introl Hr)))). auto.
      + rewrite L5, L4, L3, L2, L1. auto.
      + replace (length (log s)) with (length (log s4)) by (rewrite L4, L3, L2, L1; auto). exact As.
      + intros r Hr. rewrite H1old by auto. split; auto.
        destruct (in_dec Nat.eq_dec r (kids ++ els)) as [i|i].
        * assert (In r els) by (apply in_app_or in i; destruct i as [i|i]; auto; apply Hkids in i; lia).
          rewrite Hels by auto. rewrite Rk1 by auto. rewrite H1old by auto. destruct (C1 r Hr) as (A1 & A2 & A3 & A4 & A5). repeat split; auto.
        * rewrite O5 by (intros C; apply i; apply in_or_app; auto). rewrite Rk2 by auto. rewrite H1old by auto. auto.
      + split; congruence.
      + destruct (population gd); cbn in *. rewrite Iu. reflexivity.
    - constructor; cbn [multi_updated population is_multi members set_members set_sorted with_next set_children set_population set_parents is_sorted gspec_of]; auto.
      + intros r Hr. apply (Permutation_in _ Pm) in Hr. apply in_app_or in Hr. rewrite Q1, N4, N3, N2.
        destruct Hr as [Hr|Hr]; [apply Hkids in Hr; lia|]. apply Iels, Ia in Hr. lia.
      + intros r Hr. apply (Permutation_in _ Pm) in Hr. auto.
      + intros r Hr. rewrite (rank_count_perm F (heap s5) _ _ r Pm). apply Wr5. eapply Permutation_in; eauto.
  Qed.
End MultiProofs.
