(** Whole single-objective runs (Driver.v): the first generation, the later ones, and
    the induction principle over the generations of a run. *)
From Coq Require Import ZArith List Bool Lia Permutation Sorted.
From Verif Require Import Spec Num State Binary Population GaData Crossover Mutation Selection Penalty Fitness NewGeneration Driver
  ListLemmas Rnd Exec Laws PopulationProofs CrossoverProofs MutationProofs SelectionProofs VegaProofs
  NewGenProofs UpdateProofs FitnessProofs StepProofs.
Import ListNotations.
Open Scope list_scope.
Open Scope Z_scope.

Section RunProofs.
  Context {NO : NumOps}.

  (** The data a run starts from: what set_params, fill and the GaData constructor
      leave behind. *)
  Record Init (gd : gadata) (s : st) : Prop := {
    in_single : is_multi gd = false;
    in_unsorted : is_sorted (population gd) = false;
    in_nodup : NoDup (members (population gd));
    in_alloc : forall r, In r (members (population gd)) -> (r < next s)%nat;
    in_fresh : forall r, In r (members (population gd)) ->
      fresh (gspec_of (population gd)) (heap s r) /\ decoded (gspec_of (population gd)) (heap s r);
    in_gen : idx_generation gd = 0 /\ no_improve gd = 0 /\ best_solution gd = BNone;
    in_hist : hist_best gd = [] /\ hist_mediocre gd = [] /\ hist_worst gd = []
  }.
  Lemma fill_init : forall p s p' s' ng cp es, is_sorted p = false -> fill p s = Ok p' s' -> Init (new_gadata false ng cp es p') s'.
  Proof.
    intros p s p' s' ng cp es So H. apply fill_ok in H. destruct H as (g & Hg & H). cbv zeta in H. destruct H as (-> & N & X & K).
    constructor; cbn [new_gadata population members set_members set_gspec is_sorted gspec_of is_multi idx_generation no_improve best_solution hist_best hist_mediocre hist_worst]; auto.
    - apply seq_NoDup.
    - intros r Hr. apply in_seq in Hr. lia.
    - intros r Hr. apply In_nth_error in Hr. destruct Hr as (i & Hi). destruct (K i r Hi) as (geno & G & S1 & S2 & Fe & Rk & _ & P & _).
      assert (D : decoded g (heap s' r)).
      { destruct g as [gray gens bp|gens|a b k]; cbn; auto. destruct P as (ph & P & D). exists ph. split; auto. rewrite G. auto. }
      split; auto. split; auto.
  Qed.

  (** The first generation: evaluation of the initial population and the first update. *)
  Definition first_generation (f : fitness) (gd : gadata) : M gadata := fitness_execute f gd ;;; update gd.
  Record First (f : fitness) (gd : gadata) (s : st) (gd' : gadata) (s' : st)
         (cs : list (list gv * oval)) (l0 : list nat) (bst md w : nat) : Prop := {
    fi_log : log s' = rev cs ++ log s;
    fi_eval : assessed f (gspec_of (population gd)) 0 BNone (heap s) (heap s') (length (log s)) (members (population gd)) cs;
    fi_frame : forall r, ~ In r (members (population gd)) -> heap s' r = heap s r;
    fi_quiet : quiet s s';
    fi_members : members (population gd') = l0 ++ [bst] /\ Permutation (members (population gd')) (members (population gd));
    fi_pop : population gd' = set_sorted true (set_members (l0 ++ [bst]) (population gd));
    fi_gen : idx_generation gd' = 1;
    fi_best : best_solution gd' = BSingle (heap s' bst) 0 /\ no_improve gd' = 0;
    fi_hist : hist_best gd' = [score (heap s' bst)] /\ hist_mediocre gd' = [score (heap s' md)] /\ hist_worst gd' = [score (heap s' w)];
    fi_pos : nth_error (l0 ++ [bst]) (length (l0 ++ [bst]) / 2) = Some md /\ nth_error (l0 ++ [bst]) 0 = Some w;
    fi_params : num_generations gd' = num_generations gd /\ early_stop gd' = early_stop gd /\ children_percent gd' = children_percent gd
  }.
  Lemma first_ok : forall ok f gd s gd' s', NumOrder NO ok -> good_scores ok f -> fkind f = Hyperbola -> Init gd s ->
    first_generation f gd s = Ok gd' s' ->
    exists cs l0 bst md w, First f gd s gd' s' cs l0 bst md w /\ GI ok gd' s'.
  Proof.
    intros ok f gd s gd' s' NL Gs Fk I H. destruct I as [Im Iu Ind Ia If (Ig & Ini & Ib) (Ih1 & Ih2 & Ih3)].
    unfold first_generation in H. bd H u s1 R. unfold fitness_execute in R. rewrite Fk in R. cbn [is_multi_kind] in R.
    assert (Un : forall r, In r (members (population gd)) -> unscored s r = true).
    { intros r Hr. destruct (If r Hr) as [(E & _) _]. unfold unscored. rewrite E. reflexivity. }
    apply base_fitness_ok in R.
    2:{ intros r Hr _. apply (NoDup_count_occ' Nat.eq_dec); auto. }
    assert (En : news s (members (population gd)) = members (population gd)).
    { rewrite <- (app_nil_r (members (population gd))) at 1. apply news_app; auto. intros r []. }
    rewrite En, Ig, Ib in R. destruct R as (h & cs & Fh & Fo & Q & L & As & O).
    assert (Hh : forall r, In r (members (population gd)) -> h r = heap s r).
    { intros r Hr. eapply filled_same; [|apply Fh; auto]. apply If; auto. }
    assert (As' : assessed f (gspec_of (population gd)) 0 BNone (heap s) (heap s1) (length (log s)) (members (population gd)) cs).
    { eapply assessed_ext; [|exact As]. intros r Hr. rewrite Hh by auto. auto. }
    assert (Sall : forall r, In r (members (population gd)) -> settled ok (gspec_of (population gd)) (heap s1 r)).
    { intros r Hr. destruct (assessed_in _ _ _ _ _ _ _ _ _ _ As' Hr) as (v & k & _ & Cv & Av). split; [eapply Gs; eauto|].
      apply assess_keeps in Av. destruct Av as (A1 & A2 & _). destruct (If r Hr) as [_ D]. unfold decoded in *. rewrite A1, A2. auto. }
    unfold update in H. rewrite Im in H. apply update_single_ok in H. destruct H as (-> & l0 & bst & md & w & So & Hmd & Hw & Hb & ->).
    unfold sorted_from in So. rewrite Iu in So. apply sort_ok in So. destruct So as (_ & Pm & Sa). destruct (Sa ok NL) as [Asc _].
    { intros r Hr. destruct (Sall r Hr) as [(x & Ex & Ox) _]. exists x. cbn. rewrite Ex. auto. }
    exists cs, l0, bst, md, w. split.
    - constructor; cbn [updated population members set_members set_sorted idx_generation hist_best hist_mediocre hist_worst best_solution no_improve num_generations early_stop children_percent]; auto.
      + intros r Hr. rewrite O by auto. auto.
      + rewrite Ig. reflexivity.
      + unfold best_after. rewrite Ib, Ig, Ini. auto.
      + rewrite Ih1, Ih2, Ih3. auto.
    - constructor; cbn [updated population members set_members set_sorted is_multi is_sorted gspec_of]; auto.
      + destruct l0; discriminate.
      + intros r Hr. apply (Permutation_in _ Pm) in Hr. destruct Q as (Qn & _). rewrite Qn. auto.
      + intros r Hr. apply (Permutation_in _ Pm) in Hr. auto.
  Qed.

  (** [k] further generations. *)
  Inductive steps (fuel : nat) (c : comps) (gd : gadata) (s : st) : nat -> comps -> gadata -> st -> Prop :=
  | steps_0 : steps fuel c gd s 0 c gd s
  | steps_S : forall k c1 gd1 s1 c2 gd2 s2, steps fuel c gd s k c1 gd1 s1 -> ga_step fuel c1 gd1 s1 = Ok (c2, gd2) s2 ->
      steps fuel c gd s (S k) c2 gd2 s2.
  Lemma steps_cons : forall fuel c gd s c1 gd1 s1, ga_step fuel c gd s = Ok (c1, gd1) s1 ->
    forall k c2 gd2 s2, steps fuel c1 gd1 s1 k c2 gd2 s2 -> steps fuel c gd s (S k) c2 gd2 s2.
  Proof.
    intros fuel c gd s c1 gd1 s1 H k c2 gd2 s2 S. induction S; [econstructor; [constructor|exact H]|].
    econstructor; eauto.
  Qed.
  Lemma steps_trans : forall fuel c gd s k c1 gd1 s1, steps fuel c gd s k c1 gd1 s1 ->
    forall k' c2 gd2 s2, steps fuel c1 gd1 s1 k' c2 gd2 s2 -> steps fuel c gd s (k + k') c2 gd2 s2.
  Proof.
    intros fuel c gd s k c1 gd1 s1 H k' c2 gd2 s2 S. induction S; [rewrite Nat.add_0_r; auto|].
    rewrite Nat.add_succ_r. econstructor; eauto.
  Qed.
  Lemma loop_steps : forall fuel n c gd s c' gd' s', ga_loop fuel n c gd s = Ok (c', gd') s' ->
    exists k, (k <= n)%nat /\ steps fuel c gd s k c' gd' s' /\
      (* the iterations that did not end the loop *)
      (forall j c1 gd1 s1, (0 < j < k)%nat -> steps fuel c gd s j c1 gd1 s1 -> exists e, early_stop gd1 = Some e /\ no_improve gd1 <= e) /\
      ((0 < k)%nat -> exists e, early_stop gd' = Some e) /\
      (k = n \/ (0 < k)%nat /\ exists e, early_stop gd' = Some e /\ e < no_improve gd').
  Proof.
    intros fuel n. induction n as [|n IH]; intros c gd s c' gd' s' H; cbn [ga_loop] in H.
    - apply ret_ok in H. destruct H as [E ->]. inversion E; subst. exists 0%nat. split; auto. split; [constructor|]. split; [lia|]. split; [lia|auto].
    - bd H r s1 R. destruct r as [c1 gd1]. cbn [fst snd] in H. bd H stop s2 R2. unfold should_stop in R2.
      destruct (early_stop gd1) as [e|] eqn:Ee; [|discriminate]. apply ret_ok in R2. destruct R2 as [-> ->].
      assert (F1 : forall c1' gd1' s1', steps fuel c gd s 1 c1' gd1' s1' -> c1' = c1 /\ gd1' = gd1 /\ s1' = s1).
      { intros c1' gd1' s1' St. inversion St as [|k ca ga sa cb gb sb S0 R0]; subst. inversion S0; subst. rewrite R in R0. inversion R0. auto. }
      destruct (e <? no_improve gd1) eqn:El.
      + apply ret_ok in H. destruct H as [E ->]. inversion E; subst c1 gd1. apply Z.ltb_lt in El. exists 1%nat. split; [lia|].
        split; [econstructor; [constructor|exact R]|]. split; [lia|]. split; eauto. right. split; [lia|]. eauto.
      + apply Z.ltb_ge in El. apply IH in H. destruct H as (k & Lk & Sk & A & B & C). exists (S k). split; [lia|].
        split; [eapply steps_cons; eauto|]. split; [|split].
        * intros j ca ga sa Hj Sj. destruct j as [|j]; [lia|].
          assert (D : forall m cb gb sb, steps fuel c gd s (S m) cb gb sb -> steps fuel c1 gd1 s1 m cb gb sb).
          { clear - R. induction m as [|m IHm]; intros cb gb sb St.
            - inversion St as [|k ca ga sa cc gc sc S0 R0]; subst. inversion S0; subst. rewrite R in R0. inversion R0. constructor.
            - inversion St as [|k ca ga sa cc gc sc S0 R0]; subst. econstructor; [apply IHm; exact S0|exact R0]. }
          apply D in Sj. destruct j as [|j].
          -- inversion Sj; subst. eauto.
          -- eapply A; [|exact Sj]. lia.
        * intros _. destruct k; [inversion Sk; subst; eauto|apply B; lia].
        * destruct C as [->|[Hk C]]; [auto|right; split; [lia|auto]].
  Qed.
  Lemma run_steps : forall fuel c gd s c' gd' s', run_loop fuel c gd s = Ok (c', gd') s' ->
    exists gd1 s1 k, first_generation (c_fitness c) gd s = Ok gd1 s1 /\ (k <= Z.to_nat (num_generations gd1 - 1))%nat /\
      steps fuel c gd1 s1 k c' gd' s' /\
      (forall j c2 gd2 s2, (0 < j < k)%nat -> steps fuel c gd1 s1 j c2 gd2 s2 -> exists e, early_stop gd2 = Some e /\ no_improve gd2 <= e) /\
      ((0 < k)%nat -> exists e, early_stop gd' = Some e) /\
      (k = Z.to_nat (num_generations gd1 - 1) \/ (0 < k)%nat /\ exists e, early_stop gd' = Some e /\ e < no_improve gd').
  Proof.
    intros fuel c gd s c' gd' s' H. unfold run_loop in H. bd H u s1 R. bd H gd1 s2 R1. apply loop_steps in H. destruct H as (k & H).
    exists gd1, s2, k. split; auto. unfold first_generation, bind. rewrite R. auto.
  Qed.

  (** *** Induction over the generations of a run *)
  Definition single (c : comps) : Prop :=
    fkind (c_fitness c) = Hyperbola /\ ng_multi (c_newgen c) = false /\ objectives_ok (c_selection c).
  Definition same_comps (c c' : comps) : Prop :=
    c_fitness c' = c_fitness c /\ c_selection c' = c_selection c /\ c_crossover c' = c_crossover c /\ c_newgen c' = c_newgen c.
  Lemma step_same_comps : forall c gd s c' gd' s' kids els h cs l0 bst md w,
    Step c gd s c' gd' s' kids els h cs l0 bst md w -> same_comps c c'.
  Proof. intros c gd s c' gd' s' kids els h cs l0 bst md w H. destruct (st_comps _ _ _ _ _ _ _ _ _ _ _ _ _ _ H) as (m' & -> & _). repeat split. Qed.

  Section Induction.
    Context (ok : num -> Prop) (NL : NumOrder NO ok) (fuel : nat).
    Lemma steps_inv : forall (Inv : comps -> gadata -> st -> Prop) c gd s,
      single c -> good_scores ok (c_fitness c) -> GI ok gd s -> Inv c gd s ->
      (forall c1 gd1 s1 c2 gd2 s2 kids els h cs l0 bst md w, same_comps c c1 -> GI ok gd1 s1 -> Inv c1 gd1 s1 ->
         Step c1 gd1 s1 c2 gd2 s2 kids els h cs l0 bst md w -> GI ok gd2 s2 -> Inv c2 gd2 s2) ->
      forall k c' gd' s', steps fuel c gd s k c' gd' s' -> GI ok gd' s' /\ same_comps c c' /\ Inv c' gd' s'.
    Proof.
      intros Inv c gd s Sc Gs G0 I0 HI k c' gd' s' S. induction S as [|k c1 gd1 s1 c2 gd2 s2 S IH R].
      - split; auto. split; [repeat split|auto].
      - destruct IH as (G1 & C1 & I1). destruct C1 as (E1 & E2 & E3 & E4). destruct Sc as (Fk & Ng & Ho).
        destruct (step_ok ok fuel c1 gd1 s1 c2 gd2 s2) as (kids & els & h & cs & l0 & bst & md & w & St & G2);
          [exact NL|rewrite E1; exact Gs|congruence|congruence|rewrite E2; exact Ho|exact G1|exact R|].
        split; auto. pose proof (step_same_comps _ _ _ _ _ _ _ _ _ _ _ _ _ _ St) as (F1 & F2 & F3 & F4).
        split; [repeat split; congruence|]. apply (HI c1 gd1 s1 c2 gd2 s2 kids els h cs l0 bst md w); auto. repeat split; auto.
    Qed.
    (** Every generation of a run, from the first. *)
    Lemma run_inv : forall (Inv : comps -> gadata -> st -> Prop) c gd0 s0 gd s,
      single c -> good_scores ok (c_fitness c) -> Init gd0 s0 -> first_generation (c_fitness c) gd0 s0 = Ok gd s ->
      (forall cs l0 bst md w, First (c_fitness c) gd0 s0 gd s cs l0 bst md w -> GI ok gd s -> Inv c gd s) ->
      (forall c1 gd1 s1 c2 gd2 s2 kids els h cs l0 bst md w, same_comps c c1 -> GI ok gd1 s1 -> Inv c1 gd1 s1 ->
         Step c1 gd1 s1 c2 gd2 s2 kids els h cs l0 bst md w -> GI ok gd2 s2 -> Inv c2 gd2 s2) ->
      forall k c' gd' s', steps fuel c gd s k c' gd' s' -> GI ok gd' s' /\ same_comps c c' /\ Inv c' gd' s'.
    Proof.
      intros Inv c gd0 s0 gd s Sc Gs I0 Hf Hb HI. destruct (first_ok ok (c_fitness c) gd0 s0 gd s NL Gs (proj1 Sc) I0 Hf) as (cs & l0 & bst & md & w & F & G).
      apply steps_inv; eauto.
    Qed.
  End Induction.
End RunProofs.
