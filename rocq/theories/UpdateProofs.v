(** Proofs about GaData.update (GaData.v). *)
From Coq Require Import ZArith List Bool Lia Permutation.
From Verif Require Import Spec Num State Binary Population GaData ListLemmas Rnd Exec Laws SelectionProofs NewGenProofs.
Import ListNotations.
Open Scope list_scope.
Open Scope Z_scope.

Section UpdateProofs.
  Context {NO : NumOps}.

  (** What update does with best_solution and num_generation_no_improve, given the
      best individual of the generation. *)
  Definition best_after (gd : gadata) (b : individ) : best_sol * Z :=
    match best_solution gd with
    | BSingle i g => if sv_lt (score i) (score b) then (BSingle b (idx_generation gd), 0)
                     else (BSingle i g, no_improve gd + 1)
    | _ => (BSingle b (idx_generation gd), no_improve gd)
    end.
  Definition updated (gd : gadata) (l : list nat) (b md w : individ) : gadata :=
    mkGD (is_multi gd) (idx_generation gd + 1) (snd (best_after gd b))
         (set_sorted true (set_members l (population gd))) (parents gd) (children gd)
         (hist_best gd ++ [score b]) (hist_mediocre gd ++ [score md]) (hist_worst gd ++ [score w])
         (hist_pareto gd) (fst (best_after gd b)) (num_generations gd) (early_stop gd) (children_percent gd).

  Lemma pop_at_ok : forall l i s x s', pop_at l i s = Ok x s' -> s' = s /\ exists r, py_nth l i = Some r /\ x = heap s r.
  Proof.
    intros l i s x s' H. unfold pop_at in H. bd H r s1 R. apply lift_opt_ok in R. destruct R as [R ->].
    apply get_ok in H. destruct H as [-> ->]. eauto.
  Qed.
  Lemma update_single_ok : forall gd s gd' s', update_single gd s = Ok gd' s' ->
    s' = s /\ exists l0 b md w, let l := l0 ++ [b] in sorted_from KScore (population gd) s l /\
      nth_error l (length l / 2) = Some md /\ nth_error l 0 = Some w /\
      (best_solution gd = BNone \/ exists i g, best_solution gd = BSingle i g) /\
      gd' = updated gd l (heap s b) (heap s md) (heap s w).
  Proof.
    intros gd s gd' s' H. unfold update_single in H. bd H l s1 R.
    assert (S1 : sorted_from KScore (population gd) s l /\ s1 = s).
    { unfold sorted_from. destruct (is_sorted (population gd)); [apply ret_ok in R; tauto|]. pose proof (sort_ok _ _ _ _ _ R) as (-> & _). auto. }
    clear R. destruct S1 as [S1 ->].
    bd H b s1 R. apply pop_at_ok in R. destruct R as [-> (rb & Eb & ->)].
    bd H md s1 R. apply pop_at_ok in R. destruct R as [-> (rm & Em & ->)].
    bd H w s1 R. apply pop_at_ok in R. destruct R as [-> (rw & Ew & ->)].
    destruct l as [|b l0 _] using rev_ind; [discriminate|]. rewrite py_nth_last in Eb. inversion Eb; subst b. clear Eb.
    assert (Lp : (0 < length (l0 ++ [rb]))%nat) by (rewrite app_length; cbn; lia).
    rewrite py_nth_nat in Em by (split; [apply Z.div_pos; lia|apply Z.div_lt_upper_bound; lia]).
    rewrite py_nth_nat in Ew by lia.
    replace (Z.to_nat (Z.of_nat (length (l0 ++ [rb])) / 2)) with (length (l0 ++ [rb]) / 2)%nat in Em
      by (rewrite <- (Nat2Z.id (length (l0 ++ [rb]) / 2)), Nat2Z.inj_div; reflexivity).
    bd H r s1 R. apply ret_ok in H. destruct H as [-> ->].
    assert (B : r = best_after gd (heap s rb) /\ s1 = s /\ (best_solution gd = BNone \/ exists i g, best_solution gd = BSingle i g)).
    { unfold best_after. destruct (best_solution gd) as [|i g|]; [apply ret_ok in R; destruct R; auto| |apply raise_ok in R; contradiction].
      bd R less s2 R1. unfold m_ltb in R1. apply lift_opt_ok in R1. destruct R1 as [R1 ->]. apply ret_ok in R. destruct R as [-> ->].
      unfold sv_lt. rewrite R1. split; [reflexivity|]. split; auto. right; eauto. }
    destruct B as (-> & -> & B). split; auto. exists l0, rb, rm, rw. cbv zeta. do 4 (split; auto).
  Qed.
  Lemma update_single_safe : forall ok gd s, (forall r, In r (members (population gd)) -> scalar_key ok KScore s r) ->
    members (population gd) <> [] ->
    (best_solution gd = BNone \/ exists i g x, best_solution gd = BSingle i g /\ score i = SV1 x) ->
    safe (update_single gd) s.
  Proof.
    intros ok gd s K Ne B. unfold update_single.
    assert (S1 : exists l, (if is_sorted (population gd) then ret (members (population gd)) else sort_by_dict KScore (members (population gd))) s = Ok l s
      /\ Permutation l (members (population gd))).
    { destruct (is_sorted (population gd)); [eexists; split; [reflexivity|auto]|].
      destruct (sort_safe ok KScore (members (population gd)) s) as (l & E); [intros; apply K; auto|]. exists l. split; auto. apply sort_ok in E. tauto. }
    destruct S1 as (l & E & P). apply safe_bind; [intros e; rewrite E; discriminate|]. intros l' s1 H1. rewrite E in H1. inversion H1; subst l' s1. clear H1.
    destruct l as [|b l0 _] using rev_ind; [exfalso; apply Ne; apply Permutation_nil; auto|].
    assert (Lp : (0 < length (l0 ++ [b]))%nat) by (rewrite app_length; cbn; lia).
    assert (Sp : forall i, 0 <= i < Z.of_nat (length (l0 ++ [b])) -> safe (pop_at (l0 ++ [b]) i) s).
    { intros i Hi. unfold pop_at. apply safe_bind; [|intros; apply safe_get].
      assert (exists r, py_nth (l0 ++ [b]) i = Some r) as [r Er].
      { rewrite py_nth_nat by auto. destruct (nth_error (l0 ++ [b]) (Z.to_nat i)) eqn:En; eauto. apply nth_error_None in En. lia. }
      eapply safe_lift_opt; eauto. }
    apply safe_bind.
    { unfold pop_at. apply safe_bind; [|intros; apply safe_get]. eapply safe_lift_opt. apply py_nth_last. }
    intros bi s1 R. apply pop_at_ok in R. destruct R as [-> (rb & Eb & ->)]. rewrite py_nth_last in Eb. inversion Eb; subst rb.
    apply safe_bind; [apply Sp; split; [apply Z.div_pos; lia|apply Z.div_lt_upper_bound; lia]|].
    intros md s1 R. apply pop_at_ok in R. destruct R as [-> (rm & _ & ->)].
    apply safe_bind; [apply Sp; lia|]. intros w s1 R. apply pop_at_ok in R. destruct R as [-> (rw & _ & ->)].
    apply safe_bind; [|intros; apply safe_ret].
    destruct B as [->|(i & g & x & -> & Ex)]; [apply safe_ret|]. apply safe_bind; [|intros; apply safe_ret].
    unfold m_ltb. destruct (K b) as (y & Ey & _); [eapply Permutation_in; [exact P|]; apply in_or_app; right; left; auto|].
    cbn in Ey. inversion Ey as [Ey']. rewrite Ex, Ey'. eapply safe_lift_opt. reflexivity.
  Qed.
End UpdateProofs.
