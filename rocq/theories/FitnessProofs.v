(** Proofs about one fitness pass (Fitness.v): who is evaluated, on what, and what
    the pass leaves behind. *)
From Coq Require Import ZArith List Bool Lia.
From Verif Require Import Num State Binary Population GaData Penalty Fitness ListLemmas Rnd Exec Laws PopulationProofs.
Import ListNotations.
Open Scope list_scope.
Open Scope Z_scope.

Section FitnessProofs.
  Context {NO : NumOps}.

  (** The value of the k-th call of the objective, as the fitness object makes it. *)
  Definition called (f : fitness) (k : nat) (genes : list gv) : exn + oval :=
    match input_data f with
    | Some d => if truthy d then match obj_function f with Obj1 _ => inl TypeError | Obj2 o | Obj12 _ o => o k d genes end
                else match obj_function f with Obj2 _ => inl TypeError | Obj1 o | Obj12 o _ => o k genes end
    | None => match obj_function f with Obj2 _ => inl TypeError | Obj1 o | Obj12 o _ => o k genes end
    end.

  (** What an individual becomes when the objective returns [v]. *)
  Definition assess (f : fitness) (gen : Z) (best : best_sol) (v : oval) (i : individ) : exn + individ :=
    match check_input f v with
    | inl e => inl e
    | inr cv =>
        if is_conditional f then
          match cv, fpenalty f with
          | CVList values, Some p =>
              match take_obj_score f values with
              | inl e => inl e
              | inr ov =>
                  match violates (conditions f) (snd ov) with
                  | inl e => inl e
                  | inr bad =>
                      match penalty_execute p (conditions f) (snd ov) gen best with
                      | inl e => inl e
                      | inr pen =>
                          let i1 := set_obj_score_f (fst ov) i in
                          let i2 := if bad then set_feasible false i1 else i1 in
                          match get_fitness_score f i2 pen with
                          | inl e => inl e
                          | inr sc => inr (set_score sc i2)
                          end
                      end
                  end
              end
          | _, _ => inl Unmodelled
          end
        else
          let i1 := set_obj_score_f (match cv with CVNum x => SV1 x | CVList l => SVL l | CVNone => SVNone end) i in
          match get_fitness_score f i1 nzero with
          | inl e => inl e
          | inr sc => inr (set_score sc i1)
          end
    end.

  Lemma assess_keeps : forall f gen best v i j, assess f gen best v i = inr j ->
    genotype j = genotype i /\ phenotype j = phenotype i /\ idx_individ j = idx_individ i /\ rank j = rank i.
  Proof.
    intros f gen best v i j H. unfold assess in H. destruct (check_input f v) as [e|cv]; [discriminate|].
    destruct (is_conditional f).
    - destruct cv; try discriminate. destruct (fpenalty f); [|discriminate]. destruct (take_obj_score f l) as [|ov]; [discriminate|].
      destruct (violates (conditions f) (snd ov)) as [|bad]; [discriminate|].
      destruct (penalty_execute p (conditions f) (snd ov) gen best) as [|pen]; [discriminate|]. cbv zeta in H.
      destruct (get_fitness_score f _ pen); [discriminate|]. inversion H; subst. destruct bad; repeat split.
    - cbv zeta in H. destruct (get_fitness_score f _ nzero); [discriminate|]. inversion H; subst. repeat split.
  Qed.
  Lemma fitness_score_some : forall f i pen v, get_fitness_score f i pen = inr v -> is_none v = false.
  Proof.
    intros f i pen v H. unfold get_fitness_score in H. destruct (fkind f).
    - destruct (obj_value f), (obj_score i); try discriminate; [inversion H; reflexivity|].
      destruct (hyper x x0 pen); inversion H; reflexivity.
    - destruct (obj_value f), (obj_score i); try discriminate; [inversion H; reflexivity| |].
      + destruct l; inversion H; reflexivity.
      + destruct (hypers l l0 pen); inversion H; reflexivity.
    - destruct (rank i) as [[]|]; try discriminate. destruct (py_div none_ (nadd none_ x)); inversion H; reflexivity.
  Qed.
  Lemma assess_scored : forall f gen best v i j, assess f gen best v i = inr j -> is_none (score j) = false.
  Proof.
    intros f gen best v i j H. unfold assess in H. destruct (check_input f v) as [e|cv]; [discriminate|].
    destruct (is_conditional f).
    - destruct cv; try discriminate. destruct (fpenalty f); [|discriminate]. destruct (take_obj_score f l) as [|ov]; [discriminate|].
      destruct (violates (conditions f) (snd ov)) as [|bad]; [discriminate|].
      destruct (penalty_execute p (conditions f) (snd ov) gen best) as [|pen]; [discriminate|]. cbv zeta in H.
      destruct (get_fitness_score f _ pen) eqn:E; [discriminate|]. inversion H; subst. apply fitness_score_some in E. exact E.
    - cbv zeta in H. destruct (get_fitness_score f _ nzero) eqn:E; [discriminate|]. inversion H; subst. apply fitness_score_some in E. exact E.
  Qed.
  (** Exchanging genotype and phenotype does not matter to the assessment. *)
  Definition dress (g : list gv) (p : option (option (list gv))) (i : individ) : individ := set_genotype g (set_phenotype p i).
  Lemma fitness_score_dress : forall f g p i pen, get_fitness_score f (dress g p i) pen = get_fitness_score f i pen.
  Proof. reflexivity. Qed.
  Lemma assess_dress : forall f gen best v g p i,
    assess f gen best v (dress g p i) = match assess f gen best v i with inl e => inl e | inr j => inr (dress g p j) end.
  Proof.
    intros. unfold assess. destruct (check_input f v) as [e|cv]; [reflexivity|]. destruct (is_conditional f).
    - destruct cv; try reflexivity. destruct (fpenalty f); [|reflexivity]. destruct (take_obj_score f l) as [|ov]; [reflexivity|].
      destruct (violates (conditions f) (snd ov)) as [|bad]; [reflexivity|].
      destruct (penalty_execute p0 (conditions f) (snd ov) gen best) as [|pen]; [reflexivity|]. cbv zeta.
      assert (E : (if bad then set_feasible false (set_obj_score_f (fst ov) (dress g p i)) else set_obj_score_f (fst ov) (dress g p i)) =
                  dress g p (if bad then set_feasible false (set_obj_score_f (fst ov) i) else set_obj_score_f (fst ov) i)) by (destruct bad; reflexivity).
      rewrite E, fitness_score_dress. destruct (get_fitness_score f _ pen); reflexivity.
    - cbv zeta. match goal with |- context [get_fitness_score f (set_obj_score_f ?w (dress g p i)) _] => set (x := w) end.
      change (set_obj_score_f x (dress g p i)) with (dress g p (set_obj_score_f x i)). rewrite fitness_score_dress.
      destruct (get_fitness_score f _ nzero); reflexivity.
  Qed.

  (** From [s] to [s'] the generator and the allocation did not change. *)
  Definition quiet (s s' : st) : Prop :=
    next s' = next s /\ tape s' = tape s /\ ent s' = ent s /\ rnd_seed s' = rnd_seed s /\ prng s' = prng s.
  Lemma quiet_refl : forall s, quiet s s. Proof. intros; repeat split. Qed.
  Lemma quiet_trans : forall a b c, quiet a b -> quiet b c -> quiet a c.
  Proof. intros a b c (A1 & A2 & A3 & A4 & A5) (B1 & B2 & B3 & B4 & B5). repeat split; congruence. Qed.

  Lemma call_ok : forall f genes s v s',
    match input_data f with
    | Some d => if truthy d then call2 (obj_function f) d genes else call1 (obj_function f) genes
    | None => call1 (obj_function f) genes
    end s = Ok v s' ->
    called f (length (log s)) genes = inr v /\ s' = set_log ((genes, v) :: log s) s.
  Proof.
    intros f genes s v s' H. unfold called. unfold call1, call2, call_logged, raise in H.
    destruct (input_data f) as [d|]; [destruct (truthy d)|]; destruct (obj_function f) as [o|o|o1 o2]; try discriminate;
      match type of H with match ?x with _ => _ end = _ => destruct x eqn:E; [discriminate|] end; inversion H; subst; auto.
  Qed.
  Lemma upd_eq : forall h r i, upd h r i r = i. Proof. intros. unfold upd. rewrite Nat.eqb_refl. reflexivity. Qed.
  Lemma upd_ne : forall h r i r', r' <> r -> upd h r i r' = h r'.
  Proof. intros h r i r' H. unfold upd. apply Nat.eqb_neq in H. rewrite H. reflexivity. Qed.

  Lemma evaluate_ok : forall f gen best r s u s', evaluate f gen best r s = Ok u s' ->
    (is_none (score (heap s r)) = false /\ s' = s) \/
    (is_none (score (heap s r)) = true /\ exists v, called f (length (log s)) (genotype (heap s r)) = inr v /\
       assess f gen best v (heap s r) = inr (heap s' r) /\ log s' = (genotype (heap s r), v) :: log s /\ quiet s s' /\
       forall r', r' <> r -> heap s' r' = heap s r').
  Proof.
    intros f gen best r s u s' H. unfold evaluate in H. bd H i s0 R0. apply get_ok in R0. destruct R0 as [-> ->].
    destruct (is_none (score (heap s r))) eqn:Hn; [|apply ret_ok in H; destruct H as [_ ->]; left; auto].
    right. split; auto. bd H cv s1 R1. unfold calc_obj_func in R1. bd R1 v s2 R2. apply call_ok in R2. destruct R2 as [Cv ->].
    apply lift_ok in R1. destruct R1 as [Ci ->]. exists v. split; auto. unfold assess. rewrite Ci.
    destruct (is_conditional f).
    - destruct cv as [x|values|]; try discriminate. destruct (fpenalty f) as [p|]; [|discriminate].
      bd H ov s3 R3. apply lift_ok in R3. destruct R3 as [To ->]. rewrite To.
      bd H u1 s4 R4. apply modify_ok in R4. subst s4. bd H bad s5 R5. apply lift_ok in R5. destruct R5 as [Vi ->]. rewrite Vi.
      bd H u2 s6 R6. apply modify_ok in R6. subst s6. bd H pen s7 R7. apply lift_ok in R7. destruct R7 as [Pe ->]. rewrite Pe.
      bd H i' s8 R8. apply get_ok in R8. destruct R8 as [-> ->]. bd H sc s9 R9. apply lift_ok in R9. destruct R9 as [Sc ->].
      apply modify_ok in H. subst s'. cbn [heap log set_heap set_log] in *. rewrite !upd_eq in *. cbv zeta. rewrite Sc.
      split; auto. split; auto. split; [repeat split|]. intros r' Hr. rewrite !upd_ne; auto.
    - bd H u1 s4 R4. apply modify_ok in R4. subst s4. bd H i' s8 R8. apply get_ok in R8. destruct R8 as [-> ->].
      bd H sc s9 R9. apply lift_ok in R9. destruct R9 as [Sc ->].
      apply modify_ok in H. subst s'. cbn [heap log set_heap set_log] in *. rewrite !upd_eq in *. cbv zeta. rewrite Sc.
      split; auto. split; auto. split; [repeat split|]. intros r' Hr. rewrite !upd_ne; auto.
  Qed.
  Lemma call_safe : forall f genes s v, called f (length (log s)) genes = inr v ->
    safe (match input_data f with
    | Some d => if truthy d then call2 (obj_function f) d genes else call1 (obj_function f) genes
    | None => call1 (obj_function f) genes
    end) s.
  Proof.
    intros f genes s v H e. unfold called in H. unfold call1, call2, call_logged, raise.
    destruct (input_data f) as [d|]; [destruct (truthy d)|]; destruct (obj_function f) as [o|o|o1 o2]; try discriminate; rewrite H; discriminate.
  Qed.
  Lemma evaluate_safe : forall f gen best r s,
    (is_none (score (heap s r)) = true -> exists v j, called f (length (log s)) (genotype (heap s r)) = inr v /\
       assess f gen best v (heap s r) = inr j) ->
    safe (evaluate f gen best r) s.
  Proof.
    intros f gen best r s H. unfold evaluate. apply safe_bind; [apply safe_get|]. intros i s0 R0. apply get_ok in R0. destruct R0 as [-> ->].
    destruct (is_none (score (heap s r))); [|apply safe_ret]. destruct H as (v & j & Cv & As); auto.
    unfold assess in As. destruct (check_input f v) as [|cv] eqn:Ci; [discriminate|].
    apply safe_bind. { unfold calc_obj_func. apply safe_bind; [eapply call_safe; eauto|]. intros v' s1 R. apply call_ok in R. destruct R as [Cv' _].
      rewrite Cv in Cv'. inversion Cv'; subst v'. eapply safe_lift; eauto. }
    intros cv' s1 R1. unfold calc_obj_func in R1. bd R1 v' s2 R2. apply call_ok in R2. destruct R2 as [Cv' ->]. rewrite Cv in Cv'. inversion Cv'; subst v'.
    apply lift_ok in R1. destruct R1 as [Ci' ->]. rewrite Ci in Ci'. inversion Ci'; subst cv'.
    destruct (is_conditional f).
    - destruct cv as [x|values|]; try discriminate. destruct (fpenalty f) as [p|]; [|discriminate].
      destruct (take_obj_score f values) as [|ov] eqn:To; [discriminate|]. destruct (violates (conditions f) (snd ov)) as [|bad] eqn:Vi; [discriminate|].
      destruct (penalty_execute p (conditions f) (snd ov) gen best) as [|pen] eqn:Pe; [discriminate|]. cbv zeta in As.
      destruct (get_fitness_score f _ pen) eqn:Sc in As; [discriminate|].
      apply safe_bind; [eapply safe_lift; reflexivity|]. intros ov' s3 R3. apply lift_ok in R3. destruct R3 as [E ->]. inversion E; subst ov'.
      apply safe_bind; [apply safe_modify|]. intros u1 s4 R4. apply modify_ok in R4. subst s4.
      apply safe_bind; [eapply safe_lift; eauto|]. intros bad' s5 R5. apply lift_ok in R5. destruct R5 as [E5 ->]. rewrite Vi in E5. inversion E5; subst bad'.
      apply safe_bind; [apply safe_modify|]. intros u2 s6 R6. apply modify_ok in R6. subst s6.
      apply safe_bind; [eapply safe_lift; eauto|]. intros pen' s7 R7. apply lift_ok in R7. destruct R7 as [E7 ->]. rewrite Pe in E7. inversion E7; subst pen'.
      apply safe_bind; [apply safe_get|]. intros i' s8 R8. apply get_ok in R8. destruct R8 as [-> ->].
      apply safe_bind; [|intros; apply safe_modify]. cbn [heap log set_heap set_log] in *. rewrite !upd_eq in *. eapply safe_lift; eauto.
    - cbv zeta in As. destruct (get_fitness_score f _ nzero) eqn:Sc in As; [discriminate|].
      apply safe_bind; [apply safe_modify|]. intros u1 s4 R4. apply modify_ok in R4. subst s4.
      apply safe_bind; [apply safe_get|]. intros i' s8 R8. apply get_ok in R8. destruct R8 as [-> ->].
      apply safe_bind; [|intros; apply safe_modify]. cbn [heap log set_heap set_log] in *. rewrite !upd_eq in *. eapply safe_lift; eauto.
  Qed.

  (** The list without later repetitions, and its individuals without a score. *)
  Fixpoint dedup (l : list nat) : list nat :=
    match l with [] => [] | x :: l' => x :: filter (fun y => negb (Nat.eqb y x)) (dedup l') end.
  Lemma dedup_in : forall l r, In r (dedup l) <-> In r l.
  Proof.
    induction l as [|x l IH]; intros r; cbn; [tauto|]. rewrite filter_In, IH, negb_true_iff, Nat.eqb_neq.
    destruct (Nat.eq_dec x r); [tauto|]. intuition congruence.
  Qed.
  Lemma dedup_nodup : forall l, NoDup (dedup l).
  Proof.
    induction l as [|x l IH]; cbn; constructor.
    - rewrite filter_In, negb_true_iff, Nat.eqb_neq. tauto.
    - apply NoDup_filter; auto.
  Qed.
  Lemma filter_all : forall {A} (f : A -> bool) l, (forall x, In x l -> f x = true) -> filter f l = l.
  Proof. intros A f l. induction l as [|x l IH]; intros H; cbn; auto. rewrite (H x) by (left; auto). rewrite IH; auto. intros; apply H; right; auto. Qed.
  Lemma dedup_nodup_id : forall l, NoDup l -> dedup l = l.
  Proof.
    induction l as [|x l IH]; intros H; cbn; auto. inversion H; subst. rewrite IH by auto. rewrite filter_all; auto.
    intros y Hy. rewrite negb_true_iff, Nat.eqb_neq. congruence.
  Qed.
  Definition unscored (s : st) (r : nat) : bool := is_none (score (heap s r)).
  Definition news (s : st) (l : list nat) : list nat := filter (unscored s) (dedup l).
  Lemma news_in : forall s l r, In r (news s l) <-> In r l /\ unscored s r = true.
  Proof. intros. unfold news. rewrite filter_In, dedup_in. tauto. Qed.
  Lemma news_nodup : forall s l, NoDup (news s l).
  Proof. intros. apply NoDup_filter, dedup_nodup. Qed.
  Lemma filter_filter : forall {A} (f g : A -> bool) l, filter f (filter g l) = filter (fun x => g x && f x) l.
  Proof.
    intros A f g l. induction l as [|x l IH]; cbn; auto. destruct (g x); cbn; rewrite IH; auto.
  Qed.

  (** The evaluations of one pass: the individuals of [us] in order, from states
      [h] to [h'], the first call being number [k]. *)
  Inductive evaluated (f : fitness) (gen : Z) (best : best_sol) (h h' : nat -> individ) :
      nat -> list nat -> list (list gv * oval) -> Prop :=
  | ev_nil : forall k, evaluated f gen best h h' k [] []
  | ev_cons : forall k r us v cs, called f k (genotype (h r)) = inr v -> assess f gen best v (h r) = inr (h' r) ->
      evaluated f gen best h h' (S k) us cs -> evaluated f gen best h h' k (r :: us) ((genotype (h r), v) :: cs).
  Lemma evaluated_ext : forall f gen best h h' k us cs h2 h2', (forall r, In r us -> h2 r = h r /\ h2' r = h' r) ->
    evaluated f gen best h h' k us cs -> evaluated f gen best h2 h2' k us cs.
  Proof.
    intros f gen best h h' k us cs h2 h2' E H. induction H; [constructor|].
    destruct (E r) as [E1 E2]; [left; auto|]. rewrite <- E1 in *. rewrite <- E2 in *.
    constructor; auto. apply IHevaluated. intros; apply E; right; auto.
  Qed.
  Lemma evaluated_length : forall f gen best h h' k us cs, evaluated f gen best h h' k us cs -> length cs = length us.
  Proof. induction 1; cbn; auto. Qed.

  Lemma evaluate_all_ok : forall f gen best l s u s', miter (evaluate f gen best) l s = Ok u s' ->
    exists cs, log s' = rev cs ++ log s /\ quiet s s' /\
      evaluated f gen best (heap s) (heap s') (length (log s)) (news s l) cs /\
      forall r, ~ In r (news s l) -> heap s' r = heap s r.
  Proof.
    intros f gen best l. induction l as [|x l IH]; intros s u s' H; cbn [miter] in H.
    - apply ret_ok in H. destruct H as [_ ->]. exists []. repeat split; auto. constructor.
    - bd H v s1 R1. apply evaluate_ok in R1. apply IH in H. destruct H as (cs & L & Q & E & Hu).
      assert (Hf : (forall r, unscored s1 r = unscored s r && negb (Nat.eqb r x)) -> news s1 l = filter (unscored s) (filter (fun y => negb (Nat.eqb y x)) (dedup l))).
      { intros K. unfold news. rewrite filter_filter. apply filter_ext. intros a. rewrite K. apply andb_comm. }
      destruct R1 as [[Hn ->]|(Hn & w & Cw & As & Lw & Qw & Hw)].
      + exists cs. assert (En : news s (x :: l) = news s l).
        { rewrite Hf; [unfold news; cbn [dedup filter]; unfold unscored at 1; rewrite Hn; auto|].
          intros r. destruct (Nat.eqb_spec r x) as [->|]; [unfold unscored; rewrite Hn; auto|rewrite andb_true_r; auto]. }
        rewrite En. auto.
      + assert (En : news s (x :: l) = x :: news s1 l).
        { rewrite Hf; [unfold news; cbn [dedup filter]; unfold unscored at 1; rewrite Hn; auto|].
          intros r. unfold unscored. destruct (Nat.eqb_spec r x) as [->|Hr]; [rewrite andb_false_r; apply assess_scored in As; auto|].
          rewrite Hw by auto. rewrite andb_true_r. auto. }
        assert (Nx : ~ In x (news s1 l)).
        { rewrite news_in. intros [_ C]. unfold unscored in C. apply assess_scored in As. congruence. }
        exists ((genotype (heap s x), w) :: cs). rewrite En. split; [rewrite L, Lw; cbn [rev]; rewrite <- app_assoc; auto|].
        split; [eapply quiet_trans; eauto|]. split.
        * constructor; auto; [rewrite (Hu x Nx); auto|]. rewrite Lw in E. cbn [length] in E.
          eapply evaluated_ext; [|exact E]. intros r Hr. split; auto. symmetry. apply Hw. intros ->. auto.
        * intros r Hr. rewrite Hu by (intros C; apply Hr; right; auto). apply Hw. intros ->. apply Hr. left; auto.
  Qed.

  (** *** swap *)
  Definition swap_ind (i : individ) : individ :=
    match phenotype i with Some (Some ph) => dress ph (Some (Some (genotype i))) i | _ => i end.
  Lemma swap_ind_invol : forall i, swap_ind (swap_ind i) = i.
  Proof. intros i. unfold swap_ind. destruct (phenotype i) as [[ph|]|] eqn:E; cbn; [|rewrite E; auto|rewrite E; auto]. destruct i; cbn in *. subst. reflexivity. Qed.
  Lemma swap1_ok : forall r s u s', swap1 r s = Ok u s' ->
    quiet s s' /\ log s' = log s /\ (exists ph, phenotype (heap s r) = Some (Some ph)) /\
    heap s' r = swap_ind (heap s r) /\ forall r', r' <> r -> heap s' r' = heap s r'.
  Proof.
    intros r s u s' H. unfold swap1 in H. bd H i s0 R0. apply get_ok in R0. destruct R0 as [-> ->]. unfold swap_ind.
    destruct (phenotype (heap s r)) as [[ph|]|] eqn:E; try discriminate. apply modify_ok in H. subst s'.
    cbn [heap log set_heap]. rewrite upd_eq. split; [repeat split|]. split; auto. split; [eauto|]. split; auto. intros r' Hr. apply upd_ne; auto.
  Qed.
  Lemma swap_ok : forall l s u s', swap l s = Ok u s' ->
    quiet s s' /\ log s' = log s /\ (forall r, In r l -> exists ph, phenotype (heap s r) = Some (Some ph)) /\
    forall r, heap s' r = if Nat.odd (count_occ Nat.eq_dec l r) then swap_ind (heap s r) else heap s r.
  Proof.
    unfold swap. induction l as [|x l IH]; intros s u s' H; cbn [miter] in H.
    - apply ret_ok in H. destruct H as [_ ->]. cbn. repeat split; auto. intros r [].
    - bd H v s1 R1. apply swap1_ok in R1. destruct R1 as (Q1 & L1 & P1 & H1 & O1). apply IH in H. destruct H as (Q & L & P & Hh).
      split; [eapply quiet_trans; eauto|]. split; [congruence|]. split.
      + intros r [<-|Hr]; auto. destruct (Nat.eq_dec r x) as [->|Hx]; auto. rewrite <- (O1 r Hx). auto.
      + intros r. rewrite Hh. cbn [count_occ]. destruct (Nat.eq_dec x r) as [->|Hx].
        * rewrite H1. rewrite Nat.odd_succ, <- Nat.negb_odd. destruct (Nat.odd (count_occ Nat.eq_dec l r)); cbn [negb]; [apply swap_ind_invol|auto].
        * rewrite O1 by congruence. reflexivity.
  Qed.
  Lemma swap_safe : forall l s, (forall r, In r l -> exists ph, phenotype (heap s r) = Some (Some ph)) -> safe (swap l) s.
  Proof.
    unfold swap. induction l as [|x l IH]; intros s H; cbn [miter]; [apply safe_ret|].
    apply safe_bind.
    - unfold swap1. apply safe_bind; [apply safe_get|]. intros i s1 R. apply get_ok in R. destruct R as [-> ->].
      destruct (H x) as [ph ->]; [left; auto|]. apply safe_modify.
    - intros u s1 R1. apply swap1_ok in R1. destruct R1 as (Q1 & L1 & (ph & P1) & H1 & O1). apply IH.
      intros r Hr. destruct (Nat.eq_dec r x) as [->|Hx]; [rewrite H1; unfold swap_ind; rewrite P1; cbn; eauto|]. rewrite O1 by auto. apply H; right; auto.
  Qed.

  (** *** One pass of BaseFitness.execute *)
  (** What the objective is called on. *)
  Definition point (g : gspec) (i : individ) : list gv :=
    if is_phenotype g then match phenotype i with Some (Some ph) => ph | _ => [] end else genotype i.
  (** The individual once its phenotype is computed. *)
  Definition filled (g : gspec) (i j : individ) : Prop :=
    if is_phenotype g then same_but_phenotype g i j /\ exists ph, phenotype j = Some (Some ph) else j = i.
  (** The evaluations of one pass in terms of the individuals themselves. *)
  Inductive assessed (f : fitness) (g : gspec) (gen : Z) (best : best_sol) (h h' : nat -> individ) :
      nat -> list nat -> list (list gv * oval) -> Prop :=
  | as_nil : forall k, assessed f g gen best h h' k [] []
  | as_cons : forall k r us v cs, called f k (point g (h r)) = inr v -> assess f gen best v (h r) = inr (h' r) ->
      assessed f g gen best h h' (S k) us cs -> assessed f g gen best h h' k (r :: us) ((point g (h r), v) :: cs).
  Lemma assessed_length : forall f g gen best h h' k us cs, assessed f g gen best h h' k us cs -> length cs = length us.
  Proof. induction 1; cbn; auto. Qed.
  Lemma assessed_ext : forall f g gen best h h' k us cs h2 h2', (forall r, In r us -> h2 r = h r /\ h2' r = h' r) ->
    assessed f g gen best h h' k us cs -> assessed f g gen best h2 h2' k us cs.
  Proof.
    intros f g gen best h h' k us cs h2 h2' E H. induction H; [constructor|].
    destruct (E r) as [E1 E2]; [left; auto|]. rewrite <- E1 in *. rewrite <- E2 in *.
    constructor; auto. apply IHassessed. intros; apply E; right; auto.
  Qed.
  Lemma assessed_in : forall f g gen best h h' k us cs r, assessed f g gen best h h' k us cs -> In r us ->
    exists v k', In (point g (h r), v) cs /\ called f k' (point g (h r)) = inr v /\ assess f gen best v (h r) = inr (h' r).
  Proof.
    induction 1; intros Hr; [destruct Hr|]. destruct Hr as [->|Hr]; [exists v, k; repeat split; auto; left; auto|].
    destruct (IHassessed Hr) as (w & k' & I & C & A). exists w, k'. repeat split; auto. right; auto.
  Qed.
  Lemma assessed_call : forall f g gen best h h' k us cs c, assessed f g gen best h h' k us cs -> In c cs ->
    exists r, In r us /\ fst c = point g (h r) /\ assess f gen best (snd c) (h r) = inr (h' r).
  Proof.
    induction 1; intros Hc; [destruct Hc|]. destruct Hc as [<-|Hc]; [exists r; repeat split; auto; left; auto|].
    destruct (IHassessed Hc) as (r' & I & C & A). exists r'. repeat split; auto. right; auto.
  Qed.

  Definition once (l : list nat) (r : nat) : Prop := count_occ Nat.eq_dec l r = 1%nat.
  Lemma base_fitness_ok : forall f gd s u s',
    let l := members (population gd) in let g := gspec_of (population gd) in
    (forall r, In r l -> unscored s r = true -> once l r) ->
    base_fitness_execute f gd s = Ok u s' ->
    exists h cs, (forall r, In r l -> filled g (heap s r) (h r)) /\ (forall r, ~ In r l -> h r = heap s r) /\
      quiet s s' /\ log s' = rev cs ++ log s /\
      assessed f g (idx_generation gd) (best_solution gd) h (heap s') (length (log s)) (news s l) cs /\
      forall r, ~ In r (news s l) -> heap s' r = h r.
  Proof.
    intros f gd s u s' l g Ho H. unfold base_fitness_execute in H. fold l g in H.
    destruct (is_phenotype g) eqn:Ep.
    - bd H u1 s2 R2. bd R2 u0 s1 R1. bd H u3 s3 R3.
      apply get_phenotype_ok in R1. destruct R1 as (N1 & L1 & S1 & P1 & T1 & E1 & O1 & F1 & K1).
      apply swap_ok in R2. destruct R2 as (Q2 & L2 & _ & H2). apply evaluate_all_ok in R3. destruct R3 as (cs & L3 & Q3 & Ev & O3).
      apply swap_ok in H. destruct H as (Q4 & L4 & _ & H4).
      exists (heap s1), cs.
      assert (En : news s2 l = news s l).
      { unfold news. apply filter_ext. intros r. unfold unscored. rewrite H2.
        assert (Es : score (heap s1 r) = score (heap s r)) by (destruct (F1 r) as [->|(_ & gr & ge & bp & ph & _ & _ & ->)]; auto).
        destruct (Nat.odd _); [|rewrite Es; auto]. unfold swap_ind. destruct (phenotype (heap s1 r)) as [[ph|]|]; cbn; rewrite Es; auto. }
      split; [intros r Hr; unfold filled; rewrite Ep; auto|]. split; [auto|].
      split; [unfold quiet in *; repeat split; intuition congruence|]. split; [rewrite L4, L3, L2, L1; auto|].
      rewrite En in Ev, O3. rewrite L2, L1 in Ev. split.
      + assert (K : forall r, In r (news s l) -> exists ph, phenotype (heap s1 r) = Some (Some ph) /\
            heap s2 r = dress ph (Some (Some (genotype (heap s1 r)))) (heap s1 r) /\ heap s' r = swap_ind (heap s3 r)).
        { intros r Hr. apply news_in in Hr. destruct Hr as [I U]. destruct (K1 r I) as [ph Ph]. exists ph. split; auto.
          pose proof (Ho r I U) as C. unfold once in C. rewrite H2, H4, C. cbn. split; auto. unfold swap_ind. rewrite Ph. auto. }
        revert Ev K. generalize (news s l) (length (log s)). clear - Ep. intros us k Ev K.
        induction Ev as [k|k r us v cs Cv As Ev IH]; [constructor|].
        destruct (K r) as (ph & Ph & E2 & E'); [left; auto|].
        assert (Eg : genotype (heap s2 r) = point g (heap s1 r)) by (rewrite E2; unfold point; rewrite Ep, Ph; auto).
        rewrite Eg in *. constructor; auto; [|apply IH; intros; apply K; right; auto].
        rewrite E2, assess_dress in As. destruct (assess f (idx_generation gd) (best_solution gd) v (heap s1 r)) as [|j] eqn:Aj; [discriminate|].
        inversion As as [Ej]. rewrite E', <- Ej. apply assess_keeps in Aj. destruct Aj as (A1 & A2 & _). f_equal.
        unfold swap_ind. cbn. rewrite <- A1. destruct j; cbn in *. subst. rewrite Ph. reflexivity.
      + intros r Hr. rewrite H4. rewrite (O3 r Hr), H2. destruct (Nat.odd _); auto. apply swap_ind_invol.
    - bd H u1 s2 R2. apply ret_ok in R2. destruct R2 as [_ ->]. bd H u3 s3 R3. apply ret_ok in H. destruct H as [_ ->].
      apply evaluate_all_ok in R3. destruct R3 as (cs & L3 & Q3 & Ev & O3). exists (heap s), cs.
      split; [intros; unfold filled; rewrite Ep; auto|]. split; [auto|]. split; auto. split; auto. split; auto.
      clear - Ev Ep. induction Ev; [constructor|].
      assert (E : genotype (heap s r) = point g (heap s r)) by (unfold point; rewrite Ep; auto).
      rewrite E in *. constructor; auto.
  Qed.
End FitnessProofs.
