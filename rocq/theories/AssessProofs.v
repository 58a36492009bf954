(** What the evaluation of one individual does, by cases on the objective's return
    value and the conditions (Fitness.v). *)
From Coq Require Import String.
From Coq Require Import ZArith List Bool Lia.
From Verif Require Import Num State Binary Population GaData Penalty Fitness ListLemmas Rnd Exec Laws PopulationProofs FitnessProofs.
Import ListNotations.
Open Scope list_scope.
Open Scope Z_scope.

Section AssessProofs.
  Context {NO : NumOps}.

  Lemma call_err : forall f genes s e, called f (length (log s)) genes = inl e ->
    match input_data f with
    | Some d => if truthy d then call2 (obj_function f) d genes else call1 (obj_function f) genes
    | None => call1 (obj_function f) genes
    end s = Err e.
  Proof.
    intros f genes s e H. unfold called in H. unfold call1, call2, call_logged, raise.
    destruct (input_data f) as [d|]; [destruct (truthy d)|]; destruct (obj_function f) as [o|o|o1 o2]; try (inversion H; subst; reflexivity); rewrite H; reflexivity.
  Qed.
  Lemma call_value : forall f genes s v, called f (length (log s)) genes = inr v ->
    match input_data f with
    | Some d => if truthy d then call2 (obj_function f) d genes else call1 (obj_function f) genes
    | None => call1 (obj_function f) genes
    end s = Ok v (set_log ((genes, v) :: log s) s).
  Proof.
    intros f genes s v H. unfold called in H. unfold call1, call2, call_logged, raise.
    destruct (input_data f) as [d|]; [destruct (truthy d)|]; destruct (obj_function f) as [o|o|o1 o2]; try discriminate; rewrite H; reflexivity.
  Qed.
  (** The evaluation of an unscored individual is determined by the objective's
      result. *)
  Lemma evaluate_run : forall f gen best r s, is_none (score (heap s r)) = true ->
    match called f (length (log s)) (genotype (heap s r)) with
    | inl e => evaluate f gen best r s = Err e
    | inr v => match assess f gen best v (heap s r) with
               | inl e => evaluate f gen best r s = Err e
               | inr j => exists s', evaluate f gen best r s = Ok tt s' /\ heap s' r = j /\ log s' = (genotype (heap s r), v) :: log s
               end
    end.
  Proof.
    intros f gen best r s Hn. unfold evaluate.
    destruct (called f (length (log s)) (genotype (heap s r))) as [e|v] eqn:Cv.
    - assert (E : calc_obj_func f (genotype (heap s r)) s = Err e) by (unfold calc_obj_func, bind; rewrite (call_err _ _ _ _ Cv); reflexivity).
      unfold bind, get. rewrite Hn, E. reflexivity.
    - assert (E : calc_obj_func f (genotype (heap s r)) s = match check_input f v with inl e => Err e | inr cv => Ok cv (set_log ((genotype (heap s r), v) :: log s) s) end).
      { unfold calc_obj_func, bind; rewrite (call_value _ _ _ _ Cv). unfold lift. destruct (check_input f v); reflexivity. }
      unfold assess. unfold bind, get. rewrite Hn, E.
      destruct (check_input f v) as [e|cv]; [reflexivity|].
      destruct (is_conditional f).
      + destruct cv as [x|values|]; try reflexivity. destruct (fpenalty f) as [p|]; [|reflexivity].
        unfold lift, modify.
        destruct (take_obj_score f values) as [e|ov]; [reflexivity|]. cbn [heap log set_heap set_log].
        destruct (violates (conditions f) (snd ov)) as [e|bad]; [reflexivity|].
        destruct (penalty_execute p (conditions f) (snd ov) gen best) as [e|pen]; [reflexivity|].
        cbv beta iota zeta. cbn [heap log set_heap set_log]. rewrite !upd_eq. destruct (get_fitness_score f _ pen) as [e|sc]; [reflexivity|].
        eexists. split; [reflexivity|]. cbn [heap log set_heap set_log]. rewrite !upd_eq. auto.
      + unfold lift, modify. cbn [heap log set_heap set_log]. cbv beta iota zeta. cbn [heap log set_heap set_log]. rewrite !upd_eq.
        destruct (get_fitness_score f _ nzero) as [e|sc]; [reflexivity|].
        eexists. split; [reflexivity|]. cbn [heap log set_heap set_log]. rewrite !upd_eq. auto.
  Qed.

  (** *** Conditions *)
  Lemma index_of_split : forall s l i, index_of s l = Some i ->
    exists pre post, l = pre ++ s :: post /\ ~ In s pre /\ i = Z.of_nat (length pre) /\ remove_first s l = pre ++ post.
  Proof.
    intros s l. induction l as [|x l IH]; intros i H; cbn in H; [discriminate|]. destruct (String.eqb x s) eqn:E.
    - apply String.eqb_eq in E. subst x. inversion H; subst. exists [], l. cbn. rewrite String.eqb_refl. auto.
    - destruct (index_of s l) as [j|] eqn:Ej; [|discriminate]. inversion H; subst. destruct (IH j eq_refl) as (pre & post & -> & Hn & -> & R).
      exists (x :: pre), post. cbn [app length remove_first]. rewrite E, R. split; auto. split; [|split; auto; lia].
      intros [->|C]; auto. rewrite String.eqb_refl in E. discriminate.
  Qed.
  Lemma index_of_none : forall s l, index_of s l = None -> ~ In s l.
  Proof.
    intros s l. induction l as [|x l IH]; intros H; cbn in *; auto. destruct (String.eqb x s) eqn:E; [discriminate|].
    destruct (index_of s l); [discriminate|]. intros [->|C]; [rewrite String.eqb_refl in E; discriminate|]. apply IH; auto.
  Qed.
  Lemma index_of_at : forall s pre post, ~ In s pre -> index_of s (pre ++ s :: post) = Some (Z.of_nat (length pre)) /\ remove_first s (pre ++ s :: post) = pre ++ post.
  Proof.
    intros s pre post H. induction pre as [|x pre IH]; cbn [app index_of remove_first].
    - rewrite String.eqb_refl. auto.
    - destruct (String.eqb x s) eqn:E; [apply String.eqb_eq in E; subst; destruct H; left; auto|].
      destruct IH as [-> ->]; [intros C; apply H; right; auto|]. split; auto. cbn [length]. f_equal. lia.
  Qed.
  Lemma remove_at_app : forall {A} (pre post : list A) x, remove_at (length pre) (pre ++ x :: post) = pre ++ post.
  Proof.
    intros. unfold remove_at. rewrite firstn_app, firstn_all, Nat.sub_diag. cbn [firstn]. rewrite app_nil_r. f_equal.
    change (pre ++ x :: post) with (pre ++ [x] ++ post). rewrite app_assoc. replace (S (length pre)) with (length (pre ++ [x])) by (rewrite app_length; cbn; lia).
    apply skipn_app_all || (rewrite skipn_app, skipn_all, Nat.sub_diag; reflexivity).
  Qed.
  Lemma py_pop_app : forall pre post (x : num), py_pop (pre ++ x :: post) (Z.of_nat (length pre)) = inr (x, pre ++ post).
  Proof.
    intros. unfold py_pop. unfold py_nth. rewrite app_length. cbn [length].
    replace (Z.of_nat (length pre) <? 0) with false by (symmetry; apply Z.ltb_ge; lia).
    replace (Z.of_nat (length pre) <? 0) with false by (symmetry; apply Z.ltb_ge; lia).
    replace (Z.of_nat (length pre + S (length post)) <=? Z.of_nat (length pre)) with false by (symmetry; apply Z.leb_gt; lia).
    cbn [orb]. rewrite !Nat2Z.id, nth_error_app2, Nat.sub_diag by lia. cbn [nth_error]. rewrite remove_at_app. reflexivity.
  Qed.

  (** A value satisfies its condition. *)
  Definition holds (c : string) (v : num) : Prop :=
    if String.eqb c "<=" then nltb nzero v = false else neqb v nzero = true.
  Lemma violates_spec : forall cs vs, length cs = length vs -> exists b, violates cs vs = inr b /\ (b = false <-> Forall2 holds cs vs).
  Proof.
    induction cs as [|c cs IH]; destruct vs as [|v vs]; intros L; try discriminate; cbn [violates].
    - exists false. split; auto. split; auto.
    - destruct (IH vs) as (b & -> & Hb); [inversion L; auto|]. eexists. split; [reflexivity|]. rewrite orb_false_iff, Hb.
      split.
      + intros [H1 H2]. constructor; auto. unfold holds. destruct (String.eqb c "<="); auto. apply negb_false_iff in H1. auto.
      + intros H. inversion H as [|a b' c' d H1 H2]; subst. split; auto. unfold holds in H1. destruct (String.eqb c "<="); auto. apply negb_false_iff; auto.
  Qed.

  (** The split of a list at the position of the objective. *)
  Lemma split_at : forall {A} (l : list A) n, (n < length l)%nat -> exists pre x post, l = pre ++ x :: post /\ length pre = n.
  Proof.
    intros A l n H. destruct (nth_error l n) as [x|] eqn:E; [|apply nth_error_None in E; lia]. apply nth_error_split in E.
    destruct E as (pre & post & -> & L). eauto.
  Qed.

  (** The score: base part and penalty. *)
  Definition score_of (f : fitness) (x pen : num) : exn + num :=
    match obj_value f with
    | TNone => inr (neg_score x pen)
    | T1 t => hyper t x pen
    | TL _ => inl TypeError
    end.
  Lemma fitness_score_of : forall f i x pen, fkind f = Hyperbola -> obj_score i = SV1 x ->
    get_fitness_score f i pen = match score_of f x pen with inl e => inl e | inr y => inr (SV1 y) end.
  Proof.
    intros f i x pen Fk E. unfold get_fitness_score, score_of. rewrite Fk, E. destruct (obj_value f); auto.
  Qed.

  (** Without penalty (or with fewer than two conditions). *)
  Lemma assess_scalar : forall f gen best x i, fkind f = Hyperbola -> is_conditional f = false ->
    assess f gen best (OScalar x) i = match score_of f x nzero with inl e => inl e | inr y => inr (set_score (SV1 y) (set_obj_score_f (SV1 x) i)) end.
  Proof.
    intros f gen best x i Fk C. unfold assess, check_input. rewrite Fk, C. cbn [is_multi_kind]. cbv zeta.
    rewrite (fitness_score_of f _ x); auto. destruct (score_of f x nzero); reflexivity.
  Qed.
  Lemma assess_tuple : forall f gen best l i, fkind f = Hyperbola -> is_conditional f = false ->
    assess f gen best (OTuple l) i = inl (if 1 <? Z.of_nat (length l) then PyException "number of returned values must be 1" else TypeError).
  Proof.
    intros f gen best l i Fk C. unfold assess, check_input. rewrite Fk, C. cbn [is_multi_kind]. destruct (1 <? Z.of_nat (length l)); auto. cbv zeta.
    unfold get_fitness_score. rewrite Fk. cbn [obj_score set_obj_score_f]. destruct (obj_value f); reflexivity.
  Qed.
  Lemma assess_plain : forall f gen best v i j, fkind f = Hyperbola -> is_conditional f = false -> assess f gen best v i = inr j ->
    exists x y, v = OScalar x /\ score_of f x nzero = inr y /\ j = set_score (SV1 y) (set_obj_score_f (SV1 x) i).
  Proof.
    intros f gen best v i j Fk C H. destruct v as [x|l]; [|rewrite assess_tuple in H; auto; discriminate].
    rewrite assess_scalar in H; auto. destruct (score_of f x nzero) as [|y] eqn:E; [discriminate|]. inversion H. eauto.
  Qed.

  (** With a penalty and at least two conditions. *)
  Definition conditional_on (f : fitness) (p : penalty) (pre post : list string) : Prop :=
    fkind f = Hyperbola /\ is_conditional f = true /\ fpenalty f = Some p /\ conditions f = pre ++ post /\ idx_opt f = [Z.of_nat (length pre)].
  Lemma assess_cond_scalar : forall f p pre post gen best x i, conditional_on f p pre post ->
    assess f gen best (OScalar x) i = inl (PyException "must return more then 1 value").
  Proof. intros f p pre post gen best x i (Fk & C & _). unfold assess, check_input. rewrite Fk, C. reflexivity. Qed.
  Lemma assess_cond_length : forall f p pre post gen best l i, conditional_on f p pre post -> length l <> S (length (pre ++ post)) ->
    assess f gen best (OTuple l) i = inl (PyException "number of returned values").
  Proof.
    intros f p pre post gen best l i (Fk & C & _ & E & _) L. unfold assess, check_input. rewrite Fk, C, E. cbn [is_multi_kind].
    replace (Nat.eqb (length l) (length (pre ++ post) + 1)) with false; auto. symmetry. apply Nat.eqb_neq. lia.
  Qed.
  Lemma assess_cond : forall f p pre post gen best v i j, conditional_on f p pre post -> assess f gen best v i = inr j ->
    exists vpre x vpost pen y, v = OTuple (vpre ++ x :: vpost) /\ length vpre = length pre /\ length vpost = length post /\
      penalty_execute p (pre ++ post) (vpre ++ vpost) gen best = inr pen /\ score_of f x pen = inr y /\
      score j = SV1 y /\ obj_score j = SV1 x /\ genotype j = genotype i /\ phenotype j = phenotype i /\
      (feasible i = true -> (feasible j = true <-> Forall2 holds (pre ++ post) (vpre ++ vpost))).
  Proof.
    intros f p pre post gen best v i j K H. pose proof K as (Fk & C & P & E & Ix).
    destruct v as [x|l]; [rewrite (assess_cond_scalar _ _ _ _ _ _ _ _ K) in H; discriminate|].
    destruct (Nat.eq_dec (length l) (S (length (pre ++ post)))) as [L|L]; [|rewrite (assess_cond_length _ _ _ _ _ _ _ _ K L) in H; discriminate].
    rewrite app_length in L. destruct (split_at l (length pre)) as (vpre & x & vpost & -> & Lp); [lia|]. rewrite app_length in L. cbn [length] in L.
    exists vpre, x, vpost. unfold assess, check_input in H. rewrite Fk, C, P, E in H. cbn [is_multi_kind] in H.
    replace (Nat.eqb _ _) with true in H by (symmetry; apply Nat.eqb_eq; rewrite !app_length; cbn [length]; lia).
    unfold take_obj_score in H. rewrite Fk, Ix in H. cbn [is_multi_kind] in H. rewrite <- Lp, py_pop_app in H. cbn [fst snd] in H.
    destruct (violates_spec (pre ++ post) (vpre ++ vpost)) as (bad & Vb & Hb); [rewrite !app_length; lia|]. rewrite Vb in H.
    destruct (penalty_execute p (pre ++ post) (vpre ++ vpost) gen best) as [|pen] eqn:Pe; [discriminate|]. cbv zeta in H.
    rewrite (fitness_score_of f _ x) in H; auto; [|destruct bad; reflexivity]. destruct (score_of f x pen) as [|y] eqn:Sc; [discriminate|].
    inversion H; subst j. exists pen, y. split; auto. split; auto. split; [lia|]. split; auto. split; auto.
    cbn [score obj_score set_score]. split; auto. split; [destruct bad; auto|]. split; [destruct bad; auto|]. split; [destruct bad; auto|].
    intros Fi. rewrite <- Hb. destruct bad; cbn; [split; discriminate|tauto].
  Qed.
  Definition forallb2_holds (cs : list string) (vs : list num) : bool := match violates cs vs with inr b => negb b | inl _ => false end.
  Lemma assess_cond_exact : forall f p pre post gen best i vpre x vpost, conditional_on f p pre post ->
    length vpre = length pre -> length vpost = length post ->
    assess f gen best (OTuple (vpre ++ x :: vpost)) i =
      match penalty_execute p (pre ++ post) (vpre ++ vpost) gen best with
      | inl e => inl e
      | inr pen => match score_of f x pen with
                   | inl e => inl e
                   | inr y => inr (set_score (SV1 y) (let j := set_obj_score_f (SV1 x) i in if forallb2_holds (pre ++ post) (vpre ++ vpost) then j else set_feasible false j))
                   end
      end.
  Proof.
    intros f p pre post gen best i vpre x vpost (Fk & C & P & E & Ix) L1 L2. unfold assess, check_input. rewrite Fk, C, P, E. cbn [is_multi_kind].
    replace (Nat.eqb _ _) with true by (symmetry; apply Nat.eqb_eq; rewrite !app_length; cbn [length]; lia).
    unfold take_obj_score. rewrite Fk, Ix. cbn [is_multi_kind]. rewrite <- L1, py_pop_app. cbn [fst snd].
    unfold forallb2_holds. destruct (violates_spec (pre ++ post) (vpre ++ vpost)) as (bad & Vb & Hb); [rewrite !app_length; lia|]. rewrite Vb.
    destruct (penalty_execute p (pre ++ post) (vpre ++ vpost) gen best) as [|pen] eqn:Pe; [reflexivity|]. cbv zeta.
    rewrite (fitness_score_of f _ x); auto; [|destruct bad; reflexivity]. destruct (score_of f x pen) as [|y]; [reflexivity|]. destruct bad; reflexivity.
  Qed.
  Lemma new_fitness_cond : forall o t d p conds f cl', new_fitness Hyperbola o t d (PPen p) conds = inr (f, cl') -> is_conditional f = true ->
    exists cl pre post, conds = Some cl /\ cl = pre ++ "optimize"%string :: post /\ ~ In "optimize"%string pre /\ (2 <= length cl)%nat /\
      cl' = Some (pre ++ post) /\ conditional_on f p pre post /\ obj_function f = o /\ obj_value f = t /\ input_data f = d.
  Proof.
    intros o t d p conds f cl' H C. unfold new_fitness in H. destruct conds as [cl|].
    - destruct (Z.of_nat (length cl) <=? 1) eqn:L; [inversion H; subst; discriminate|]. apply Z.leb_gt in L. cbn [is_multi_kind] in H.
      destruct (index_of "optimize" cl) as [i|] eqn:Ei; [|discriminate]. apply index_of_split in Ei. destruct Ei as (pre & post & -> & Hn & -> & R).
      rewrite R in H. inversion H; subst. exists (pre ++ "optimize"%string :: post), pre, post. repeat split; auto. lia.
    - cbn in H. inversion H; subst. discriminate.
  Qed.
  Lemma new_fitness_plain : forall k o t d p conds f cl', new_fitness k o t d p conds = inr (f, cl') ->
    (p = PNone \/ match conds with Some cl => (length cl <= 1)%nat | None => True end) ->
    fkind f = k /\ is_conditional f = false /\ cl' = conds /\ obj_function f = o /\ obj_value f = t /\ input_data f = d.
  Proof.
    intros k o t d p conds f cl' H Hp. unfold new_fitness in H. destruct p as [|p|]; [inversion H; subst; repeat split| |discriminate].
    destruct Hp as [Hp|Hp]; [discriminate|].
    replace (Z.of_nat (length (match conds with None => ["optimize"%string] | Some l => l end)) <=? 1) with true in H.
    - inversion H; subst; repeat split.
    - symmetry. apply Z.leb_le. destruct conds; cbn in *; lia.
  Qed.
End AssessProofs.
