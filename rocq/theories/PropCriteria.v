(** C99: FFGA does not depend on the order in which the objective lists its criteria, nor
    on how often it lists them. *)
From Coq Require Import String.
From Coq Require Import ZArith QArith List Bool Lia Permutation.
From Verif Require Import Spec Num State Binary Population GaData Crossover Mutation Selection Penalty Fitness NewGeneration Driver
  ListLemmas Rnd Exec Laws PopulationProofs FitnessProofs AssessProofs RelProofs PropRun PropBest PropFitness PropPareto PropSeed PropInvariance Demo.
Import ListNotations.
Open Scope list_scope.
Open Scope Z_scope.

Local Existing Instance Qops.
(** *** What is compared *)
(** The positions [order] of a list, in that order. *)
Definition arrange (order : list nat) (l : list (@num Qops)) : list (@num Qops) := map (fun i => nth i l 0%Q) order.
(** The same objective, its criteria listed as in [order]. *)
Definition arrange_result (order : list nat) (r : exn + @oval Qops) : exn + @oval Qops :=
  match r with inl e => inl e | inr (OScalar x) => inr (OScalar x) | inr (OTuple l) => inr (@OTuple Qops (arrange order l)) end.
Definition arranged (order : list nat) (o : @objfun Qops) : @objfun Qops :=
  match o with
  | Obj1 f => Obj1 (fun k p => arrange_result order (f k p))
  | Obj2 f => Obj2 (fun k d p => arrange_result order (f k d p))
  | Obj12 f f' => Obj12 (fun k p => arrange_result order (f k p)) (fun k d p => arrange_result order (f' k d p))
  end.
(** Each of the [n] criteria is listed, and nothing else. *)
Definition lists_all (n : nat) (order : list nat) : Prop := forall i, In i order <-> (i < n)%nat.
(** Every tuple the objective returns has [n] components. *)
Definition has_criteria (n : nat) (o : @objfun Qops) (d : option pyobj) : Prop :=
  forall k p l, answers o d k p (inr (OTuple l)) -> length l = n.
(** A point, its score and its rank. *)
Definition ranked_point (i : @individ Qops) := (point i, score i, rank i).

(** *** Comparing rearranged tuples *)
Lemma answers_arranged : forall order o d k p r, answers o d k p r -> answers (arranged order o) d k p (arrange_result order r).
Proof. intros order o d k p r H. destruct H; cbn [arranged arrange_result]; constructor. Qed.
Lemma lst_eqb_nth : forall l m : list Q, length l = length m ->
  (@lst_eqb Qops l m = true <-> forall i, (i < length l)%nat -> @neqb Qops (nth i l 0%Q) (nth i m 0%Q) = true).
Proof.
  induction l as [|x l IH]; intros [|y m] L; try discriminate; cbn [lst_eqb length].
  - split; [intros _ i H; lia|auto].
  - injection L as L. rewrite andb_true_iff, IH by auto. split.
    + intros [H K] [|i] Hi; cbn [nth]; [exact H|apply K; lia].
    + intros H. split; [apply (H 0%nat); lia|]. intros i Hi. apply (H (S i)). lia.
Qed.
Section Arranged.
  Variables (n : nat) (order : list nat).
  Hypothesis All : lists_all n order.
  Lemma arrange_eqb : forall l m : list Q, length l = n -> length m = n -> @lst_eqb Qops l m = @lst_eqb Qops (arrange order l) (arrange order m).
  Proof.
    intros l m L K. apply Bool.eq_iff_eq_true. rewrite (lst_eqb_nth l m) by congruence. unfold arrange.
    assert (X : forall js, @lst_eqb Qops (map (fun i => nth i l 0%Q) js) (map (fun i => nth i m 0%Q) js) = true <-> forall i, In i js -> @neqb Qops (nth i l 0%Q) (nth i m 0%Q) = true).
    { induction js as [|j js IH]; cbn [map lst_eqb]; [split; [intros _ i []|auto]|]. rewrite andb_true_iff, IH. split.
      - intros [A B] i [<-|I]; auto.
      - intros A. split; [apply A; left; auto|intros i I; apply A; right; auto]. }
    rewrite X, L. split; intros H i Hi; apply H, All, Hi.
  Qed.
  Definition larger (a b : Q) : Q := if @nltb Qops a b then b else a.
  Lemma max_nth : forall m l : list Q, length l = length m -> exists r, @max_score Qops l m = inr r /\ length r = length l /\ forall i, (i < length l)%nat -> nth i r 0%Q = larger (nth i l 0%Q) (nth i m 0%Q).
  Proof.
    induction m as [|y m IH]; intros [|x l] L; try discriminate; cbn [max_score].
    - exists []. split; auto. split; auto. cbn. intros i H. lia.
    - injection L as L. destruct (IH l L) as (r & E & Lr & N). rewrite E. exists (larger x y :: r). split; auto. split; [cbn [length]; f_equal; exact Lr|]. intros [|i] Hi; cbn [nth length] in *; auto. apply N. apply Nat.succ_lt_mono. exact Hi.
  Qed.
  Lemma max_map : forall (f g : nat -> Q) js, @max_score Qops (map f js) (map g js) = inr (map (fun i => larger (f i) (g i)) js).
  Proof. induction js as [|j js IH]; cbn [map max_score]; auto. rewrite IH. reflexivity. Qed.
  Lemma arrange_max : forall l m : list Q, length l = n -> length m = n -> exists r, @max_score Qops l m = inr r /\ length r = n /\ @max_score Qops (arrange order l) (arrange order m) = inr (arrange order r).
  Proof.
    intros l m L K. destruct (max_nth m l ltac:(congruence)) as (r & E & Lr & N). exists r. split; auto. split; [congruence|]. unfold arrange. etransitivity; [apply (max_map (fun i => nth i l 0%Q) (fun i => nth i m 0%Q))|]. apply (f_equal (@inr exn (list Q))).
    apply map_ext_in. intros i Hi. symmetry. apply N. rewrite L. apply All, Hi.
  Qed.

  (** Corresponding objective values. *)
  Inductive listed : @sval Qops -> @sval Qops -> Prop :=
  | ls_none : listed SVNone SVNone
  | ls_list : forall l, length l = n -> listed (SVL l) (SVL (arrange order l)).
  Lemma listed_eqb : forall v w x y, listed v x -> listed w y -> sv_eqb v w = sv_eqb x y.
  Proof. intros v w x y [|l L] [|m K]; cbn; auto. apply arrange_eqb; auto. Qed.
  Lemma listed_list : forall l m, listed (SVL l) (SVL m) -> length l = n /\ m = arrange order l.
  Proof. intros l m H. inversion H; auto. Qed.
  Lemma listed_max : forall l m l' m' : list (@num Qops), listed (SVL l) (SVL l') -> listed (SVL m) (SVL m') ->
    match max_score l m, max_score l' m' with inl e, inl e' => e = e' | inr a, inr b => lst_eqb a l = lst_eqb b l' /\ lst_eqb a m = lst_eqb b m' | _, _ => False end.
  Proof.
    intros l m l' m' A B. apply listed_list in A. apply listed_list in B. destruct A as [L ->], B as [K ->]. destruct (arrange_max l m L K) as (r & -> & Lr & ->). split; apply arrange_eqb; auto.
  Qed.

  Variables (o : @objfun Qops) (d : option pyobj).
  Hypothesis Len : has_criteria n o (given d).
  Hypothesis Len1 : has_criteria n o None.
  Lemma agree1_arranged : forall h, agree1 h h listed o (arranged order o).
  Proof.
    intros h j genes. destruct (called1 o (j + length h) genes) as [e|v] eqn:C1; destruct (called1 (arranged order o) (j + length h) genes) as [e'|w] eqn:C2;
      apply called1_answers in C1; apply called1_answers in C2; pose proof (answers_fun _ _ _ _ _ _ (answers_arranged order _ _ _ _ _ C1) C2) as X;
      try (destruct v as [x|l]); cbn [arrange_result] in X; inversion X; subst; auto. constructor. eapply Len1; eauto.
  Qed.
  (** FFGA's scores are computed from the ranks. *)
  Lemma agree_arranged : forall h f1 f2, fkind f1 = Ffga -> fkind f2 = Ffga -> is_conditional f1 = false -> is_conditional f2 = false ->
    obj_function f1 = o -> obj_function f2 = arranged order o -> input_data f1 = d -> input_data f2 = d -> agree h h same_num listed f1 f2.
  Proof.
    intros h f1 f2 K1 K2 C1 C2 E1 E2 D1 D2 j genes gen b1 b2 i1 i2 I Sn _.
    destruct (called f1 (j + length h) genes) as [e|v] eqn:A1; destruct (called f2 (j + length h) genes) as [e'|w] eqn:A2;
      apply called_answers in A1; apply called_answers in A2; rewrite E1, D1 in A1; rewrite E2, D2 in A2; pose proof (answers_fun _ _ _ _ _ _ (answers_arranged order _ _ _ _ _ A1) A2) as X;
      try (destruct v as [x|l]); cbn [arrange_result] in X; inversion X; subst; auto; unfold assess, check_input; rewrite K1, K2, C1, C2; [reflexivity|]. cbv zeta.
    unfold get_fitness_score. rewrite K1, K2. cbn [rank set_obj_score_f]. rewrite (ir_rank _ _ _ _ I). cbn [is_multi_kind].
    destruct (rank i2) as [[|x|]|]; try reflexivity. destruct (py_div none_ (nadd none_ x)); cbn [erel]; [reflexivity|]. destruct I. constructor; cbn; auto; [constructor; reflexivity|].
    constructor. eapply Len; eauto.
  Qed.
End Arranged.

(** *** C99 *)
Lemma ffga_related : forall fuel cf gray gens n order t2 s, unpenalised cf -> lists_all n order ->
  has_criteria n (cf_objective cf) (given (cf_input_data cf)) -> has_criteria n (cf_objective cf) None -> clean s ->
  orel (next s) (next s) (log s) (log s) nothing same_num (listed n order) (outrel (next s) (next s) nothing same_num (listed n order) True)
    (optimize fuel cf (FFGA gray gens) s) (optimize fuel (with_task (arranged order (cf_objective cf)) t2 cf) (FFGA gray gens) s).
Proof.
  intros fuel cf gray gens n order t2 s U All Len Len1 C. set (o2 := arranged order (cf_objective cf)). set (O := listed n order). set (R := @same_num Qops).
  assert (O0 : O SVNone SVNone) by constructor.
  assert (H : rel (next s) (next s) (log s) (log s) nothing R O (outrel (next s) (next s) nothing R O True) (ffga fuel cf gray gens) (ffga fuel (with_task o2 t2 cf) gray gens));
    [|exact (H s s (sim_start R O s s O0 C C ltac:(repeat split)))].
  assert (A1 : agree1 (log s) (log s) O (cf_objective cf) o2) by (apply agree1_arranged; auto).
  apply rel_ga_optimize; auto using with_settings, nothing_one, nothing_old; try (unfold R, same_num; congruence); try (intros _; first [apply listed_eqb|apply listed_max]; exact All);
    [right; exact same_num_eq|].
  destruct (fitness_plain Ffga cf o2 t2 U) as [(e & -> & ->)|(e1 & e2 & -> & -> & K1 & A2 & A3 & A4 & A5 & B1 & B2 & B3 & B4 & B5)]; [reflexivity|].
  split; [|cbn [fst snd]; rewrite K1, B1, A3, B3; auto]. cbn [fst]. eapply agree_arranged; eauto.
Qed.
Theorem C99_ffga : forall fuel cf gray gens n order t2 s, unpenalised cf -> lists_all n order ->
  has_criteria n (cf_objective cf) (given (cf_input_data cf)) -> has_criteria n (cf_objective cf) None -> clean s ->
  same_outcome ranked_point s s (optimize fuel cf (FFGA gray gens) s) (optimize fuel (with_task (arranged order (cf_objective cf)) t2 cf) (FFGA gray gens) s).
Proof.
  intros fuel cf gray gens n order t2 s U All Len Len1 C.
  apply (sim_end same_num (listed n order) True); [|apply ffga_related; auto].
  intros i j I. unfold ranked_point. rewrite (irel_point _ _ _ _ I), (ir_rank _ _ _ _ I). do 2 f_equal. apply (vrel_same same_num); [exact same_num_eq|apply I].
Qed.
(** The objective values stored in the second run are the rearranged ones of the first. *)
Definition arrange_value (order : list nat) (v : sval) : sval := match v with SVL l => SVL (arrange order l) | _ => v end.
Theorem C99_recorded : forall fuel cf gray gens n order t2 s gd1 c1 s1 gd2 c2 s2, unpenalised cf -> lists_all n order ->
  has_criteria n (cf_objective cf) (given (cf_input_data cf)) -> has_criteria n (cf_objective cf) None -> clean s ->
  optimize fuel cf (FFGA gray gens) s = Ok (gd1, c1) s1 -> optimize fuel (with_task (arranged order (cf_objective cf)) t2 cf) (FFGA gray gens) s = Ok (gd2, c2) s2 ->
  map (fun r => obj_score (heap s2 r)) (members (population gd2)) = map (fun r => arrange_value order (obj_score (heap s1 r))) (members (population gd1)) /\
  match best_solution gd1, best_solution gd2 with
  | BPareto l g, BPareto m h => map obj_score m = map (fun i => arrange_value order (obj_score i)) l /\ g = h
  | BSingle i g, BSingle j h => obj_score j = arrange_value order (obj_score i) /\ g = h
  | BNone, BNone => True
  | _, _ => False
  end.
Proof.
  intros fuel cf gray gens n order t2 s gd1 c1 s1 gd2 c2 s2 U All Len Len1 C E1 E2. pose proof (ffga_related fuel cf gray gens n order t2 s U All Len Len1 C) as H.
  rewrite E1, E2 in H. destruct H as [[G _] Sm]. cbn [fst] in G.
  assert (X : forall i j, irel same_num (listed n order) i j -> obj_score j = arrange_value order (obj_score i)).
  { intros i j I. pose proof (ir_obj _ _ _ _ I) as Ob. destruct Ob; reflexivity. }
  split.
  - destruct (gr_pop _ _ _ _ _ _ _ _ G) as [Pm _ _ _ _]. clear - Pm Sm X. induction Pm as [|r r' l m Hr F IH]; cbn; auto. f_equal; auto. apply X, Sm, Hr.
  - destruct (gr_sol _ _ _ _ _ _ _ _ G) as [|i j g I|l m g F]; auto. split; auto. clear - F X. induction F as [|i j l m I F IH]; cbn; auto. f_equal; auto.
Qed.
(** Another order of the criteria. *)
Theorem C99_order : forall fuel cf gray gens n order s, unpenalised cf -> Permutation order (seq 0 n) ->
  has_criteria n (cf_objective cf) (given (cf_input_data cf)) -> has_criteria n (cf_objective cf) None -> clean s ->
  same_outcome ranked_point s s (optimize fuel cf (FFGA gray gens) s) (optimize fuel (with_task (arranged order (cf_objective cf)) (cf_obj_value cf) cf) (FFGA gray gens) s).
Proof.
  intros fuel cf gray gens n order s U P Len Len1 C. eapply C99_ffga; eauto. intros i. split; intros H.
  - apply (Permutation_in _ P), in_seq in H. lia.
  - apply (Permutation_in _ (Permutation_sym P)), in_seq. lia.
Qed.
(** A criterion listed a second time. *)
Theorem C99_repeated : forall fuel cf gray gens n c s, unpenalised cf -> (c < n)%nat ->
  has_criteria n (cf_objective cf) (given (cf_input_data cf)) -> has_criteria n (cf_objective cf) None -> clean s ->
  same_outcome ranked_point s s (optimize fuel cf (FFGA gray gens) s) (optimize fuel (with_task (arranged (seq 0 n ++ [c]) (cf_objective cf)) (cf_obj_value cf) cf) (FFGA gray gens) s).
Proof.
  intros fuel cf gray gens n c s U L Len Len1 C. eapply C99_ffga; eauto. intros i. rewrite in_app_iff, in_seq. cbn. lia.
Qed.

(** *** Only the dominance between the values matters *)
(** Whenever the first objective's values at two calls are related by "nowhere larger", so
    are the second one's, and conversely. *)
Definition same_dominance (o1 o2 : objfun) (d : option pyobj) : Prop :=
  forall k p k' p' l l' m m', both_respond o1 o2 d k p l m -> both_respond o1 o2 d k' p' l' m' -> (Forall2 Qle l l' <-> Forall2 Qle m m').
(** They fail alike and return numbers or tuples alike; the tuples may differ in length. *)
Definition same_kind (o1 o2 : objfun) (d : option pyobj) : Prop :=
  forall k p r1 r2, answers o1 d k p r1 -> answers o2 d k p r2 ->
    match r1, r2 with
    | inl e1, inl e2 => e1 = e2
    | inr (OScalar _), inr (OScalar _) => True
    | inr (OTuple _), inr (OTuple _) => True
    | _, _ => False
    end.
Lemma eqb_both : forall l m : list Q, @lst_eqb Qops l m = true <-> Forall2 Qle l m /\ Forall2 Qle m l.
Proof.
  induction l as [|x l IH]; intros [|y m]; cbn [lst_eqb].
  - split; auto.
  - split; [discriminate|intros [H _]; inversion H].
  - split; [discriminate|intros [H _]; inversion H].
  - rewrite andb_true_iff, IH. change (@neqb Qops x y) with (Qeq_bool x y). rewrite Qeq_bool_iff. split.
    + intros [E [A B]]. split; constructor; auto; rewrite E; apply Qle_refl.
    + intros [A B]. inversion A; inversion B; subst. split; auto. apply Qle_antisym; auto.
Qed.
Lemma max_either : forall m l : list Q, length l = length m -> exists r, @max_score Qops l m = inr r /\
  (@lst_eqb Qops r l = true <-> Forall2 Qle m l) /\ (@lst_eqb Qops r m = true <-> Forall2 Qle l m).
Proof.
  induction m as [|y m IH]; intros [|x l] L; try discriminate; cbn [max_score].
  - exists []. split; auto. split; split; auto.
  - injection L as L. destruct (IH l L) as (r & -> & A & B). eexists. split; [reflexivity|]. cbn [lst_eqb]. rewrite !andb_true_iff, A, B.
    change (@nltb Qops x y) with (Qltb x y). change (@neqb Qops) with Qeq_bool. rewrite !Qeq_bool_iff.
    assert (X : Qltb x y = true <-> (x < y)%Q) by apply Qltb_iff. destruct (Qltb x y).
    + assert (K : (x < y)%Q) by (apply X; reflexivity). split; split.
      * intros [E F]. exfalso. rewrite E in K. exact (Qlt_irrefl _ K).
      * intros F. inversion F; subst. exfalso. eapply Qlt_not_le; eauto.
      * intros [E F]. constructor; auto. apply Qlt_le_weak, K.
      * intros F. inversion F; subst. split; auto. reflexivity.
    + assert (K : (y <= x)%Q) by (apply Qnot_lt_le; intros H; apply X in H; discriminate). split; split.
      * intros [E F]. constructor; auto.
      * intros F. inversion F; subst. split; auto. reflexivity.
      * intros [E F]. constructor; auto. rewrite E. apply Qle_refl.
      * intros F. inversion F; subst. split; auto. apply Qle_antisym; auto.
Qed.
Section Dominance.
  Variables (o1 o2 : @objfun Qops) (d : option pyobj) (n1 n2 : nat).
  Hypothesis Dom : same_dominance o1 o2 (given d).
  Hypothesis Kind : same_kind o1 o2 (given d).
  Hypothesis Kind1 : same_kind o1 o2 None.
  Hypothesis Len1 : has_criteria n1 o1 (given d) /\ has_criteria n1 o1 None.
  Hypothesis Len2 : has_criteria n2 o2 (given d) /\ has_criteria n2 o2 None.
  Inductive answered : @sval Qops -> @sval Qops -> Prop :=
  | an_none : answered SVNone SVNone
  | an_list : forall k p l m, both_respond o1 o2 (given d) k p l m -> answered (SVL l) (SVL m).
  Lemma respond_length : forall k p l m, both_respond o1 o2 (given d) k p l m -> length l = n1 /\ length m = n2.
  Proof. intros k p l m [[A B]|[A B]]; split; first [eapply (proj1 Len1); eassumption|eapply (proj2 Len1); eassumption|eapply (proj1 Len2); eassumption|eapply (proj2 Len2); eassumption]. Qed.
  Lemma answered_eqb : forall v w x y, answered v x -> answered w y -> sv_eqb v w = sv_eqb x y.
  Proof.
    intros v w x y [|k p l m H] [|k' p' l' m' K]; cbn [sv_eqb]; auto. apply Bool.eq_iff_eq_true. rewrite !eqb_both. rewrite (Dom _ _ _ _ _ _ _ _ H K), (Dom _ _ _ _ _ _ _ _ K H). reflexivity.
  Qed.
  Lemma answered_list : forall l m, answered (SVL l) (SVL m) -> exists k p, both_respond o1 o2 (given d) k p l m.
  Proof. intros l m H. inversion H; eauto. Qed.
  Lemma answered_max : forall l m l' m' : list (@num Qops), answered (SVL l) (SVL l') -> answered (SVL m) (SVL m') ->
    match max_score l m, max_score l' m' with inl e, inl e' => e = e' | inr a, inr b => lst_eqb a l = lst_eqb b l' /\ lst_eqb a m = lst_eqb b m' | _, _ => False end.
  Proof.
    intros l m l' m' A B. apply answered_list in A. apply answered_list in B. destruct A as (k & p & A), B as (k' & p' & B).
    destruct (respond_length _ _ _ _ A) as [La La'], (respond_length _ _ _ _ B) as [Lb Lb'].
    destruct (max_either m l ltac:(congruence)) as (r & -> & R1 & R2). destruct (max_either m' l' ltac:(congruence)) as (r' & -> & R1' & R2').
    split; apply Bool.eq_iff_eq_true; [rewrite R1, R1'; exact (Dom _ _ _ _ _ _ _ _ B A)|rewrite R2, R2'; exact (Dom _ _ _ _ _ _ _ _ A B)].
  Qed.
  Lemma agree1_answered : forall h, agree1 h h answered o1 o2.
  Proof.
    intros h j genes. destruct (called1 o1 (j + length h) genes) as [e|v] eqn:C1; destruct (called1 o2 (j + length h) genes) as [e'|w] eqn:C2;
      apply called1_answers in C1; apply called1_answers in C2; pose proof (Kind1 _ _ _ _ C1 C2) as X; auto; try (destruct v; contradiction).
    destruct v as [x|l], w as [y|m]; try contradiction; auto. econstructor. right. eauto.
  Qed.
  Lemma agree_answered : forall h f1 f2, fkind f1 = Ffga -> fkind f2 = Ffga -> is_conditional f1 = false -> is_conditional f2 = false ->
    obj_function f1 = o1 -> obj_function f2 = o2 -> input_data f1 = d -> input_data f2 = d -> agree h h same_num answered f1 f2.
  Proof.
    intros h f1 f2 K1 K2 C1 C2 E1 E2 D1 D2 j genes gen b1 b2 i1 i2 I Sn _.
    destruct (called f1 (j + length h) genes) as [e|v] eqn:A1; destruct (called f2 (j + length h) genes) as [e'|w] eqn:A2;
      apply called_answers in A1; apply called_answers in A2; rewrite E1, D1 in A1; rewrite E2, D2 in A2; pose proof (Kind _ _ _ _ A1 A2) as X; auto; try (destruct v; contradiction).
    unfold assess, check_input. rewrite K1, K2, C1, C2. destruct v as [x|l], w as [y|m]; try contradiction; [reflexivity|]. cbv zeta.
    unfold get_fitness_score. rewrite K1, K2. cbn [rank set_obj_score_f]. rewrite (ir_rank _ _ _ _ I). cbn [is_multi_kind].
    destruct (rank i2) as [[|x|]|]; try reflexivity. destruct (py_div none_ (nadd none_ x)); cbn [erel]; [reflexivity|]. destruct I. constructor; cbn; auto; [constructor; reflexivity|].
    econstructor. left. eauto.
  Qed.
End Dominance.
(** FFGA depends on the objective only through the dominance between its values. *)
Theorem C99_dominance : forall fuel cf gray gens o2 t2 n1 n2 s, unpenalised cf ->
  same_dominance (cf_objective cf) o2 (given (cf_input_data cf)) -> same_kind (cf_objective cf) o2 (given (cf_input_data cf)) -> same_kind (cf_objective cf) o2 None ->
  has_criteria n1 (cf_objective cf) (given (cf_input_data cf)) /\ has_criteria n1 (cf_objective cf) None ->
  has_criteria n2 o2 (given (cf_input_data cf)) /\ has_criteria n2 o2 None -> clean s ->
  same_outcome ranked_point s s (optimize fuel cf (FFGA gray gens) s) (optimize fuel (with_task o2 t2 cf) (FFGA gray gens) s).
Proof.
  intros fuel cf gray gens o2 t2 n1 n2 s U Dom Kind Kind1 Len1 Len2 C. set (O := answered (cf_objective cf) o2 (cf_input_data cf)). set (R := @same_num Qops).
  assert (O0 : O SVNone SVNone) by constructor.
  apply (sim_end R O True). { intros i j I. unfold ranked_point. rewrite (irel_point _ _ _ _ I), (ir_rank _ _ _ _ I). do 2 f_equal. apply (vrel_same R); [exact same_num_eq|apply I]. }
  assert (H : rel (next s) (next s) (log s) (log s) nothing R O (outrel (next s) (next s) nothing R O True) (ffga fuel cf gray gens) (ffga fuel (with_task o2 t2 cf) gray gens));
    [|exact (H s s (sim_start R O s s O0 C C ltac:(repeat split)))].
  assert (A1 : agree1 (log s) (log s) O (cf_objective cf) o2) by (apply agree1_answered; auto).
  apply rel_ga_optimize; auto using with_settings, nothing_one, nothing_old; try (unfold R, same_num; congruence);
    try (intros _; first [apply answered_eqb; assumption|eapply answered_max; eassumption]); [right; exact same_num_eq|].
  destruct (fitness_plain Ffga cf o2 t2 U) as [(e & -> & ->)|(e1 & e2 & -> & -> & K1 & A2 & A3 & A4 & A5 & B1 & B2 & B3 & B4 & B5)]; [reflexivity|].
  split; [|cbn [fst snd]; rewrite K1, B1, A3, B3; auto]. cbn [fst]. eapply agree_answered; eauto.
Qed.

(** One more criterion, computed from the others. *)
Definition extend_result (g : list Q -> Q) (r : exn + oval) : exn + oval :=
  match r with inl e => inl e | inr (OScalar x) => inr (OScalar x) | inr (OTuple l) => inr (OTuple (l ++ [g l])) end.
Definition extended (g : list Q -> Q) (o : objfun) : objfun :=
  match o with
  | Obj1 f => Obj1 (fun k p => extend_result g (f k p))
  | Obj2 f => Obj2 (fun k d p => extend_result g (f k d p))
  | Obj12 f f' => Obj12 (fun k p => extend_result g (f k p)) (fun k d p => extend_result g (f' k d p))
  end.
Lemma answers_extended : forall g o d k p r, answers o d k p r -> answers (extended g o) d k p (extend_result g r).
Proof. intros g o d k p r H. destruct H; cbn [extended extend_result]; constructor. Qed.
Lemma extended_back : forall g o d k p r, answers (extended g o) d k p r -> exists r0, answers o d k p r0 /\ r = extend_result g r0.
Proof. intros g o d k p r H. destruct (answers_total o d k p) as [r0 A]. exists r0. split; auto. eapply answers_fun; eauto using answers_extended. Qed.
Lemma kind_extended : forall g o d, same_kind o (extended g o) d.
Proof. intros g o d k p r1 r2 A B. apply extended_back in B. destruct B as (r0 & B & ->). rewrite (answers_fun _ _ _ _ _ _ A B). destruct r0 as [e|[x|l]]; cbn; auto. Qed.
Lemma length_extended : forall g n o d, has_criteria n o d -> has_criteria (S n) (extended g o) d.
Proof.
  intros g n o d H k p l A. apply extended_back in A. destruct A as ([e|[x|l0]] & A & E); cbn in E; inversion E. subst. apply H in A. change (@num Qops) with Q in *. rewrite app_length. cbn [length]. lia.
Qed.
(** A criterion that never decreases when none of the others does is superfluous, for
    instance a sum of some of them, their maximum or a constant. *)
Theorem C99_superfluous : forall fuel cf gray gens g n s, unpenalised cf -> (forall l m, Forall2 Qle l m -> (g l <= g m)%Q) ->
  has_criteria n (cf_objective cf) (given (cf_input_data cf)) -> has_criteria n (cf_objective cf) None -> clean s ->
  same_outcome ranked_point s s (optimize fuel cf (FFGA gray gens) s) (optimize fuel (with_task (extended g (cf_objective cf)) (cf_obj_value cf) cf) (FFGA gray gens) s).
Proof.
  intros fuel cf gray gens g n s U Mono Len Len1 C. apply (C99_dominance fuel cf gray gens _ _ n (S n)); auto using kind_extended, length_extended.
  assert (X : forall d k p l m, answers (cf_objective cf) d k p (inr (OTuple l)) -> answers (extended g (cf_objective cf)) d k p (inr (OTuple m)) -> m = l ++ [g l]).
  { intros d k p l m A B. pose proof (answers_fun _ _ _ _ _ _ (answers_extended g _ _ _ _ _ A) B) as E. inversion E. reflexivity. }
  assert (Y : forall k p l m, both_respond (cf_objective cf) (extended g (cf_objective cf)) (given (cf_input_data cf)) k p l m -> m = l ++ [g l] /\ length l = n)
    by (intros k p l m [[A B]|[A B]]; eauto).
  intros k p k' p' l l' m m' A B. apply Y in A. apply Y in B. destruct A as [-> La], B as [-> Lb]. split; intros H.
  - apply Forall2_app; auto.
  - assert (Z : forall (a b : list Q) x y, length a = length b -> Forall2 Qle (a ++ [x]) (b ++ [y]) -> Forall2 Qle a b).
    { induction a as [|u a IH]; intros [|v b] x y L F; try discriminate; constructor; inversion F; subst; auto. eapply IH; eauto. }
    eapply Z; [|exact H]. congruence.
Qed.

(** VEGA selects parents for one criterion after the other, as they are listed
    (vega_tournament_selection.py:56-58), so there the order matters: the hypotheses of C99_order do not
    make two VEGA runs the same. *)
Definition front_sizes (r : @gadata Qops * option (list string)) (s : @st Qops) : list nat := map (@length nat) (hist_pareto (fst r)).
Lemma same_front_sizes : forall {V} (view : individ -> V) s t o1 o2, same_outcome view s t o1 o2 -> observe front_sizes o1 = observe front_sizes o2.
Proof.
  intros V view s t [[gd1 c1] s1|e1|] [[gd2 c2] t1|e2|] H; cbn in H; try contradiction; auto. destruct H as [_ H]. cbn. f_equal. unfold front_sizes. cbn [fst].
  pose proof (f_equal (map (@length _)) (sc_pareto _ _ _ _ _ _ _ H)) as E. rewrite !map_map in E. etransitivity; [|etransitivity; [exact E|]]; apply map_ext; intros l; rewrite map_length; reflexivity.
Qed.
Definition trade6 : config := trade_cf "best" 6 5.
Definition as_listed (order : list nat) : config := with_task (arranged order (cf_objective trade6)) (cf_obj_value trade6) trade6.
Theorem C99_vega_refuted : exists fuel cf gray gens n order s, unpenalised cf /\ Permutation order (seq 0 n) /\
  has_criteria n (cf_objective cf) (given (cf_input_data cf)) /\ has_criteria n (cf_objective cf) None /\ clean s /\
  ~ same_outcome point s s (optimize fuel cf (VEGA gray gens) s) (optimize fuel (with_task (arranged order (cf_objective cf)) (cf_obj_value cf) cf) (VEGA gray gens) s).
Proof.
  exists 50%nat, trade6, true, two_genes, 2%nat, [1; 0]%nat, wide_world.
  assert (L : has_criteria 2 (cf_objective trade6) None) by (intros k p l A; inversion A; reflexivity).
  split; [left; reflexivity|]. split; [apply perm_swap|]. split; [exact L|]. split; [exact L|]. split; [intros r _; reflexivity|].
  intros H. apply same_front_sizes in H.
  assert (A : observe front_sizes (@optimize Qops 50 trade6 (@VEGA Qops true two_genes) wide_world) = Some [4; 5; 3; 2; 3]%nat) by run.
  assert (B : observe front_sizes (@optimize Qops 50 (with_task (arranged [1; 0]%nat (cf_objective trade6)) (cf_obj_value trade6) trade6) (@VEGA Qops true two_genes) wide_world) = Some [4; 4; 5; 3; 5]%nat) by run.
  rewrite A, B in H. discriminate H.
Qed.

(** *** Concrete runs *)
(** The hypotheses, for the two criteria of [trade_off]. *)
Example C99_meets : unpenalised trade6 /\ has_criteria 2 (cf_objective trade6) None /\ clean wide_world /\ lists_all 2 [1; 0]%nat /\ lists_all 2 [0; 1; 0]%nat /\ ~ lists_all 2 [1]%nat.
Proof.
  split; [left; reflexivity|]. split; [intros k p l A; inversion A; reflexivity|]. split; [intros r _; reflexivity|].
  split; [intros i; cbn; lia|]. split; [intros i; cbn; lia|]. intros H. specialize (H 0%nat). cbn in H. lia.
Qed.
(** C55_case with its criteria swapped, and with the first one listed twice: the
    individuals and their ranks are those of C55_case, the recorded values are rearranged. *)
Example C99_case : observe pareto_view (ffga 50 (as_listed [1; 0]%nat) true two_genes wide_world) =
    Some ([([0; 9], 1); ([3; 6], 1); ([10; 1], 1); ([3; 6], 1); ([3; 6], 1); ([11; 2], 2); ([4; 7], 4); ([3; 12], 5); ([3; 12], 5)]%Q,
          ([SVL [9; 0]%Q; SVL [6; 3]%Q; SVL [1; 10]%Q; SVL [6; 3]%Q; SVL [6; 3]%Q], Some 4),
          [[0; 1; 3; 4]; [14; 15; 16; 17; 0; 1; 3; 4]; [28; 29; 14; 15; 16; 17; 1; 4]; [38; 40; 28; 29; 15]; [38; 40; 28; 29; 15]]%nat, 0) /\
  observe pareto_view (ffga 50 (as_listed [0; 1; 0]%nat) true two_genes wide_world) =
    Some ([([0; 9], 1); ([3; 6], 1); ([10; 1], 1); ([3; 6], 1); ([3; 6], 1); ([11; 2], 2); ([4; 7], 4); ([3; 12], 5); ([3; 12], 5)]%Q,
          ([SVL [0; 9; 0]%Q; SVL [3; 6; 3]%Q; SVL [10; 1; 10]%Q; SVL [3; 6; 3]%Q; SVL [3; 6; 3]%Q], Some 4),
          [[0; 1; 3; 4]; [14; 15; 16; 17; 0; 1; 3; 4]; [28; 29; 14; 15; 16; 17; 1; 4]; [38; 40; 28; 29; 15]; [38; 40; 28; 29; 15]]%nat, 0).
Proof. split; run. Qed.
(** The sum of the two criteria as a third one: C55_case again. *)
Definition total (l : list Q) : Q := Qred (fold_right Qplus 0%Q l).
Example C99_superfluous_meets : forall l m, Forall2 Qle l m -> (total l <= total m)%Q.
Proof. intros l m F. unfold total. rewrite !Qred_correct. induction F as [|x y l m H F IH]; cbn; [apply Qle_refl|apply Qplus_le_compat; auto]. Qed.
Example C99_superfluous_case : observe pareto_view (ffga 50 (with_task (extended total (cf_objective trade6)) TNone trade6) true two_genes wide_world) =
    Some ([([0; 9], 1); ([3; 6], 1); ([10; 1], 1); ([3; 6], 1); ([3; 6], 1); ([11; 2], 2); ([4; 7], 4); ([3; 12], 5); ([3; 12], 5)]%Q,
          ([SVL [0; 9; 9]%Q; SVL [3; 6; 9]%Q; SVL [10; 1; 11]%Q; SVL [3; 6; 9]%Q; SVL [3; 6; 9]%Q], Some 4),
          [[0; 1; 3; 4]; [14; 15; 16; 17; 0; 1; 3; 4]; [28; 29; 14; 15; 16; 17; 1; 4]; [38; 40; 28; 29; 15]; [38; 40; 28; 29; 15]]%nat, 0).
Proof. run. Qed.
(** Leaving out a criterion gives another run. *)
Example C99_left_out : observe pareto_view (ffga 50 (as_listed [1]%nat) true two_genes wide_world) =
    Some ([([10; 1], 1); ([6; 3], 2); ([7; 4], 3); ([7; 4], 3); ([2; 11], 5)]%Q, ([SVL [1]%Q], Some 4), [[0; 3]; [17]; [26; 27; 29; 17]; [38]; [38]]%nat, 0).
Proof. run. Qed.

Print Assumptions C99_ffga.
Print Assumptions C99_recorded.
Print Assumptions C99_order.
Print Assumptions C99_repeated.
Print Assumptions C99_dominance.
Print Assumptions C99_superfluous.
Print Assumptions C99_vega_refuted.
