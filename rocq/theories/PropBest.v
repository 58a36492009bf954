(** best_solution is the best point ever evaluated (C37), and the feasible flag of
    every member is exact (C42). *)
From Coq Require Import String.
From Coq Require Import ZArith QArith Qabs List Bool Lia Lqa Permutation Sorted.
From Verif Require Import Spec Num State Binary Population GaData Crossover Mutation Selection Penalty Fitness NewGeneration Driver
  ListLemmas Rnd Exec Laws PopulationProofs CrossoverProofs MutationProofs SelectionProofs VegaProofs
  NewGenProofs UpdateProofs FitnessProofs StepProofs RunProofs HistoryProofs Runs AssessProofs PropRun Demo.
Import ListNotations.
Open Scope list_scope.
Open Scope Z_scope.

(** C37 for any arithmetic.  [calls] are the calls of the objective made during the
    run.  best_solution lies at a point of one of them, has the returned value as its
    objective score and the score computed from it, and no call led to a higher
    score. *)
Theorem C37_best_of_all : forall {NO : NumOps} ok, NumOrder NO ok -> forall fuel c gd0 s0,
  single c -> good_scores ok (c_fitness c) -> started gd0 s0 -> is_conditional (c_fitness c) = false ->
  forall k c' gd' s', at_generation fuel c gd0 s0 k c' gd' s' ->
  exists calls i g pt x y, log s' = calls ++ log s0 /\ best_solution gd' = BSingle i g /\
    spec_point (gspec_of (population gd0)) (genotype i) pt /\ In (pt, OScalar x) calls /\
    obj_score i = SV1 x /\ score i = SV1 y /\ score_of (c_fitness c) x nzero = inr y /\ ok y /\
    forall pt' v, In (pt', v) calls -> exists z w, v = OScalar z /\ score_of (c_fitness c) z nzero = inr w /\ ok w /\ nltb y w = false.
Proof.
  intros NO ok NL fuel c gd0 s0 Si Go St Nc k c' gd' s' H. set (f := c_fitness c) in *. set (g := gspec_of (population gd0)).
  pose proof (started_init _ _ St) as In0. pose proof Si as (Fk & _).
  destruct (gen_inv ok NL fuel c gd0 s0 Si Go St (fun c gd s => just_inv f g (log s0) c gd s /\ top_inv ok f g (log s0) c gd s))
    with (k := k) (c' := c') (gd' := gd') (s' := s') as (_ & _ & (Eg & cs & El & _ & i & gi & Eb & D & v & gen & best & i0 & j & Iv & Fr & As & Co) &
      (cs' & i' & gi' & y' & El' & Eb' & Ei' & Oy' & K)); auto.
  - intros gd s cs l0 bst md w F G. split; [eapply just_inv_first; eauto|eapply top_inv_first; eauto].
  - intros c1 gd1 s1 c2 gd2 s2 kids els h cs l0 bst md w Sc G1 [I1 I2] S G2. pose proof Sc as (E1 & _). split.
    + apply (just_inv_step ok f g (log s0) _ _ _ _ _ _ _ _ _ _ _ _ _ _ E1 G1 I1 S).
    + apply (top_inv_step ok NL f g (log s0) _ _ _ _ _ _ _ _ _ _ _ _ _ _ E1 (proj1 I1) G1 G2 I2 S).
  - rewrite El in El'. apply app_inv_tail in El'. subst cs'. rewrite Eb in Eb'. inversion Eb'; subst i' gi'. clear Eb'.
    destruct (assess_plain f gen best v i0 j Fk Nc As) as (x & y & -> & Sy & ->). destruct Co as (C1 & C2 & C3 & C4 & C5). cbn in C3, C4.
    exists cs, i, gi, (point g i), x, y. split; auto. split; auto. split; [apply decoded_point; auto|]. split; auto. split; [congruence|]. split; [congruence|]. split; auto.
    rewrite Ei' in C3. inversion C3; subst y'. split; auto. intros pt' v' Hv. destruct (K _ Hv) as (gen' & best' & i1 & j1 & w & _ & As1 & Ew & Ow & Nw). cbn [snd] in As1.
    destruct (assess_plain f gen' best' v' i1 j1 Fk Nc As1) as (z & w' & -> & Sw & ->). cbn in Ew. inversion Ew; subst w'. eauto 6.
Qed.

(** *** Exact arithmetic: better means smaller, or closer to the target *)
Local Existing Instance Qops.
Lemma nabs_Qabs : forall x : Q, (nabs x == Qabs x)%Q.
Proof.
  intros x. cbn. destruct (Qltb x 0) eqn:E.
  - apply Qltb_iff in E. rewrite Qabs_neg by lra. reflexivity.
  - apply Qltb_iff_f in E. rewrite Qabs_pos by lra. reflexivity.
Qed.
Lemma nabs_nonneg : forall x : Q, (0 <= nabs x)%Q.
Proof. intros x. rewrite nabs_Qabs. apply Qabs_nonneg. Qed.
Lemma hyper_Q : forall t x pen : Q, (0 <= pen)%Q -> hyper t x pen = inr (1 / (1 + nabs (t - x) + pen))%Q.
Proof.
  intros t x pen Hp. unfold hyper, py_div. cbn [neqb Qops nadd nsub none_ nofZ nzero ndiv_raw].
  destruct (Qeq_bool _ _) eqn:E; [|reflexivity]. apply Qeq_bool_iff in E. exfalso. pose proof (nabs_nonneg (t - x)%Q) as N.
  change (inject_Z 1) with 1%Q in E. change (inject_Z 0) with 0%Q in E. lra.
Qed.
Lemma inverse_mono : forall a b : Q, (1 <= a)%Q -> (1 <= b)%Q -> (1 / a <= 1 / b)%Q -> (b <= a)%Q.
Proof.
  intros a b Ha Hb H. apply Qnot_lt_le. intros C. apply (Qlt_irrefl (1 / a)). eapply Qle_lt_trans; [exact H|].
  apply Qlt_shift_div_l; [lra|]. setoid_replace (1 / b * a)%Q with (a / b)%Q by (field; lra). apply Qlt_shift_div_r; lra.
Qed.
Lemma inr_inj : forall {A B} (a b : B), @inr A B a = inr b -> a = b.
Proof. intros A B a b H. inversion H. reflexivity. Qed.
Definition no_better (t : obj_target) (z x : Q) : Prop :=
  match t with TNone => (x <= z)%Q | T1 t => (Qabs (t - x) <= Qabs (t - z))%Q | TL _ => False end.
Lemma score_no_better : forall f x z y w, score_of f x nzero = inr y -> score_of f z nzero = inr w -> nltb y w = false ->
  no_better (obj_value f) z x.
Proof.
  intros f x z y w Sx Sz H. apply Qltb_iff_f in H. unfold score_of in *. destruct (obj_value f) as [|t|l]; cbn [no_better]; [| |discriminate].
  - inversion Sx; inversion Sz; subst. unfold neg_score in H. cbn in H. change (nofZ 0) with 0%Q in H. lra.
  - unfold nzero in *. change (nofZ 0) with 0%Q in *. rewrite hyper_Q in Sx by lra. rewrite hyper_Q in Sz by lra. apply inr_inj in Sx. apply inr_inj in Sz. subst y w.
    rewrite <- !nabs_Qabs. pose proof (nabs_nonneg (t - x)%Q) as A. pose proof (nabs_nonneg (t - z)%Q) as B.
    revert H A B. generalize (nabs (t - x)%Q) (nabs (t - z)%Q). clear. change (@num Qops) with Q. intros a b H A B. apply inverse_mono in H; lra.
Qed.
Theorem C37_best_point : forall fuel cf g sel ck mk s gd' cl s', objectives_ok sel -> cf_penalty cf = PNone ->
  ga_optimize fuel cf false g Hyperbola sel ck mk false s = Ok (gd', cl) s' ->
  exists calls i gen gs pt x, log s' = calls ++ log s /\ prepare g = inr gs /\
    best_solution gd' = BSingle i gen /\ spec_point gs (genotype i) pt /\ In (pt, OScalar x) calls /\ obj_score i = SV1 x /\
    forall pt' v, In (pt', v) calls -> exists z, v = OScalar z /\ no_better (cf_obj_value cf) z x.
Proof.
  intros fuel cf g sel ck mk s gd' cl s' Ho Pn H. apply optimize_run in H; [|repeat split; auto].
  destruct H as (p & s1 & p' & s2 & f & m & ng & c' & Sp & _ & Fi & Nf & _ & _ & L & _ & Si & St & R). apply run_ends in R. destruct R as (k & A).
  rewrite Pn in Nf. destruct (new_fitness_plain _ _ _ _ _ _ _ _ Nf (or_introl eq_refl)) as (Fk & Nc & _ & _ & Ev & _).
  destruct (C37_best_of_all _ Qorder _ _ _ _ Si (good_scores_any _ (proj1 Si)) St Nc _ _ _ _ A)
    as (calls & i & gi & pt & x & y & El & Eb & Sp' & Iv & Eo & Es & Sy & _ & K).
  exists calls, i, gi, (gspec_of p'), pt, x. split; [rewrite <- L; exact El|]. split.
  { apply set_params_inv in Sp. destruct Sp as [_ ->]. apply fill_ok in Fi. destruct Fi as (g' & Pg & Q). cbv zeta in Q. destruct Q as (-> & _). exact Pg. }
  split; auto. split; auto. split; auto. split; auto.
  intros pt' v Hv. destruct (K _ _ Hv) as (z & w & -> & Sw & _ & Nw). exists z. split; auto. rewrite <- Ev. cbn [c_fitness] in *. eapply score_no_better; eauto.
Qed.
(** The run of C36_case: every call with the value it returned; the best is 1. *)
Example C37_case : observe (fun r s => (match best_solution (fst r) with BSingle i g => Some (genotype i, obj_score i, g) | _ => None end,
      existsb (fun cv => match snd cv with OScalar x => Qltb x 1 | _ => true end) (log s)))
    (categorical_ga 50 (demo_cf (LFloat (1#2)) 5 6 None) pools fresh_world)
  = Some (Some (ints [2; 0; 1], q 1, 3), false).
Proof. run. Qed.

(** *** C42 *)
Lemma app_inj_len : forall {A} (a b c d : list A), a ++ b = c ++ d -> length a = length c -> a = c /\ b = d.
Proof.
  induction a as [|x a IH]; intros b [|y c] d E L; try discriminate L; cbn in *; auto.
  inversion E; subst. destruct (IH b c d) as [-> ->]; auto.
Qed.
(** Values against conditions, in the caller's order: the value at the position of the
    objective is skipped. *)
Definition all_hold {NO : NumOps} (pre post : list string) (vpre vpost : list num) : Prop :=
  Forall2 holds pre vpre /\ Forall2 holds post vpost.
Lemma all_hold_app : forall {NO : NumOps} pre post vpre vpost, length vpre = length pre ->
  (Forall2 holds (pre ++ post) (vpre ++ vpost) <-> all_hold pre post vpre vpost).
Proof.
  intros NO pre post vpre vpost L. unfold all_hold. split.
  - intros F. apply Forall2_app_inv_l in F. destruct F as (l1 & l2 & F1 & F2 & E2).
    assert (length vpre = length l1) as L3 by (apply Forall2_length in F1; congruence).
    destruct (app_inj_len _ _ _ _ E2 L3) as [-> ->]. auto.
  - intros [F1 F2]. apply Forall2_app; auto.
Qed.
Lemma conditional_built : forall {NO : NumOps} o t d p cl f cl', new_fitness Hyperbola o t d (PPen p) (Some cl) = inr (f, cl') -> (2 <= length cl)%nat ->
  exists pre post, cl = pre ++ "optimize"%string :: post /\ ~ In "optimize"%string pre /\ conditional_on f p pre post /\
    cl' = Some (pre ++ post) /\ obj_function f = o /\ obj_value f = t /\ input_data f = d.
Proof.
  intros NO o t d p cl f cl' N L.
  assert (Ic : is_conditional f = true).
  { unfold new_fitness in N. replace (Z.of_nat (length cl) <=? 1) with false in N by (symmetry; apply Z.leb_gt; lia). cbn [is_multi_kind] in N.
    destruct (index_of "optimize" cl); inversion N; reflexivity. }
  apply new_fitness_cond in N; auto. destruct N as (cl0 & pre & post & E & -> & Hn & _ & -> & K & K2). inversion E; subst cl. exists pre, post. auto.
Qed.
(** C42 for one evaluation of an individual that is not marked infeasible yet: after it
    the individual is feasible iff every condition holds.  [cl] is the caller's list of
    conditions. *)
Theorem C42_evaluation : forall {NO : NumOps} o t d p cl f cl' gen best r s u s',
  new_fitness Hyperbola o t d (PPen p) (Some cl) = inr (f, cl') -> (2 <= length cl)%nat ->
  score (heap s r) = SVNone -> feasible (heap s r) = true -> evaluate f gen best r s = Ok u s' ->
  exists pre post vpre x vpost, cl = pre ++ "optimize"%string :: post /\ ~ In "optimize"%string pre /\
    length vpre = length pre /\ length vpost = length post /\
    log s' = (genotype (heap s r), OTuple (vpre ++ x :: vpost)) :: log s /\
    (feasible (heap s' r) = true <-> all_hold pre post vpre vpost).
Proof.
  intros NO o t d p cl f cl' gen best r s u s' N L Un Fe H. apply conditional_built in N; auto. destruct N as (pre & post & -> & Hn & K & _).
  apply evaluate_ok in H. destruct H as [[C _]|(_ & v & Cv & As & Lg & _)]; [rewrite Un in C; discriminate|].
  destruct (assess_cond _ _ _ _ _ _ _ _ _ K As) as (vpre & x & vpost & pen & y & -> & L1 & L2 & _ & _ & _ & _ & _ & _ & Hf).
  exists pre, post, vpre, x, vpost. split; auto. split; auto. split; auto. split; auto. split; auto. rewrite (Hf Fe). apply all_hold_app; auto.
Qed.
(** C42 for a whole run: at every generation every member, and best_solution, is
    feasible iff the values the objective returned for its point during the run satisfy
    the conditions. *)
Theorem C42_run : forall {NO : NumOps} ok, NumOrder NO ok -> forall fuel c gd0 s0 o t d p cl cl',
  single c -> good_scores ok (c_fitness c) -> started gd0 s0 ->
  new_fitness Hyperbola o t d (PPen p) (Some cl) = inr (c_fitness c, cl') -> (2 <= length cl)%nat ->
  exists pre post, cl = pre ++ "optimize"%string :: post /\ ~ In "optimize"%string pre /\
  forall k c' gd' s', at_generation fuel c gd0 s0 k c' gd' s' ->
  exists calls bst n, log s' = calls ++ log s0 /\ best_solution gd' = BSingle bst n /\
    forall i, i = bst \/ (exists r, In r (members (population gd')) /\ heap s' r = i) ->
    exists pt vpre x vpost, spec_point (gspec_of (population gd0)) (genotype i) pt /\ In (pt, OTuple (vpre ++ x :: vpost)) calls /\
      length vpre = length pre /\ length vpost = length post /\ obj_score i = SV1 x /\
      (feasible i = true <-> all_hold pre post vpre vpost).
Proof.
  intros NO ok NL fuel c gd0 s0 o t d p cl cl' Si Go St N L. apply conditional_built in N; auto. destruct N as (pre & post & -> & Hn & K & _).
  exists pre, post. split; auto. split; auto. intros k c' gd' s' H. set (f := c_fitness c) in *. set (g := gspec_of (population gd0)).
  pose proof (started_init _ _ St) as In0.
  destruct (gen_inv ok NL fuel c gd0 s0 Si Go St (fun c gd s => just_inv f g (log s0) c gd s)) with (k := k) (c' := c') (gd' := gd') (s' := s')
    as (_ & _ & (Eg & cs & El & Jm & b & n & Eb & Jb)); auto.
  - intros gd s cs l0 bst md w F G. eapply just_inv_first; eauto.
  - intros c1 gd1 s1 c2 gd2 s2 kids els h cs l0 bst md w Sc G1 I1 S G2. pose proof Sc as (E1 & _).
    apply (just_inv_step ok f g (log s0) _ _ _ _ _ _ _ _ _ _ _ _ _ _ E1 G1 I1 S).
  - exists cs, b, n. split; auto. split; auto. intros i Hi.
    assert (J : justified f g cs i) by (destruct Hi as [->|(r & Ir & <-)]; auto). clear - J K.
    destruct J as (D & v & gen & best & i0 & j & Iv & Fr & As & Co). destruct Fr as (_ & _ & Fe & _).
    destruct (assess_cond _ _ _ _ _ _ _ _ _ K As) as (vpre & x & vpost & pen & y & -> & L1 & L2 & _ & _ & _ & Eo & _ & _ & Hf).
    destruct Co as (C1 & C2 & C3 & C4 & C5). exists (point g i), vpre, x, vpost. split; [apply decoded_point; auto|]. split; auto. split; auto. split; auto. split; [congruence|].
    rewrite <- C5, (Hf Fe). apply all_hold_app; auto.
Qed.
(** What a condition means for exact arithmetic. *)
Theorem C42_meaning : forall c (v : Q), @holds Qops c v <-> (if String.eqb c "<=" then v <= 0 else v == 0)%Q.
Proof.
  intros c v. unfold holds. destruct (String.eqb c "<="); [|apply Qeq_bool_iff].
  cbn. rewrite Qltb_iff_f. reflexivity.
Qed.
(** An objective with two conditions: a <= 2 and b = 5. *)
Definition cond_obj : objfun := Obj1 (fun _ genes =>
  match genes with
  | [GInt a; GInt b; GInt c] => inr (OTuple [inject_Z (a - 2); inject_Z (a + b + c); inject_Z (b - 5)])
  | _ => inl TypeError
  end).
Definition cond_list : list string := ["<="; "optimize"; "!="]%string.
Definition cond_cf (p : penalty) : config :=
  mkCfg 6 5 cond_obj TNone None (PPen p) (Some cond_list) (6#10) None [] 2 (LFloat (1#2)) "best" false.
Definition cond_fit (p : penalty) : fitness := mkFit Hyperbola cond_obj TNone None (Some p) ["<="; "!="]%string true [1].
Example C42_evaluation_case : new_fitness Hyperbola cond_obj TNone None (PPen (Dynamic 2%Q (1#2) (natural 2) (natural 1))) (Some cond_list)
    = inr (cond_fit (Dynamic 2%Q (1#2) (natural 2) (natural 1)), Some ["<="; "!="]%string) /\
  observe (fun _ s => (map (fun r => (feasible (heap s r), obj_score (heap s r), score (heap s r))) [0; 1]%nat, log s))
    ((evaluate (cond_fit (Dynamic 2%Q (1#2) (natural 2) (natural 1))) 3 BNone 0 ;;; evaluate (cond_fit (Dynamic 2%Q (1#2) (natural 2) (natural 1))) 3 BNone 1)
      (world [ind (ints [2; 5; 1]) SVNone; ind (ints [3; 0; 2]) SVNone] []))
  = Some ([(true, q 8, q (-(32#4))); (false, q 5, q (-(128#4)))],
          [(ints [3; 0; 2], OTuple (map inject_Z [1; 5; -5])); (ints [2; 5; 1], OTuple (map inject_Z [0; 8; 0]))]).
Proof. split; [reflexivity|run]. Qed.
Example C42_run_case : observe (fun r s => (map (fun m => (genotype (heap s m), feasible (heap s m))) (members (population (fst r))), snd r, length (log s)))
    (categorical_ga 50 (cond_cf (Dynamic 2%Q (1#2) (natural 2) (natural 1))) pools fresh_world)
  = Some ([(ints [0; 0; 1], false); (ints [1; 7; 1], false); (ints [1; 5; 2], true);
           (ints [1; 5; 1], true); (ints [1; 5; 1], true); (ints [1; 0; 1], false)], Some ["<="; "!="]%string, 20%nat).
Proof. run. Qed.

Print Assumptions C37_best_of_all.
Print Assumptions C37_best_point.
Print Assumptions C42_evaluation.
Print Assumptions C42_run.
Print Assumptions C42_meaning.
