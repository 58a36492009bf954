(** Property C52: scores are penalised by the generation of birth and never again. *)
From Coq Require Import String.
From Coq Require Import ZArith QArith Qpower Qabs List Bool Lia Lqa Permutation.
From Verif Require Import Spec Num State Binary Population GaData Crossover Mutation Selection Penalty Fitness NewGeneration Driver
  ListLemmas Rnd Exec Laws PopulationProofs CrossoverProofs MutationProofs SelectionProofs VegaProofs
  NewGenProofs UpdateProofs FitnessProofs StepProofs RunProofs HistoryProofs Runs AssessProofs PropRun PropBest PropPenalty Demo.
Import ListNotations.
Open Scope list_scope.
Open Scope Z_scope.

(** The individual [i] carries objective [x] and the score with the penalty of
    generation [gen] and best solution [best] for constraint values [vs] that the
    objective returned for its point. *)
Definition penalised_by {NO : NumOps} (f : fitness) (p : penalty) (pre post : list string) (g : gspec) (calls : list (list gv * oval))
    (gen : Z) (best : best_sol) (i : individ) : Prop :=
  exists pt vpre x vpost pen y, spec_point g (genotype i) pt /\ In (pt, OTuple (vpre ++ x :: vpost)) calls /\
    length vpre = length pre /\ length vpost = length post /\
    penalty_execute p (pre ++ post) (vpre ++ vpost) gen best = inr pen /\
    obj_score i = SV1 x /\ score_of f x pen = inr y /\ score i = SV1 y.
Lemma assess_penalised : forall {NO : NumOps} f p pre post g calls gen best v i j,
  conditional_on f p pre post -> assess f gen best v i = inr j -> decoded g i -> In (point g i, v) calls ->
  penalised_by f p pre post g calls gen best j.
Proof.
  intros NO f p pre post g calls gen best v i j K As D Iv.
  destruct (assess_cond _ _ _ _ _ _ _ _ _ K As) as (vpre & x & vpost & pen & y & -> & L1 & L2 & Pe & Sc & Ey & Eo & Eg & Ep & _).
  exists (point g i), vpre, x, vpost, pen, y. split.
  { rewrite Eg. apply decoded_point; auto. }
  auto 10.
Qed.
Lemma penalised_core : forall {NO : NumOps} f p pre post g calls calls' gen best i j, incl calls calls' -> same_core i j ->
  penalised_by f p pre post g calls gen best i -> penalised_by f p pre post g calls' gen best j.
Proof.
  intros NO f p pre post g calls calls' gen best i j Il (C1 & C2 & C3 & C4 & C5) (pt & vpre & x & vpost & pen & y & A1 & A2 & A3 & A4 & A5 & A6 & A7 & A8).
  exists pt, vpre, x, vpost, pen, y. rewrite <- C1, <- C3, <- C4. auto 10.
Qed.
(** A step, with what it starts from. *)
Lemma step_of_run : forall {NO : NumOps} ok, NumOrder NO ok -> forall fuel c gd0 s0, single c -> good_scores ok (c_fitness c) -> started gd0 s0 ->
  forall k c1 gd1 s1 c2 gd2 s2, at_generation fuel c gd0 s0 k c1 gd1 s1 -> ga_step fuel c1 gd1 s1 = Ok (c2, gd2) s2 ->
  GI ok gd1 s1 /\ same_comps c c1 /\ exists kids els h cs l0 bst md w, Step c1 gd1 s1 c2 gd2 s2 kids els h cs l0 bst md w.
Proof.
  intros NO ok NL fuel c gd0 s0 Si Go St k c1 gd1 s1 c2 gd2 s2 A E.
  destruct (gen_inv ok NL fuel c gd0 s0 Si Go St (fun _ _ _ => True)) with (k := k) (c' := c1) (gd' := gd1) (s' := s1) as (G & Sc & _); auto.
  split; auto. split; auto. pose proof Sc as (E1 & E2 & E3 & E4). destruct Si as (Fk & Ng & Ho).
  apply (step_ok ok) in E; auto; try congruence; [|rewrite E1; auto].
  destruct E as (kids & els & h & cs & l0 & bst & md & w & S & _). exists kids, els, h, cs, l0, bst, md, w. exact S.
Qed.

(** C52: the score of an individual born in the step after generation number [k] is,
    at every later moment of the run, the score with the penalty of generation
    [k + 1] and of the best solution at that time. *)
Theorem C52_birth : forall {NO : NumOps} ok, NumOrder NO ok -> forall fuel c gd0 s0 o t d p cl cl',
  single c -> good_scores ok (c_fitness c) -> started gd0 s0 ->
  new_fitness Hyperbola o t d (PPen p) (Some cl) = inr (c_fitness c, cl') -> (2 <= length cl)%nat ->
  exists pre post, cl = pre ++ "optimize"%string :: post /\ ~ In "optimize"%string pre /\
  (* the first generation *)
  (forall c1 gd1 s1 k c2 gd2 s2, at_generation fuel c gd0 s0 0 c1 gd1 s1 -> steps fuel c1 gd1 s1 k c2 gd2 s2 ->
     forall r, In r (members (population gd1)) ->
     penalised_by (c_fitness c) p pre post (gspec_of (population gd0)) (log s2) 0 BNone (heap s2 r)) /\
  (* the later ones *)
  (forall j c1 gd1 s1 c2 gd2 s2 k c3 gd3 s3, at_generation fuel c gd0 s0 j c1 gd1 s1 -> ga_step fuel c1 gd1 s1 = Ok (c2, gd2) s2 ->
     steps fuel c2 gd2 s2 k c3 gd3 s3 ->
     forall r, In r (members (population gd2)) -> ~ In r (members (population gd1)) ->
     idx_generation gd1 = Z.of_nat (S j) /\
     penalised_by (c_fitness c) p pre post (gspec_of (population gd0)) (log s3) (idx_generation gd1) (best_solution gd1) (heap s3 r)).
Proof.
  intros NO ok NL fuel c gd0 s0 o t d p cl cl' Si Go St N L. apply conditional_built in N; auto. destruct N as (pre & post & -> & Hn & K & _).
  exists pre, post. split; auto. split; auto. pose proof (started_init _ _ St) as In0. set (g := gspec_of (population gd0)).
  assert (Later : forall j c1 gd1 s1 k c2 gd2 s2, at_generation fuel c gd0 s0 j c1 gd1 s1 -> steps fuel c1 gd1 s1 k c2 gd2 s2 -> incl (log s1) (log s2)).
  { intros j c1 gd1 s1 k c2 gd2 s2 A S. revert A. induction S as [|k ca ga sa cb gb sb S IH E]; intros A; [apply incl_refl|].
    assert (Aa : at_generation fuel c gd0 s0 (j + k) ca ga sa).
    { destruct A as (gi & si & F & S0). exists gi, si. split; auto. eapply steps_trans; eauto. }
    destruct (step_of_run ok NL fuel c gd0 s0 Si Go St _ _ _ _ _ _ _ Aa E) as (_ & _ & kids & els & h & cs & l0 & bst & md & w & Sp).
    eapply incl_tran; [exact (IH A)|]. rewrite (st_log _ _ _ _ _ _ _ _ _ _ _ _ _ _ Sp). apply incl_appr, incl_refl. }
  split.
  - intros c1 gd1 s1 k c2 gd2 s2 A S r Hr. destruct (C40_immutable ok NL fuel c gd0 s0 Si Go St _ _ _ _ _ _ _ _ A S) as (Im & Al & _).
    destruct (Al r Hr) as [Hl _]. eapply penalised_core; [eapply Later; eauto|exact (Im r Hl)|].
    destruct A as (gd & s & F & S0). inversion S0; subst.
    destruct (first_ok ok (c_fitness c1) gd0 s0 gd1 s1 NL Go (proj1 Si) In0 F) as (cs & l0 & bst & md & w & Fi & _).
    destruct (fi_members _ _ _ _ _ _ _ _ _ _ Fi) as [_ Pm]. apply (Permutation_in _ Pm) in Hr.
    destruct (assessed_in _ _ _ _ _ _ _ _ _ _ (fi_eval _ _ _ _ _ _ _ _ _ _ Fi) Hr) as (v & k' & Iv & _ & Av).
    eapply assess_penalised; eauto.
    + apply (in_fresh _ _ In0 r Hr).
    + rewrite (fi_log _ _ _ _ _ _ _ _ _ _ Fi). apply in_or_app; left. apply -> in_rev. exact Iv.
  - intros j c1 gd1 s1 c2 gd2 s2 k c3 gd3 s3 A E Sx r Hr Hn1.
    destruct (step_of_run ok NL fuel c gd0 s0 Si Go St _ _ _ _ _ _ _ A E) as (G & Sc & kids & els & h & cs & l0 & bst & md & w & Sp).
    assert (A2 : at_generation fuel c gd0 s0 (S j) c2 gd2 s2).
    { destruct A as (gi & si & F & S0). exists gi, si. split; auto. econstructor; eauto. }
    destruct (gen_inv ok NL fuel c gd0 s0 Si Go St (fun _ gd _ => gspec_of (population gd) = g)) with (k := j) (c' := c1) (gd' := gd1) (s' := s1) as (_ & _ & Eg); auto.
    { intros gd s cs0 l1 b1 m1 w1 Fi _. apply (first_params _ _ _ _ _ _ _ _ _ _ Fi). }
    { intros ca ga sa cb gb sb kids0 els0 h0 cs0 l1 b1 m1 w1 _ _ Ea Sq _. rewrite <- Ea. apply (step_params _ _ _ _ _ _ _ _ _ _ _ _ _ _ Sq). }
    split; [rewrite (gen_number ok NL fuel c gd0 s0 Si Go St _ _ _ _ A); lia|].
    destruct (C40_immutable ok NL fuel c gd0 s0 Si Go St _ _ _ _ _ _ _ _ A2 Sx) as (Im & Al & _).
    destruct (Al r Hr) as [Hl _]. eapply penalised_core; [eapply Later; eauto|exact (Im r Hl)|].
    destruct (st_members _ _ _ _ _ _ _ _ _ _ _ _ _ _ Sp) as [_ Pm]. apply (Permutation_in _ Pm) in Hr. apply in_app_or in Hr.
    destruct Hr as [Hr|Hr].
    2:{ exfalso. apply Hn1. destruct (st_els _ _ _ _ _ _ _ _ _ _ _ _ _ _ Sp) as (e & b' & l1 & E1 & E2 & Ie). subst els. apply in_app_or in Hr. destruct Hr as [Hr|[<-|[]]]; auto.
        rewrite E2. apply in_or_app; right; left; auto. }
    destruct (assessed_in _ _ _ _ _ _ _ _ _ _ (st_eval _ _ _ _ _ _ _ _ _ _ _ _ _ _ Sp) Hr) as (v & k' & Iv & _ & Av).
    rewrite Eg in *. rewrite (proj1 Sc) in Av. destruct (st_fresh _ _ _ _ _ _ _ _ _ _ _ _ _ _ Sp r Hr) as [_ D]. rewrite Eg in D.
    eapply assess_penalised; eauto. rewrite (st_log _ _ _ _ _ _ _ _ _ _ _ _ _ _ Sp). apply in_or_app; left. apply -> in_rev. exact Iv.
Qed.

(** *** Exact arithmetic: generation 0 is never penalised *)
Local Existing Instance Qops.
(** The penalties that depend on the generation. *)
Definition growing (p : penalty) : Prop :=
  match p with Dynamic _ _ alpha _ => forall x y : Q, (x == 0)%Q -> alpha x = inr y -> (y == 0)%Q | Adaptive _ _ _ _ => True | Static _ _ _ _ => False end.
Lemma growing_0 : forall p conds (values : list num) best pen, growing p -> penalty_execute p conds values 0 best = inr pen -> (pen == 0)%Q.
Proof.
  intros p conds values best pen G H. unfold penalty_execute in H. destruct (negb _); [discriminate|].
  destruct p as [delta c alpha betta|delta b1 b2 betta|]; cbn [growing] in G; [| |contradiction].
  - destruct (sum_violations betta nzero conds values) as [|sm]; [discriminate|]. destruct (alpha (nmul c (nofZ 0))) as [|y] eqn:Ey; [discriminate|]. apply inr_inj in H. subst pen.
    assert (Z0 : (y == 0)%Q).
    { apply (G (nmul c (nofZ 0))); auto. cbn [nmul nofZ Qops]. change (inject_Z 0) with 0%Q. apply Qmult_0_r. }
    cbn [nmul Qops] in Z0 |- *. rewrite Z0. rewrite Qmult_0_r. apply Qmult_0_l.
  - destruct (sum_violations betta nzero conds values) as [|sm]; [discriminate|]. cbn [Z.eqb] in H. apply inr_inj in H. subst pen. cbn [nmul Qops]. change (@nzero Qops) with 0%Q. rewrite Qmult_0_r. apply Qmult_0_l.
Qed.
(** The score of objective value [x] without any penalty. *)
Definition unpenalised (t : obj_target) (x y : Q) : Prop :=
  match t with TNone => (y == - x)%Q | T1 t => (y == 1 / (1 + Qabs (t - x)))%Q | TL _ => False end.
Lemma score_unpenalised : forall f (x pen y : Q), (pen == 0)%Q -> score_of f x pen = inr y -> unpenalised (obj_value f) x y.
Proof.
  intros f x pen y P H. unfold score_of in H. destruct (obj_value f) as [|t|l]; cbn [unpenalised]; [| |discriminate].
  - apply inr_inj in H. subst y. unfold neg_score. cbn [nopp nadd Qops]. rewrite P. ring.
  - rewrite hyper_Q in H by (rewrite P; apply Qle_refl). apply inr_inj in H. subst y. rewrite nabs_Qabs, P. pose proof (Qabs_nonneg (t - x)). field. lra.
Qed.
(** C52 for the members of the first generation: at every later moment the score is
    the one without penalty, feasible or not. *)
Theorem C52_first_generation : forall fuel c gd0 s0 o t d p cl cl', single c -> started gd0 s0 -> growing p ->
  new_fitness Hyperbola o t d (PPen p) (Some cl) = inr (c_fitness c, cl') -> (2 <= length cl)%nat ->
  forall c1 gd1 s1 k c2 gd2 s2, at_generation fuel c gd0 s0 0 c1 gd1 s1 -> steps fuel c1 gd1 s1 k c2 gd2 s2 ->
  forall r, In r (members (population gd1)) ->
  exists x y, obj_score (heap s2 r) = SV1 x /\ score (heap s2 r) = SV1 y /\ unpenalised t x y.
Proof.
  intros fuel c gd0 s0 o t d p cl cl' Si St Gr N L c1 gd1 s1 k c2 gd2 s2 A S r Hr.
  destruct (C52_birth _ Qorder fuel c gd0 s0 o t d p cl cl' Si (good_scores_any _ (proj1 Si)) St N L) as (pre & post & _ & _ & B & _).
  destruct (B _ _ _ _ _ _ _ A S r Hr) as (pt & vpre & x & vpost & pen & y & _ & _ & _ & _ & Pe & Eo & Sc & Ey).
  apply growing_0 in Pe; auto. exists x, y. split; auto. split; auto.
  assert (Et : obj_value (c_fitness c) = t) by (apply conditional_built in N; auto; destruct N as (? & ? & _ & _ & _ & _ & _ & Et & _); exact Et).
  rewrite <- Et. eapply score_unpenalised; eauto.
Qed.

(** The witness.  Minimise b - 5a with a <= 2; generation 0 contains the infeasible
    point (5, 0).  After eight generations it still is best_solution with its penalty-
    free score 25, although the population contains the feasible point (2, 0) with
    score 10 and the current penalty would make (5, 0) score -47. *)
Definition trap_obj : objfun := Obj1 (fun _ genes =>
  match genes with
  | [GInt a; GInt b] => inr (OTuple [inject_Z (a - 2); inject_Z (b - 5 * a)])
  | _ => inl TypeError
  end).
Definition trap_start : list (list gv) := map ints [[5; 0]; [2; 1]; [1; 1]; [0; 2]; [3; 1]].
Definition trap_cf (p : penalty) : config :=
  mkCfg 8 5 trap_obj TNone None (PPen p) (Some ["<="; "optimize"]%string) (6#10) None trap_start 2 (LFloat (1#2)) "best" false.
Definition trap_pools : list cgen := [CRange 0 6 1; CRange 0 4 1].
Definition adaptive_pen : penalty := Adaptive 2%Q (11#10) (12#10) (natural 1).
Definition best_summary (b : best_sol) : option (list gv * bool * sval * sval * Z) :=
  match b with BSingle i g => Some (genotype i, feasible i, obj_score i, score i, g) | _ => None end.
Definition current_score (f : fitness) (p : penalty) (gd : gadata) (vs : list num) (x : num) : option Q :=
  match penalty_execute p ["<="%string] vs (idx_generation gd - 1) (best_solution gd) with
  | inr pen => match score_of f x pen with inr y => Some (Qred y) | _ => None end
  | _ => None
  end.
Definition trap_fit (p : penalty) : fitness := mkFit Hyperbola trap_obj TNone None (Some p) ["<="%string] true [1].
Example C52_survivor : new_fitness Hyperbola trap_obj TNone None (PPen adaptive_pen) (Some ["<="; "optimize"]%string) = inr (trap_fit adaptive_pen, Some ["<="%string]) /\
  observe (fun r s => (best_summary (best_solution (fst r)), idx_generation (fst r),
      map (fun m => (genotype (heap s m), feasible (heap s m), match score (heap s m) with SV1 x => Some (Qred x) | _ => None end)) (members (population (fst r))),
      current_score (trap_fit adaptive_pen) adaptive_pen (fst r) [3%Q] (-25 # 1)))
    (categorical_ga 50 (trap_cf adaptive_pen) trap_pools fresh_world)
  = Some (Some (ints [5; 0], false, q (-25 # 1), q 25, 0), 8,
      [(ints [3; 3], false, Some (-12 # 1)%Q); (ints [0; 0], true, Some 0%Q); (ints [0; 0], true, Some 0%Q);
       (ints [2; 0], true, Some 10%Q); (ints [3; 1], false, Some 14%Q); (ints [5; 0], false, Some 25%Q)],
      Some (-47 # 1)%Q).
Proof. split; [reflexivity|run]. Qed.

Print Assumptions C52_birth.
Print Assumptions C52_first_generation.
