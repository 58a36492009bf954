(** The score and the decoding in IEEE double arithmetic (C05, C41), and the ranks of the
    multi-objective algorithms (the hypothesis [counting] of C53-C56 for doubles). *)
From Coq Require Import String.
From Coq Require Import ZArith QArith Qabs Qreals Reals Bool List Lia Lra Floats.SpecFloat.
From Flocq Require Import Core IEEE754.BinarySingleNaN.
From Verif Require Import Spec Num State Binary Population GaData Crossover Mutation Selection Penalty Fitness NewGeneration Driver Laws Float
  BinaryProofs CodingProofs PopulationProofs AssessProofs FitnessProofs SelectionProofs VegaProofs StepProofs RunProofs Runs RankingProofs MultiProofs MultiRuns Demo FloatProofs FloatDecode PropRun PropBest
  PropPareto.
Import ListNotations.
Open Scope Z_scope.
Local Existing Instance Fops.
Local Existing Instance prec_pos.
Local Existing Instance prec_emax.

(** *** C41 with doubles *)
(** A penalty: a double that is at least 0 (infinity allowed, NaN excluded). *)
Definition penalty_value (p : spec_float) : Prop := double p /\ SFleb (S754_zero false) p = true.
Lemma penalty_bin : forall p, penalty_value p -> exists b : bin, B2SF b = p /\ above 0 b.
Proof.
  intros p [D L]. destruct (double_bin p D) as [b E]. exists b. split; auto. subst p.
  destruct b as [s|s| |s m e ?]; try discriminate L.
  - right. split; [reflexivity|cbn; lra].
  - destruct s; [discriminate L|now left].
  - destruct s; [discriminate L|]. right. split; [reflexivity|]. cbn. apply F2R_ge_0. cbn. lia.
Qed.
(** The denominator 1 + |t - x| + pen as a double. *)
Definition denom (t x p : bin) : bin := Bplus mode_NE (Bplus mode_NE one (Babs (Bminus mode_NE t x))) p.
Lemma dist_above : forall t x : bin, is_finite t = true -> is_finite x = true -> above 0 (Babs (Bminus mode_NE t x)).
Proof.
  intros t x Ft Fx. apply near_above with (x := Rabs (B2R t - B2R x)).
  - apply near_abs. now apply near_minus.
  - apply rnd_0.
  - pose proof top_pos. lra.
  - apply Rabs_pos.
Qed.
Lemma dist_mono : forall t x1 x2 : bin, is_finite t = true -> is_finite x1 = true -> is_finite x2 = true ->
  (Rabs (B2R t - B2R x1) <= Rabs (B2R t - B2R x2))%R -> Bleb (Babs (Bminus mode_NE t x1)) (Babs (Bminus mode_NE t x2)) = true.
Proof. intros t x1 x2 Ft F1 F2 L. eapply near_le; [apply near_abs, near_minus; auto|apply near_abs, near_minus; auto|exact L]. Qed.
Lemma denom_above : forall t x p : bin, is_finite t = true -> is_finite x = true -> above 0 p -> above 1 (denom t x p).
Proof.
  intros t x p Ft Fx P. unfold denom. apply plus_above; auto using rnd_1; [lra|]. apply plus_above; auto using rnd_1, above_one; [lra|].
  now apply dist_above.
Qed.
Lemma above_nonzero : forall v : bin, above 1 v -> SFeqb (B2SF v) (S754_zero false) = false.
Proof.
  intros v [->|[F L]]; [reflexivity|]. destruct v as [s|s| |s m e ?]; try discriminate F; [cbn in L; lra|]. destruct s; reflexivity.
Qed.
Lemma hyper_double : forall t x p : bin, is_finite t = true -> is_finite x = true -> above 0 p ->
  hyper (B2SF t) (B2SF x) (B2SF p) = inr (B2SF (Bdiv mode_NE one (denom t x p))).
Proof.
  intros t x p Ft Fx P. unfold hyper, py_div. rewrite one_same. cbn [nadd nsub nabs ndiv_raw neqb Fops].
  rewrite sub_same, abs_same, !add_same. fold (denom t x p). change (@nzero Fops) with (S754_zero false).
  rewrite above_nonzero by now apply denom_above. now rewrite div_same.
Qed.
Lemma value_dist : forall t x : bin, Q2R (Qabs (f_val (B2SF t) - f_val (B2SF x))) = Rabs (B2R t - B2R x).
Proof.
  intros t x. rewrite !val_real. set (a := f_val _). set (b := f_val _). rewrite <- Q2R_minus. generalize (a - b)%Q. intros q.
  destruct (Qlt_le_dec q 0) as [L|L].
  - rewrite (Qeq_eqR _ _ (Qabs_neg q (Qlt_le_weak _ _ L))), Q2R_opp. apply Qlt_Rlt in L. rewrite RMicromega.Q2R_0 in L. rewrite Rabs_left; lra.
  - rewrite (Qeq_eqR _ _ (Qabs_pos q L)). apply Qle_Rle in L. rewrite RMicromega.Q2R_0 in L. rewrite Rabs_pos_eq; lra.
Qed.

(** With a target the score is a double of [0, 1], and it is 1 at the target without penalty. *)
Theorem C41_double_range : forall f i t x pen, fkind f = Hyperbola -> obj_value f = T1 t -> obj_score i = SV1 x ->
  finite t -> finite x -> penalty_value pen ->
  exists y, get_fitness_score f i pen = inr (SV1 y) /\ double y /\
    SFleb (S754_zero false) y = true /\ SFleb y none_ = true /\
    ((f_val t == f_val x)%Q -> SFeqb pen (S754_zero false) = true -> y = none_).
Proof.
  intros f i t x pen Fk Et Ex Ht Hx Hp.
  destruct (finite_bin t Ht) as (tb & <- & Ft). destruct (finite_bin x Hx) as (xb & <- & Fx). destruct (penalty_bin pen Hp) as (pb & <- & Ap).
  rewrite (fitness_score_of f i (B2SF xb)) by auto. unfold score_of. rewrite Et, hyper_double by auto.
  eexists. split; [reflexivity|]. split; [apply bin_double|].
  pose proof (denom_above tb xb pb Ft Fx Ap) as D. destruct (inv_range _ D) as [A L]. split; [|split].
  - change (Bleb (B754_zero false) (Bdiv mode_NE one (denom tb xb pb)) = true). apply above_le; auto; [right; split; [reflexivity|cbn; lra]|].
    destruct A as [->|[Fd Ld]]; [now left|]. right. repeat split; auto.
  - rewrite one_same. exact L.
  - intros E Ez. rewrite one_same. f_equal.
    assert (Er : B2R tb = B2R xb) by (rewrite !val_real; now apply Qeq_eqR).
    assert (Ed : B2R (Bminus mode_NE tb xb) = 0%R /\ is_finite (Bminus mode_NE tb xb) = true).
    { destruct (near_minus tb xb Ft Fx) as [(_ & F1 & E1)|[[C _]|[C _]]].
      - split; auto. rewrite E1, Er, Rminus_diag_eq, rnd_0 by auto. reflexivity.
      - rewrite Er, Rminus_diag_eq, rnd_0 in C by auto. pose proof top_pos. lra.
      - rewrite Er, Rminus_diag_eq, rnd_0 in C by auto. pose proof top_pos. lra. }
    destruct Ed as [E0 F0].
    assert (Z : exists s, Bminus mode_NE tb xb = B754_zero s).
    { destruct (Bminus mode_NE tb xb) as [s|s| |s m e ?]; try discriminate F0; [now exists s|]. cbn in E0. apply eq_0_F2R in E0. destruct s; discriminate E0. }
    destruct Z as [s Z]. assert (Zp : exists s', pb = B754_zero s').
    { destruct pb as [s'|s'| |s' m e ?]; try (destruct s'; discriminate Ez); try discriminate Ez. now exists s'. }
    destruct Zp as [s' ->]. unfold denom. rewrite Z. cbn [Babs].
    assert (O : exists B, one = B754_finite false 4503599627370496 (-52) B).
    { pose proof one_eq as H. destruct one as [a|a| |a m e B]; try discriminate H. cbn in H. inversion H. subst. now exists B. }
    apply B2SF_inj. rewrite <- div_same, <- add_same, <- add_same, one_eq. vm_compute. reflexivity.
Qed.
(** Closer to the target and less penalised never gives a smaller score. *)
Theorem C41_double_monotone : forall f i1 i2 t x1 x2 p1 p2, fkind f = Hyperbola -> obj_value f = T1 t ->
  obj_score i1 = SV1 x1 -> obj_score i2 = SV1 x2 -> finite t -> finite x1 -> finite x2 -> penalty_value p1 -> penalty_value p2 ->
  (Qabs (f_val t - f_val x1) <= Qabs (f_val t - f_val x2))%Q -> SFleb p1 p2 = true ->
  exists y1 y2, get_fitness_score f i1 p1 = inr (SV1 y1) /\ get_fitness_score f i2 p2 = inr (SV1 y2) /\ SFleb y2 y1 = true.
Proof.
  intros f i1 i2 t x1 x2 p1 p2 Fk Et E1 E2 Ht H1 H2 P1 P2 L Lp.
  destruct (finite_bin t Ht) as (tb & <- & Ft). destruct (finite_bin x1 H1) as (xb1 & <- & F1). destruct (finite_bin x2 H2) as (xb2 & <- & F2).
  destruct (penalty_bin p1 P1) as (pb1 & <- & A1). destruct (penalty_bin p2 P2) as (pb2 & <- & A2).
  rewrite (fitness_score_of f i1 (B2SF xb1)), (fitness_score_of f i2 (B2SF xb2)) by auto. unfold score_of. rewrite Et, !hyper_double by auto.
  eexists. eexists. split; [reflexivity|]. split; [reflexivity|].
  apply Qle_Rle in L. rewrite !value_dist in L.
  apply (inv_anti (denom tb xb1 pb1) (denom tb xb2 pb2)); try now apply denom_above.
  assert (O0 : above 0 one) by (eapply above_weak; [|apply above_one]; lra).
  assert (O1 : Bleb one one = true) by (unfold Bleb; rewrite one_eq; reflexivity).
  unfold denom. apply plus_mono; auto.
  - apply plus_above; auto using rnd_0, dist_above. lra.
  - apply plus_above; auto using rnd_0, dist_above. lra.
  - apply plus_mono; auto using dist_above, dist_mono.
Qed.
(** Without a target: the larger objective + penalty never gets the larger score. *)
Theorem C41_double_no_target : forall f i1 i2 x1 x2 p1 p2, fkind f = Hyperbola -> obj_value f = TNone ->
  obj_score i1 = SV1 x1 -> obj_score i2 = SV1 x2 -> finite x1 -> finite x2 -> finite p1 -> finite p2 ->
  (f_val x1 + f_val p1 <= f_val x2 + f_val p2)%Q ->
  exists y1 y2, get_fitness_score f i1 p1 = inr (SV1 y1) /\ get_fitness_score f i2 p2 = inr (SV1 y2) /\ SFleb y2 y1 = true.
Proof.
  intros f i1 i2 x1 x2 p1 p2 Fk Et E1 E2 H1 H2 P1 P2 L.
  destruct (finite_bin x1 H1) as (xb1 & <- & F1). destruct (finite_bin x2 H2) as (xb2 & <- & F2).
  destruct (finite_bin p1 P1) as (pb1 & <- & G1). destruct (finite_bin p2 P2) as (pb2 & <- & G2).
  rewrite (fitness_score_of f i1 (B2SF xb1)), (fitness_score_of f i2 (B2SF xb2)) by auto. unfold score_of. rewrite Et.
  eexists. eexists. split; [reflexivity|]. split; [reflexivity|]. unfold neg_score. cbn [nopp nadd Fops].
  rewrite !add_same, !opp_same. apply Qle_Rle in L. rewrite !Q2R_plus, <- !val_real in L.
  change (Bleb (Bopp (Bplus mode_NE xb2 pb2)) (Bopp (Bplus mode_NE xb1 pb1)) = true).
  eapply near_le; [apply near_opp, near_plus; auto|apply near_opp, near_plus; auto|lra].
Qed.
(** The strict statements of exact arithmetic fail with doubles: a point off the target can have
    score 1, and a point whose distance overflows has score 0. *)
Definition fq (n d : Z) : spec_float := ndiv_raw (nofZ n) (nofZ d).
Definition hyp (t : spec_float) : fitness := mkFit Hyperbola (Obj1 (fun _ _ => inl UserException)) (T1 t) None None [] false [].
Definition with_obj (x : spec_float) : individ := set_obj_score_f (SV1 x) blank_individ.
Theorem C41_double_off_target : exists t x, finite t /\ finite x /\ ~ (f_val t == f_val x)%Q /\
  get_fitness_score (hyp t) (with_obj x) nzero = inr (SV1 none_).
Proof.
  exists (nofZ 0), (fq 1 (2 ^ 60)). repeat split; try (vm_compute; reflexivity). intros C. vm_compute in C. discriminate C.
Qed.
Theorem C41_double_overflow : exists t x, finite t /\ finite x /\
  get_fitness_score (hyp t) (with_obj x) nzero = inr (SV1 nzero).
Proof.
  exists (S754_finite true 9007199254740991 971), (S754_finite false 9007199254740991 971). repeat split; vm_compute; reflexivity.
Qed.
(** A case of the theorems: target 5, objective values 2 and 7.25, penalties 1/3 and 1/2. *)
Example C41_double_meets : finite (fq 5 1) /\ finite (fq 2 1) /\ finite (fq 29 4) /\ penalty_value (fq 1 3) /\ penalty_value (S754_infinity false) /\
  (Qabs (f_val (fq 5 1) - f_val (fq 29 4)) <= Qabs (f_val (fq 5 1) - f_val (fq 2 1)))%Q /\ SFleb (fq 1 3) (fq 1 2) = true.
Proof. repeat split; vm_compute; try reflexivity. intros C. discriminate C. Qed.

(** *** C36 and C37 with doubles *)
(** The objective returns finite doubles only. *)
Definition returns_finite (o : objfun) : Prop :=
  match o with
  | Obj1 f => forall k g x, f k g = inr (OScalar x) -> finite x
  | Obj2 f => forall k d g x, f k d g = inr (OScalar x) -> finite x
  | Obj12 f1 f2 => (forall k g x, f1 k g = inr (OScalar x) -> finite x) /\ (forall k d g x, f2 k d g = inr (OScalar x) -> finite x)
  end.
Definition finite_target (t : obj_target) : Prop := match t with T1 x => finite x | _ => True end.
Lemma near_zero : forall x : bin, is_finite x = true -> B2R (Bplus mode_NE x (B754_zero false)) = B2R x /\ is_finite (Bplus mode_NE x (B754_zero false)) = true.
Proof.
  intros x F. destruct x as [s|s| |s m e H]; try discriminate F.
  - destruct s; split; reflexivity.
  - split; reflexivity.
Qed.
Lemma finite_B2SF : forall b : bin, finite (B2SF b) <-> is_finite b = true.
Proof. intros b. unfold finite. rewrite is_finite_SF_B2SF. split; [tauto|]. intros H. split; auto. apply bin_double. Qed.
Lemma finite_not_nan : forall x, finite x -> not_nan x.
Proof. intros x [_ F] ->. discriminate F. Qed.
Lemma Forder_finite : NumOrder Fops finite.
Proof.
  pose proof Forder as O. constructor; intros.
  - eapply (no_irrefl _ _ O); eauto using finite_not_nan.
  - eapply (no_trans _ _ O) with (y := y); eauto using finite_not_nan.
  - eapply (no_negtrans _ _ O) with (y := y); eauto using finite_not_nan.
  - eapply (no_eq _ _ O); eauto using finite_not_nan.
  - eapply (no_le _ _ O); eauto using finite_not_nan.
  - eapply (no_trunc _ _ O); eauto using finite_not_nan.
  - assert (N : not_nan (@nofZ Fops z)) by (eapply (no_int _ _ O); eauto using finite_not_nan). apply int_eqb_inv in H0. destruct H0 as [_ E].
    apply f_eq in E; auto using finite_not_nan. cbn [nofZ Fops] in *. rewrite normalize_same in *. apply finite_B2SF. destruct H as [_ F].
    destruct x as [sx|sx| |sx mx ex]; try discriminate F; match goal with |- is_finite ?b = true => destruct b as [sy|sy| |sy my ey ?] end; auto; try (now elim N); try destruct sx; try destruct sy; discriminate E.
Qed.
Lemma score_finite : forall f x y, finite_target (obj_value f) -> finite x -> score_of f x nzero = inr y -> finite y.
Proof.
  intros f x y Ht Hx H. destruct (finite_bin x Hx) as (xb & <- & Fx). unfold score_of in H. destruct (obj_value f) as [|t|l]; [| |discriminate H].
  - injection H as <-. change (finite (SFopp (SFadd fprec femax (B2SF xb) (B2SF (B754_zero false : bin))))). rewrite add_same, opp_same.
    destruct (near_zero xb Fx) as [_ Fz]. apply finite_B2SF. now rewrite is_finite_Bopp.
  - destruct (finite_bin t Ht) as (tb & <- & Ft). change (@nzero Fops) with (B2SF (B754_zero false : bin)) in H.
    rewrite hyper_double in H; auto; [|right; split; [reflexivity|cbn; lra]]. inversion H; subst y. apply finite_B2SF.
    destruct (inv_range (denom tb xb (B754_zero false))) as [[C|[F _]] L]; [apply denom_above; auto; right; split; [reflexivity|cbn; lra]| |exact F].
    rewrite C in L. unfold Bleb in L. rewrite one_eq in L. discriminate L.
Qed.
Lemma good_double : forall f, fkind f = Hyperbola -> is_conditional f = false -> returns_finite (obj_function f) -> finite_target (obj_value f) ->
  good_scores finite f.
Proof.
  intros f Fk Nc Ro Ft k genes gen best v i j C A. destruct (assess_plain f gen best v i j Fk Nc A) as (x & y & -> & Sy & ->).
  exists y. split; [reflexivity|]. apply (score_finite f x); auto. unfold called in C. unfold returns_finite in Ro.
  destruct (input_data f) as [d|]; [destruct (truthy d)|]; destruct (obj_function f) as [o|o|o1 o2]; try discriminate C; try (eapply Ro; eassumption); try (eapply (proj1 Ro); eassumption); eapply (proj2 Ro); eassumption.
Qed.
Theorem C36_double : forall fuel cf g sel ck mk s gd' cl s', objectives_ok sel -> cf_penalty cf = PNone ->
  returns_finite (cf_objective cf) -> finite_target (cf_obj_value cf) ->
  ga_optimize fuel cf false g Hyperbola sel ck mk false s = Ok (gd', cl) s' ->
  exists xs y i g x, hist_best gd' = map SV1 (xs ++ [y]) /\
    (forall a b p q, (a <= b)%nat -> nth_error (xs ++ [y]) a = Some p -> nth_error (xs ++ [y]) b = Some q -> SFleb p q = true) /\
    best_solution gd' = BSingle i g /\ score i = SV1 x /\ SFeqb x y = true.
Proof.
  intros fuel cf g sel ck mk s gd' cl s' Ho Pn Ro Ft H. apply optimize_run in H; [|repeat split; auto].
  destruct H as (p & s1 & p' & s2 & f & m & ng & c' & _ & _ & _ & Nf & _ & _ & _ & _ & Si & St & R). apply run_ends in R. destruct R as (k & A).
  rewrite Pn in Nf. destruct (new_fitness_plain _ _ _ _ _ _ _ _ Nf (or_introl eq_refl)) as (Fk & Nc & _ & Eo & Ev & _).
  assert (Go : good_scores finite f) by (apply good_double; congruence || (rewrite ?Eo, ?Ev; auto)).
  destruct (C36_best_never_decreases _ Forder_finite _ _ _ _ Si Go St _ _ _ _ A) as (xs & y & i & g' & x & E1 & _ & E2 & E3 & E4 & E5 & _ & _ & Fo).
  exists xs, y, i, g', x. split; auto. split; [|split; auto].
  intros a b u v Hab Ha Hb. specialize (E2 a b u v Hab Ha Hb). rewrite Forall_forall in Fo.
  rewrite f_le by (apply finite_not_nan, Fo; eapply nth_error_In; eassumption). change (negb (@nltb Fops v u) = true). rewrite E2. reflexivity.
Qed.
(** Without a target best_solution has the smallest objective value ever returned, exactly; with a
    target no returned value has a higher score. *)
Definition no_better_double (t : obj_target) (z x : spec_float) : Prop :=
  match t with
  | TNone => (f_val x <= f_val z)%Q
  | T1 t => exists y w, hyper t x nzero = inr y /\ hyper t z nzero = inr w /\ SFleb w y = true
  | TL _ => False
  end.
Lemma plus_zero_back : forall x, finite (neg_score x nzero) -> finite x.
Proof. intros x [D F]. destruct x as [s|s| |s m e]; [now destruct s|discriminate F|discriminate F|]. split; [exact D|reflexivity]. Qed.
Lemma neg_compare : forall x z, finite x -> finite z -> SFltb (neg_score x nzero) (neg_score z nzero) = false -> (f_val x <= f_val z)%Q.
Proof.
  intros x z Hx Hz H. destruct (finite_bin x Hx) as (xb & <- & Fx). destruct (finite_bin z Hz) as (zb & <- & Fz).
  change (SFltb (SFopp (SFadd fprec femax (B2SF xb) (B2SF (B754_zero false : bin)))) (SFopp (SFadd fprec femax (B2SF zb) (B2SF (B754_zero false : bin)))) = false) in H. rewrite !add_same, !opp_same in H.
  destruct (near_zero xb Fx) as [Ex Gx]. destruct (near_zero zb Fz) as [Ez Gz].
  change (Bltb (Bopp (Bplus mode_NE xb (B754_zero false))) (Bopp (Bplus mode_NE zb (B754_zero false))) = false) in H.
  rewrite Bltb_correct in H by now rewrite is_finite_Bopp. rewrite !B2R_Bopp, Ex, Ez in H. revert H. case Rlt_bool_spec; [discriminate|]. intros L _.
  apply Rle_Qle. rewrite <- !val_real. lra.
Qed.
Theorem C37_double : forall fuel cf g sel ck mk s gd' cl s', objectives_ok sel -> cf_penalty cf = PNone ->
  returns_finite (cf_objective cf) -> finite_target (cf_obj_value cf) ->
  ga_optimize fuel cf false g Hyperbola sel ck mk false s = Ok (gd', cl) s' ->
  exists calls i gen pt x, log s' = calls ++ log s /\ best_solution gd' = BSingle i gen /\ In (pt, OScalar x) calls /\ obj_score i = SV1 x /\
    forall pt' v, In (pt', v) calls -> exists z, v = OScalar z /\ no_better_double (cf_obj_value cf) z x.
Proof.
  intros fuel cf g sel ck mk s gd' cl s' Ho Pn Ro Ft H. apply optimize_run in H; [|repeat split; auto].
  destruct H as (p & s1 & p' & s2 & f & m & ng & c' & _ & _ & _ & Nf & _ & _ & L & _ & Si & St & R). apply run_ends in R. destruct R as (k & A).
  rewrite Pn in Nf. destruct (new_fitness_plain _ _ _ _ _ _ _ _ Nf (or_introl eq_refl)) as (Fk & Nc & _ & Eo & Ev & _).
  assert (Go : good_scores finite f) by (apply good_double; congruence || (rewrite ?Eo, ?Ev; auto)).
  destruct (C37_best_of_all _ Forder_finite _ _ _ _ Si Go St Nc _ _ _ _ A) as (calls & i & gi & pt & x & y & El & Eb & _ & Iv & Ei & Es & Sy & Oy & K).
  exists calls, i, gi, pt, x. split; [rewrite <- L; exact El|]. split; auto. split; auto. split; auto.
  intros pt' v Hv. destruct (K _ _ Hv) as (z & w & -> & Sw & Ow & Nw). exists z. split; auto. cbn [c_fitness] in *. rewrite <- Ev.
  unfold score_of in Sy, Sw. unfold no_better_double. destruct (obj_value f) as [|t|l]; [| |discriminate Sy].
  - injection Sy as <-. injection Sw as <-. apply neg_compare; auto; now apply plus_zero_back.
  - exists y, w. split; auto. split; auto. rewrite f_le by now apply finite_not_nan. change (negb (@nltb Fops y w) = true). now rewrite Nw.
Qed.


(** CategoricalGA in doubles with target 1/2: 5 individuals, 6 generations. *)
Definition fdemo_obj : objfun := Obj1 (fun _ genes => inr (OScalar
  (match genes with [GInt a; GInt b; GInt c] => nofZ (Z.min 1000 ((a - 3) * (a - 3) + b * b + (c - 1) * (c - 1))) | _ => nofZ 100 end))).
Definition fdemo_cf : config := mkCfg 6 5 fdemo_obj (T1 (fq 1 2)) None PNone None (fq 6 10) None [] 2 (LFloat (fq 1 2)) "best"%string false.
Definition fints (l : list Z) : list gv := map GInt l.
Definition fpools : list cgen := [CList (fints [0;1;2;3]); CList (fints [0;5;7]); CList (fints [1;2])].
Definition ffresh : st := mkSt (fun _ => blank_individ) 0 (fun _ => 0) mixed None (fun _ _ => 0) [].
Example C36_double_meets : objectives_ok (SelTournament 2) /\ cf_penalty fdemo_cf = PNone /\ returns_finite (cf_objective fdemo_cf) /\ finite_target (cf_obj_value fdemo_cf).
Proof.
  split; [exact I|]. split; [reflexivity|]. split; [|split; vm_compute; reflexivity].
  intros k g x H. assert (E : exists z, 0 <= z <= 2 ^ 53 /\ x = nofZ z).
  { cbn [fdemo_cf cf_objective fdemo_obj] in H. injection H as <-. destruct g as [|[?|?|a|?] [|[?|?|b|?] [|[?|?|c|?] [|? ?]]]]; try (exists 100; split; [lia|reflexivity]).
    exists (Z.min 1000 ((a - 3) * (a - 3) + b * b + (c - 1) * (c - 1))). split; [|reflexivity].
    pose proof (Z.square_nonneg (a - 3)). pose proof (Z.square_nonneg b). pose proof (Z.square_nonneg (c - 1)). change (2 ^ 53) with 9007199254740992. lia. }
  destruct E as (z & Hz & ->). destruct (int_exact z Hz) as (b & -> & F & _). now apply finite_B2SF.
Qed.
Example C36_double_case : match categorical_ga 50 fdemo_cf fpools ffresh with
  | Ok r s => Some (map (fun v => match v with SV1 x => Some x | _ => None end) (hist_best (fst r)),
                    match best_solution (fst r) with BSingle i g => Some (length (genotype i), g) | _ => None end, length (log s))
  | _ => None end = Some (map Some [fq 2 9; fq 2 9; fq 2 9; fq 2 3; fq 2 3; fq 2 3], Some (3%nat, 3), 20%nat).
Proof. run. Qed.

(** *** C05 with doubles *)
(** The bounds are finite doubles in order, of magnitude at most 2^1000. *)
Definition moderate (g : @bgene Fops) : Prop :=
  finite (glo g) /\ finite (ghi g) /\ (Qabs (f_val (glo g)) <= inject_Z (2 ^ 1000))%Q /\ (Qabs (f_val (ghi g)) <= inject_Z (2 ^ 1000))%Q /\
  (f_val (glo g) <= f_val (ghi g))%Q.
(** The rounding error of a decoded value: 16 units of the last place of the bounds. *)
Definition slack (g : @bgene Fops) : Q :=
  (/ inject_Z (2 ^ 49) * (Qabs (f_val (glo g)) + Qabs (f_val (ghi g)) + / inject_Z (2 ^ 900)))%Q.
(** y is the i-th of the 2^n grid points, up to rounding, and not below the lower bound. *)
Definition decoded (g : @bgene Fops) (n : Z) (y : spec_float) : Prop :=
  finite y /\ (f_val (glo g) <= f_val y)%Q /\
  exists i, 0 <= i <= 2 ^ n - 1 /\ (Qabs (f_val y - grid (f_val (glo g), f_val (ghi g), 0%Q) n i) <= slack g)%Q.
Lemma Q2R_abs : forall q, Q2R (Qabs q) = Rabs (Q2R q).
Proof.
  intros q. destruct (Qlt_le_dec q 0) as [L|L].
  - rewrite (Qeq_eqR _ _ (Qabs_neg q (Qlt_le_weak _ _ L))), Q2R_opp. apply Qlt_Rlt in L. rewrite RMicromega.Q2R_0 in L. rewrite Rabs_left; lra.
  - rewrite (Qeq_eqR _ _ (Qabs_pos q L)). apply Qle_Rle in L. rewrite RMicromega.Q2R_0 in L. rewrite Rabs_pos_eq; lra.
Qed.
Lemma Q2R_Z : forall z, Q2R (inject_Z z) = IZR z.
Proof. intros z. unfold Q2R. cbn [inject_Z Qnum Qden]. rewrite Rinv_1. ring. Qed.
Lemma Q2R_pow2 : forall k, 0 <= k -> Q2R (inject_Z (2 ^ k)) = bpow radix2 k.
Proof. intros k Hk. rewrite Q2R_Z. apply (IZR_Zpower radix2). exact Hk. Qed.
Lemma pow2_nz : forall k, 0 <= k -> ~ (inject_Z (2 ^ k) == 0)%Q.
Proof. intros k Hk C. unfold Qeq in C. cbn in C. pose proof (Z.pow_pos_nonneg 2 k). lia. Qed.
Lemma Q2R_ipow2 : forall k, 0 <= k -> Q2R (/ inject_Z (2 ^ k)) = bpow radix2 (- k).
Proof. intros k Hk. rewrite Q2R_inv by now apply pow2_nz. rewrite Q2R_pow2, bpow_opp by auto. reflexivity. Qed.
(** The value of index i. *)
Lemma decode_index_double : forall g n stp i, moderate g -> gene_params g = inr (n, stp) -> n <= 53 -> 0 <= i <= 2 ^ n - 1 ->
  let y := nadd (glo g) (nmul (nofZ i) stp) in
  finite y /\ (f_val (glo g) <= f_val y)%Q /\ (Qabs (f_val y - grid (f_val (glo g), f_val (ghi g), 0%Q) n i) <= slack g)%Q.
Proof.
  intros g n stp i (Flo & Fhi & Blo & Bhi & L) G Hn Hi y.
  destruct (finite_bin _ Flo) as (lo & Elo & Flo'). destruct (finite_bin _ Fhi) as (hi & Ehi & Fhi').
  unfold gene_params in G. set (rg := nabs (nsub (ghi g) (glo g))) in G. destruct (py_div rg (gstep g)) as [e|q]; [discriminate G|].
  destruct (ntrunc q) as [k|]; [|discriminate G]. destruct (real_number_spec k) as (m & Em & Hm). rewrite Em in G.
  destruct (py_div rg (nofZ (2 ^ m - 1))) as [e|st] eqn:Ed; [discriminate G|]. injection G as -> ->.
  unfold py_div in Ed. destruct (neqb (nofZ (2 ^ n - 1)) nzero) eqn:Ez; [discriminate Ed|].
  assert (Es : stp = ndiv_raw rg (nofZ (2 ^ n - 1))) by congruence. subst stp. clear Ed.
  assert (n1 : 1 <= n).
  { destruct (Z.eq_dec n 0) as [E|E]; [|lia]. exfalso. rewrite E in Ez. vm_compute in Ez. discriminate Ez. }
  assert (N53 : 2 ^ n <= 2 ^ 53) by (apply Z.pow_le_mono_r; lia). assert (N1 : 2 <= 2 ^ n) by (change 2 with (2 ^ 1) at 1; apply Z.pow_le_mono_r; lia).
  destruct (int_exact (2 ^ n - 1)) as (nb & En & Fn & Vn); [lia|]. destruct (int_exact i) as (ib & Eib & Fi & Vi); [lia|].
  unfold y. rewrite En, Eib. unfold rg. cbn [nadd nmul ndiv_raw nabs nsub Fops]. rewrite <- Elo, <- Ehi, sub_same, abs_same, div_same, mul_same, add_same.
  assert (Vlo : B2R lo = Q2R (f_val (glo g))) by (rewrite <- Elo; apply val_real). assert (Vhi : B2R hi = Q2R (f_val (ghi g))) by (rewrite <- Ehi; apply val_real).
  rewrite Elo, Ehi.
  apply Qle_Rle in Blo, Bhi, L. rewrite Q2R_abs, Q2R_pow2 in Blo, Bhi by lia. rewrite <- Vlo, <- Vhi in *.
  assert (B53 : (IZR (2 ^ n - 1) <= bpow radix2 53)%R) by (rewrite <- (IZR_Zpower radix2 53) by lia; apply IZR_le; change (radix2 ^ 53)%Z with (2 ^ 53); lia).
  assert (I1 : (1 <= IZR (2 ^ n - 1))%R) by (apply IZR_le; lia). assert (I2 : (0 <= IZR i <= IZR (2 ^ n - 1))%R) by (split; apply IZR_le; lia).
  destruct (decode_real lo hi nb ib _ _ Flo' Fhi' Fn Fi Blo Bhi L Vn Vi (conj I1 B53) I2) as (Fy & Ly & Ey).
  set (z := Bplus mode_NE lo _) in *. split; [|split].
  - now apply finite_B2SF.
  - apply Rle_Qle. rewrite <- Vlo, <- val_real. exact Ly.
  - apply Rle_Qle. rewrite Q2R_abs, Q2R_minus, <- val_real. unfold grid, slack.
    assert (NZ : ~ (inject_Z (2 ^ n - 1) == 0)%Q) by (intros C; unfold Qeq in C; cbn [Qnum Qden inject_Z] in C; lia).
    unfold Qdiv. rewrite !Q2R_plus, !Q2R_mult, Q2R_minus, !Q2R_plus, !Q2R_abs, (Q2R_inv _ NZ), !Q2R_ipow2, !Q2R_Z, <- Vlo, <- Vhi by lia. exact Ey.
Qed.
Lemma decode_gene_double : forall gray g n stp c, moderate g -> gene_params g = inr (n, stp) -> n <= 53 -> Z.of_nat (List.length c) = n ->
  exists y, decode_gene gray g stp c = inr y /\ decoded g n y.
Proof.
  intros gray g n stp c M G Hn Lc.
  assert (n1 : 1 <= n) by (apply (gene_params_bits g n stp); [vm_compute; reflexivity|exact G]).
  destruct (code_surj gray n c n1 Lc) as (i & Hi & Ei). destruct (code_ok gray i n n1 Hi) as (c' & Ec' & _ & Dc). rewrite Ei in Ec'. injection Ec' as <-.
  rewrite Dc. eexists. split; [reflexivity|]. destruct (decode_index_double g n stp i M G Hn) as (F & L & E); [lia|].
  split; auto. split; auto. exists i. split; [lia|exact E].
Qed.
Lemma chunks_double : forall gray gens ps, Forall moderate gens -> Forall2 (fun g p => gene_params g = inr p) gens ps ->
  Forall (fun n => n <= 53) (map fst ps) -> forall cs, Forall2 (fun n c => Z.of_nat (List.length c) = n) (map fst ps) cs ->
  exists ys, decode_chunks gray gens (map snd ps) cs = inr ys /\ Forall3 decoded gens (map fst ps) ys.
Proof.
  intros gray gens ps M P. induction P as [|g [n stp] gens ps G P IH]; intros B cs C.
  - exists []. split; [reflexivity|constructor].
  - inversion M; subst. cbn [map fst snd] in *. inversion B; subst. inversion C as [|? c ? cs' Hc C']; subst.
    destruct (IH H2 H4 cs' C') as (ys & D & F). destruct (decode_gene_double gray g _ stp c H1 G H3 eq_refl) as (y & Dy & Hy).
    exists (y :: ys). cbn [decode_chunks]. rewrite Dy, D. split; [reflexivity|]. constructor; auto.
Qed.
(** Every genotype decodes, each value to a grid point up to rounding, never below the lower bound. *)
Theorem C05_double : forall gray gens bp bs, Forall moderate gens -> get_gens_params gens = inr bp -> Forall (fun n => n <= 53) (num_bits bp) ->
  Z.of_nat (List.length bs) = zsum (num_bits bp) ->
  exists ys, binary_individ_to_float gray gens bp bs = inr ys /\ Forall3 decoded gens (num_bits bp) ys.
Proof.
  intros gray gens bp bs M P B Lb. destruct (get_gens_params_inv gens bp P) as (ps & G & ->). unfold params_of in *. cbn [num_bits] in *.
  assert (Nn : Forall (fun n => 0 <= n) (map fst ps)).
  { clear - G. induction G as [|g [n stp] gens ps H G IH]; constructor; auto. cbn [fst]. unfold gene_params in H.
    destruct (py_div _ _) in H; [discriminate H|]. destruct (ntrunc _) as [k|] in H; [|discriminate H]. destruct (real_number_spec k) as (m & Em & Hm).
    rewrite Em in H. destruct (py_div _ _) in H; [discriminate H|]. injection H as -> _. lia. }
  destruct (split_chunks (map fst ps) bs Nn) as (cs & -> & C); [rewrite Lb, zsum_fold; lia|].
  destruct (chunks_double gray gens ps M G B cs C) as (ys & D & F). exists ys. split; auto.
  unfold binary_individ_to_float. cbn [real_step idx_bits]. rewrite <- (app_nil_r (concat cs)), <- D.
  assert (Lg : List.length gens = List.length ps) by (clear - G; induction G; cbn; auto). apply (decode_loop_chunks gray gens (map snd ps) (map fst ps) cs [] []); auto; now rewrite ?map_length.
Qed.
(** The upper bound can be exceeded: the gene (-0.2, 0.1, 0.1) has two bits, and 11 decodes to the
    double after 0.1. *)
Definition above_gene : @bgene Fops := (S754_finite true 7205759403792794 (-55), S754_finite false 7205759403792794 (-56), S754_finite false 7205759403792794 (-56)).
Ltac is_moderate := unfold moderate; split; [split; vm_compute; reflexivity|split; [split; vm_compute; reflexivity|
  split; [|split]; apply Qle_bool_imp_le; vm_compute; reflexivity]].
Definition params_or_none (gens : list (@bgene Fops)) : @bparams Fops := match get_gens_params gens with inr bp => bp | inl _ => bparams0 end.
Theorem C05_double_exceeds : exists g bp bs y, moderate g /\ get_gens_params [g] = inr bp /\ num_bits bp = [2] /\ Z.of_nat (List.length bs) = 2 /\
  binary_individ_to_float false [g] bp bs = inr [y] /\ (f_val (ghi g) < f_val y)%Q.
Proof.
  exists above_gene, (params_or_none [above_gene]), [true; true], (S754_finite false 7205759403792796 (-56)). split; [is_moderate|].
  split; [vm_cast_no_check (eq_refl (@inr exn _ (params_or_none [above_gene])))|]. split; [vm_compute; reflexivity|]. split; [reflexivity|].
  split; [|vm_compute; reflexivity].
  vm_cast_no_check (eq_refl (@inr exn _ [S754_finite false 7205759403792796 (-56)])).
Qed.
(** A case of C05_double: two genes, (-0.2, 0.1, 0.1) and (0, 10, 1/3). *)
Definition two_genes : list (@bgene Fops) := [above_gene; (nofZ 0, nofZ 10, fq 1 3)].
Example C05_double_meets : exists bp, Forall moderate two_genes /\ get_gens_params two_genes = inr bp /\ num_bits bp = [2; 5].
Proof.
  exists (params_or_none two_genes). split; [|split; [vm_cast_no_check (eq_refl (@inr exn _ (params_or_none two_genes)))|vm_compute; reflexivity]].
  constructor; [is_moderate|constructor; [is_moderate|constructor]].
Qed.

(** *** Ranks counted in doubles *)
(** 1 + 1 + ... in doubles: more than 1 after the first addition (it stops growing at 2^53). *)
Lemma counting_double : counting not_nan.
Proof.
  assert (two : exists b : bin, nofZ 2 = B2SF b /\ is_finite b = true /\ B2R b = 2%R) by (apply int_exact; lia).
  destruct two as (b2 & E2 & F2 & V2).
  assert (R2 : rnd 2 = 2%R) by (rewrite <- V2; apply rnd_bin).
  assert (K : forall n, exists b : bin, ones n = B2SF b /\ above (if n then 1 else 2) b).
  { induction n as [|n (b & E & A)].
    - exists one. split; [apply one_same|apply above_one].
    - exists (Bplus mode_NE b one). cbn [ones]. split; [rewrite E, one_same; apply add_same|].
      destruct n as [|n].
      + cbn [ones] in E. rewrite one_same in E. apply B2SF_inj in E. subst b. destruct one_val as [V1 F1].
        apply near_above with (x := (B2R one + B2R one)%R); [now apply near_plus|exact R2|pose proof top_pos; lra|lra].
      + apply plus_above; auto; [lra|]. eapply above_weak; [|apply above_one]. lra. }
  intros n. destruct (K n) as (b & E & A). rewrite E. split.
  - intros C. destruct b as [s|s| |s m e B]; try discriminate C. destruct A as [A|[A _]]; discriminate A.
  - intros Hn. destruct n as [|n]; [lia|]. rewrite one_same. change (Bltb one b = true). destruct one_val as [V1 F1].
    destruct A as [->|[F A]]; [unfold Bltb; rewrite one_eq; reflexivity|]. rewrite Bltb_correct by auto. apply Rlt_bool_true. lra.
Qed.

(** C54 and C55 for objective functions that return doubles other than NaN. *)
Theorem C54_double : forall F m fuel c gd0 s0 k c' gd' s',
  multi_objective not_nan c F m -> multi_started gd0 s0 -> at_generation fuel c gd0 s0 k c' gd' s' -> members (population gd') <> [] ->
  exists front set g, is_front F (heap s') (members (population gd')) front /\ front <> [] /\
    best_solution gd' = BPareto set (Some g) /\ 0 <= g < idx_generation gd' /\ idx_generation gd' = Z.of_nat k + 1 /\
    (set = map (heap s') front \/ Forall2 alike set (map (heap s') front)) /\
    exists older, hist_pareto gd' = older ++ [front] /\ List.length older = k.
Proof. exact (C54_pareto_set not_nan Forder counting_double). Qed.
Theorem C55_double : forall F m fuel c gd0 s0 k c1 gd1 s1,
  multi_objective not_nan c F m -> ng_multi (c_newgen c) = true -> ng_transfer (c_newgen c) = TBest -> plain_selection (c_selection c) ->
  multi_started gd0 s0 -> at_generation fuel c gd0 s0 k c1 gd1 s1 ->
  forall j c2 gd2 s2, steps fuel c1 gd1 s1 j c2 gd2 s2 ->
  forall x, In x (members (population gd1)) ->
  exists front r, is_front F (heap s2) (members (population gd2)) front /\ In r front /\
    no_greater (F (phen (heap s2) r)) (F (phen (heap s1) x)).
Proof. exact (C55_elitism not_nan Forder counting_double). Qed.

Print Assumptions C41_double_range.
Print Assumptions C41_double_monotone.
Print Assumptions C41_double_no_target.
Print Assumptions C41_double_off_target.
Print Assumptions C41_double_overflow.
Print Assumptions C36_double.
Print Assumptions C37_double.
Print Assumptions C05_double.
Print Assumptions C05_double_exceeds.
Print Assumptions C54_double.
Print Assumptions C55_double.
