(** Property C70: whole runs of the ready-made single-objective classes in IEEE doubles: which
    points the objective is called on, and the absence of exceptions. *)
From Coq Require Import String.
From Coq Require Import ZArith QArith Qabs Qreals Reals Bool List Lia Lra Floats.SpecFloat.
From Flocq Require Import Core IEEE754.BinarySingleNaN.
From Verif Require Import Spec Num State Binary Population GaData Crossover Mutation Selection Penalty Fitness NewGeneration Driver
  ListLemmas Rnd Exec Laws Float BinaryProofs CodingProofs PopulationProofs CrossoverProofs MutationProofs SelectionProofs AssessProofs FitnessProofs StepProofs RunProofs Runs
  PropRun PropFitness DomainProofs SafetyProofs OptimizeProofs Demo FloatProofs FloatDecode FloatEncode PropFloat PropDoubleCoding.
Import ListNotations.
Open Scope string_scope.
Open Scope list_scope.
Open Scope Z_scope.
Local Existing Instance Fops.
Local Existing Instance prec_pos.
Local Existing Instance prec_emax.

(** *** Objective values: doubles other than NaN, infinities included *)
Definition number (x : spec_float) : Prop := double x /\ not_nan x.
Definition returns_numbers (o : objfun) : Prop :=
  match o with
  | Obj1 f => forall k g x, f k g = inr (OScalar x) -> number x
  | Obj2 f => forall k d g x, f k d g = inr (OScalar x) -> number x
  | Obj12 f1 f2 => (forall k g x, f1 k g = inr (OScalar x) -> number x) /\ (forall k d g x, f2 k d g = inr (OScalar x) -> number x)
  end.
Lemma Forder_number : NumOrder Fops number.
Proof.
  pose proof Forder as O. constructor; intros.
  - apply (no_irrefl _ _ O); apply H.
  - eapply (no_trans _ _ O) with (y := y); eauto; [apply H|apply H0|apply H1].
  - eapply (no_negtrans _ _ O) with (y := y); eauto; [apply H|apply H0|apply H1].
  - apply (no_eq _ _ O); [apply H|apply H0].
  - apply (no_le _ _ O); [apply H|apply H0].
  - apply (no_trunc _ _ O); [apply H|apply H0|auto].
  - split; [cbn [nofZ Fops]; rewrite normalize_same; apply bin_double|]. eapply (no_int _ _ O); eauto. apply H.
Qed.
Lemma number_cases : forall x, number x -> finite x \/ exists s, x = S754_infinity s.
Proof.
  intros x [D N]. destruct x as [s|s| |s m e].
  - left. split; auto.
  - right. eauto.
  - now elim N.
  - left. split; auto.
Qed.
(** The score of an infinite objective value: 0 with a target, minus it without. *)
Lemma score_infinite : forall f s, finite_target (obj_value f) -> match obj_value f with TL _ => False | _ => True end ->
  score_of f (S754_infinity s) nzero = inr (match obj_value f with T1 _ => S754_zero false | _ => S754_infinity (negb s) end).
Proof.
  intros f s Ht Nl. unfold score_of. destruct (obj_value f) as [|t|l]; [| |contradiction].
  - unfold neg_score. cbn [nopp nadd Fops]. destruct s; reflexivity.
  - destruct Ht as [_ Ft]. unfold hyper, py_div. cbn [nadd nsub nabs ndiv_raw neqb Fops]. destruct t as [a|a| |a m e]; try discriminate Ft; try (destruct a); destruct s; vm_compute; reflexivity.
Qed.
Lemma score_number : forall f x, finite_target (obj_value f) -> match obj_value f with TL _ => False | _ => True end -> number x ->
  exists y, score_of f x nzero = inr y /\ number y.
Proof.
  intros f x Ht Nl Hx. destruct (number_cases x Hx) as [Fx|(s & ->)].
  - assert (E : exists y, score_of f x nzero = inr y).
    { destruct (finite_bin x Fx) as (xb & <- & Fxb). unfold score_of. destruct (obj_value f) as [|t|l]; [eauto| |contradiction].
      destruct (finite_bin t Ht) as (tb & <- & Ft). change (@nzero Fops) with (B2SF (B754_zero false : bin)). rewrite hyper_double; eauto. right. split; [reflexivity|cbn; lra]. }
    destruct E as (y & Ey). exists y. split; auto. pose proof (score_finite f x y Ht Fx Ey) as Fy. split; [apply Fy|now apply finite_not_nan].
  - rewrite score_infinite by auto. eexists. split; [reflexivity|]. destruct (obj_value f); split; try reflexivity; discriminate.
Qed.
Lemma called_number : forall f k genes x, returns_numbers (obj_function f) -> called f k genes = inr (OScalar x) -> number x.
Proof.
  intros f k genes x Ro C. unfold called in C. unfold returns_numbers in Ro.
  destruct (input_data f) as [d|]; [destruct (truthy d)|]; destruct (obj_function f) as [o|o|o1 o2]; try discriminate C; try (eapply Ro; eassumption); try (eapply (proj1 Ro); eassumption); eapply (proj2 Ro); eassumption.
Qed.
Lemma good_number : forall f, fkind f = Hyperbola -> is_conditional f = false -> returns_numbers (obj_function f) -> finite_target (obj_value f) ->
  good_scores number f.
Proof.
  intros f Fk Nc Ro Ft k genes gen best v i j C A. destruct (assess_plain f gen best v i j Fk Nc A) as (x & y & -> & Sy & ->).
  exists y. split; [reflexivity|]. assert (Nl : match obj_value f with TL _ => False | _ => True end) by (unfold score_of in Sy; destruct (obj_value f); [exact I|exact I|discriminate Sy]).
  destruct (score_number f x Ft Nl (called_number _ _ _ _ Ro C)) as (y' & Ey & Ny). congruence.
Qed.

(** *** Configurations *)
(** The objective is given the right number of arguments and returns one number, not NaN, on
    every point of the space. *)
Definition number_on (cf : config) (space : list gv -> Prop) : Prop :=
  forall k genes, space genes -> exists x, answers (cf_objective cf) (given (cf_input_data cf)) k genes (inr (OScalar x)).
Definition plain_double (cf : config) : Prop :=
  cf_penalty cf = PNone /\ returns_numbers (cf_objective cf) /\ match cf_obj_value cf with T1 t => finite t | TNone => True | TL _ => False end.
(** Sizes: at least one child by int(children_percent * num_individ), computed in doubles. *)
Definition valid_double (cf : config) : Prop :=
  2 <= cf_tournament_size cf < cf_num_individ cf /\
  (exists x, f_trunc (SFmul fprec femax (cf_children_percent cf) (nofZ (cf_num_individ cf))) = Some x /\ 1 <= x) /\
  (cf_transfer cf = "best" \/ cf_transfer cf = "random") /\
  Z.of_nat (length (cf_input_population cf)) <= cf_num_individ cf.
Definition named_level (l : lvl) : Prop := match l with LStr s => s = "weak" \/ s = "normal" \/ s = "strong" | _ => False end.
Definition number_level (l : lvl) : Prop := match l with LFloat x => SFleb (S754_zero false) x = true /\ SFleb x (nofZ 1) = true | _ => False end.

Lemma new_plain : forall cf f cl, plain_double cf ->
  new_fitness Hyperbola (cf_objective cf) (cf_obj_value cf) (cf_input_data cf) (cf_penalty cf) (cf_conditions cf) = inr (f, cl) -> good_scores number f.
Proof.
  intros cf f cl (Pn & Ro & Ft) N. rewrite Pn in N. cbn [new_fitness] in N. inversion N; subst f. apply good_number; auto. cbn. unfold finite_target. destruct (cf_obj_value cf); auto.
Qed.
Lemma double_evaluates : forall cf space, plain_double cf -> number_on cf space -> evaluates cf space.
Proof.
  intros cf space (Pn & Ro & Ft) Sc. unfold evaluates. rewrite Pn. cbn [new_fitness]. eexists. eexists. split; [reflexivity|]. split; [reflexivity|].
  set (f := mkFit _ _ _ _ _ _ _ _). intros k pt gen best i D _. destruct (Sc k pt D) as (x & A). apply (called_answers f) in A. exists (OScalar x).
  assert (E : exists y, score_of f x nzero = inr y).
  { destruct (score_number f x) as (y & Ey & _); eauto; [cbn|cbn|eapply called_number; eauto]; destruct (cf_obj_value cf); auto. exact I. }
  destruct E as (y & Ey). rewrite (assess_scalar f gen best x i eq_refl eq_refl), Ey. eauto.
Qed.
Lemma level_in_01 : forall x, SFleb (S754_zero false) x = true -> SFleb x (nofZ 1) = true -> out_of_01 x = false.
Proof.
  intros x L H. unfold out_of_01. assert (Nx : not_nan x) by (intros ->; discriminate L). change (@nofZ Fops 0) with (S754_zero false). cbn [nltb Fops].
  rewrite f_le in L, H by (auto; discriminate). rewrite negb_true_iff in L, H. rewrite L, H. reflexivity.
Qed.
Lemma nofZ_positive : forall z, 1 <= z -> neqb (nofZ z) nzero = false.
Proof.
  intros z Hz. cbn [neqb nofZ Fops]. rewrite normalize_same. change (@nzero Fops) with (S754_zero false). apply above_nonzero.
  pose proof (binary_normalize_correct fprec femax prec_pos prec_emax mode_NE z 0 false) as H. cbv zeta in H. change (round_mode mode_NE) with ZnearestE in H.
  assert (V : F2R (Float radix2 z 0) = IZR z) by (unfold F2R; cbn; ring). rewrite V in H. set (b := binary_normalize _ _ _ _ _ _ _ _) in *.
  assert (R1 : (1 <= rnd (IZR z))%R) by (rewrite <- rnd_1; apply rnd_le; apply IZR_le; lia).
  revert H. case Rlt_bool_spec; intros L H.
  - destruct H as (E & F & _). right. split; auto. rewrite E. exact R1.
  - left. apply B2SF_inj. rewrite H. unfold binary_overflow. rewrite Rlt_bool_false by (apply IZR_le; lia). reflexivity.
Qed.

Lemma nofZ_number : forall z, number (nofZ z).
Proof.
  intros z. unfold number, not_nan. cbn [nofZ Fops]. rewrite normalize_same. split; [apply bin_double|].
  pose proof (binary_normalize_correct fprec femax prec_pos prec_emax mode_NE z 0 false) as H. cbv zeta in H. change (round_mode mode_NE) with ZnearestE in H.
  set (b := binary_normalize _ _ _ _ _ _ _ _) in *. revert H. case Rlt_bool_spec; intros L H.
  - destruct H as (_ & F & _). intros C. destruct b; discriminate.
  - rewrite H. destruct (Rlt_bool _ _); discriminate.
Qed.

(** *** BinaryGA *)
(** The points: each coordinate a finite double, at least the lower bound and at most the upper
    bound plus the rounding slack. *)
Definition double_box (gens : list (@bgene Fops)) (x : list gv) : Prop := exists ys, x = map GNum ys /\
  Forall2 (fun g y => finite y /\ (f_val (glo g) <= f_val y)%Q /\ (f_val y <= f_val (ghi g) + slack g)%Q) gens ys.
(** More precisely, a grid point up to rounding, with 1 to 49 bits per gene. *)
Definition double_grid (gens : list (@bgene Fops)) (x : list gv) : Prop := exists ns ys, x = map GNum ys /\ Forall (fun n => 1 <= n <= 49) ns /\ Forall3 decoded gens ns ys.
(** The input individuals hold doubles or ints (Float.v: ints are rounded to doubles before the range check). *)
Definition double_vector (x : list gv) (xs : list spec_float) : Prop := Forall2 (fun g v => g = GNum v /\ double v \/ exists z, g = GInt z /\ v = nofZ z) x xs.
Definition double_input (x : list gv) : Prop := Forall (fun g => match g with GNum v => double v | _ => True end) x.

Lemma decoded_box : forall g n y, moderate g -> 1 <= n -> decoded g n y -> finite y /\ (f_val (glo g) <= f_val y)%Q /\ (f_val y <= f_val (ghi g) + slack g)%Q.
Proof.
  intros g n y (_ & _ & _ & _ & L) n1 (Fy & Ly & i & Hi & E). split; auto. split; auto.
  assert (P : 2 <= 2 ^ n) by (change 2 with (2 ^ 1) at 1; apply Z.pow_le_mono_r; lia).
  apply Qle_Rle in E, L. apply Rle_Qle. rewrite Q2R_abs, Q2R_minus in E. apply Rabs_le_inv in E.
  assert (NZ : ~ (inject_Z (2 ^ n - 1) == 0)%Q) by (intros C; unfold Qeq in C; cbn [Qnum Qden inject_Z] in C; lia).
  assert (G : (Q2R (grid (f_val (glo g), f_val (ghi g), 0%Q) n i) <= Q2R (f_val (ghi g)))%R).
  { unfold grid, Qdiv. rewrite Q2R_plus, !Q2R_mult, Q2R_minus, (Q2R_inv _ NZ), !Q2R_Z. set (l := Q2R (f_val (glo g))) in *. set (h := Q2R (f_val (ghi g))) in *.
    assert (I : (IZR i <= IZR (2 ^ n - 1))%R) by (apply IZR_le; lia). assert (N0 : (0 < IZR (2 ^ n - 1))%R) by (apply IZR_lt; lia). set (N := IZR (2 ^ n - 1)) in *.
    assert ((IZR i * ((h - l) * / N) <= N * ((h - l) * / N))%R). { apply Rmult_le_compat_r; auto. apply Rmult_le_pos; [lra|left; now apply Rinv_0_lt_compat]. }
    assert (E2 : (N * ((h - l) * / N) = h - l)%R) by (field; lra). lra. }
  rewrite Q2R_plus. lra.
Qed.
Lemma grid_box : forall gens pt, Forall fine gens -> double_grid gens pt -> double_box gens pt.
Proof.
  intros gens pt H (ns & ys & -> & Hn & D). exists ys. split; auto. revert Hn. induction D as [|g n y gens ns ys Dy D IH]; intros Hn; constructor.
  - inversion H; inversion Hn; subst. apply (decoded_box g n y); [apply H2|lia|exact Dy].
  - inversion H; inversion Hn; subst; auto.
Qed.
Lemma fine_prepared : forall gray gens, Forall fine gens -> exists bp, get_gens_params gens = inr bp /\ prepare (GenBinary gray gens bparams0) = inr (GenBinary gray gens bp) /\
  Forall (fun n => 1 <= n <= 49) (num_bits bp) /\ length (num_bits bp) = length gens.
Proof. intros gray gens H. destruct (fine_gens gens H) as (bp & P & Hn & Ln). exists bp. split; auto. split; [cbn [prepare]; rewrite P; reflexivity|auto]. Qed.
Lemma double_points : forall gray gens bp, Forall fine gens -> get_gens_params gens = inr bp ->
  forall pt, domain_point (GenBinary gray gens bp) pt -> double_grid gens pt.
Proof.
  intros gray gens bp H P pt (geno & (bs & -> & Lb) & Sp). destruct (fine_gens gens H) as (bp' & P' & Hn & _). rewrite P in P'. injection P' as <-.
  destruct (C05_double gray gens bp bs) as (ys & Ey & Dy); auto.
  - eapply Forall_impl; [|exact H]. intros g Hg. apply Hg.
  - eapply Forall_impl; [|exact Hn]. cbn. intros; lia.
  - cbn in Sp. unfold decode_genotype in Sp. change (map GBit bs) with (bits_to_geno bs) in Sp. rewrite geno_bits_id, Ey in Sp. injection Sp as Sp. exists (num_bits bp), ys. split; [symmetry; exact Sp|auto].
Qed.
Lemma gvs_num_vector : forall x xs, double_input x -> gvs_num x = inr xs -> double_vector x xs.
Proof.
  induction x as [|g x IH]; intros xs D E; cbn [gvs_num] in E.
  - injection E as <-. constructor.
  - inversion D; subst. destruct (gv_num g) as [|v] eqn:Eg; [discriminate E|]. destruct (gvs_num x) as [|vs]; [discriminate E|]. injection E as <-. constructor; [|apply IH; auto].
    destruct g; cbn in Eg; try discriminate Eg; injection Eg as <-; [left; auto|right; eauto].
Qed.
Lemma vector_gvs_num : forall x xs, double_vector x xs -> gvs_num x = inr xs.
Proof. induction 1 as [|g v x xs Hg F IH]; [reflexivity|]. cbn [gvs_num]. rewrite IH. destruct Hg as [[-> _]|(z & -> & ->)]; reflexivity. Qed.
Lemma vector_double : forall x xs, double_vector x xs -> Forall double xs.
Proof.
  induction 1 as [|g v x xs Hg F IH]; constructor; auto. destruct Hg as [[_ D]|(z & _ & ->)]; auto. cbn [nofZ Fops]. rewrite normalize_same. apply bin_double.
Qed.
Lemma double_inputs : forall gray gens bp, Forall fine gens -> get_gens_params gens = inr bp ->
  forall x geno, double_input x -> input_genotype (GenBinary gray gens bp) x = inr geno -> in_domain (GenBinary gray gens bp) geno.
Proof.
  intros gray gens bp H P x geno Dx E. cbn [input_genotype] in E. destruct (gvs_num x) as [|xs] eqn:Ex.
  { destruct (negb _); [discriminate E|]. destruct (encode_loop _ _ _ _); discriminate E. }
  destruct (float_individ_to_binary gray gens bp xs) as [|bs] eqn:Eb; [discriminate E|]. injection E as <-.
  destruct (C06_double gray gens bp xs H P (vector_double _ _ (gvs_num_vector _ _ Dx Ex))) as [_ N].
  exists bs. split; auto. destruct (Z.eq_dec (Z.of_nat (length bs)) (zsum (num_bits bp))) as [|C]; auto. exfalso.
  destruct N as (e & Ee & _); [|congruence]. intros B. apply C. destruct (C04_double gray gens xs H B) as (bp' & bs' & ys & P' & _ & E' & L & _). rewrite P in P'. injection P' as <-. congruence.
Qed.

(** The fitness object made from the configuration gives numbers as scores. *)
Definition numbers_made (cf : config) : Prop := forall f cl,
  new_fitness Hyperbola (cf_objective cf) (cf_obj_value cf) (cf_input_data cf) (cf_penalty cf) (cf_conditions cf) = inr (f, cl) -> good_scores number f.
Lemma binary_calls_any : forall fuel cf gray gens s gd' cl s', Forall fine gens -> numbers_made cf -> Forall double_input (cf_input_population cf) ->
  binary_ga fuel cf gray gens s = Ok (gd', cl) s' ->
  exists calls, log s' = calls ++ log s /\ Forall (fun x => double_grid gens (fst x) /\ double_box gens (fst x)) calls.
Proof.
  intros fuel cf gray gens s gd' cl s' H V Hin R. destruct (fine_prepared gray gens H) as (bp & P & Pg & _).
  unfold binary_ga in R. eapply (@optimize_domain_any Fops number) in R; [| | |exact V|exact Pg| |].
  - destruct R as (calls & El & F). exists calls. split; auto. eapply Forall_impl; [|exact F]. intros x Hx. apply (double_points gray gens bp H P) in Hx. split; auto. now apply grid_box.
  - exact Forder_number.
  - vm_compute. reflexivity.
  - intros l m Hm. constructor; [discriminate|]. unfold new_bin in Hm. destruct l; repeat (destruct (_ || _) in Hm || destruct (out_of_01 _) in Hm); inversion Hm; exact I.
  - intros x geno Hx. rewrite Forall_forall in Hin. eapply double_inputs; eauto.
Qed.
Lemma binary_safe_any : forall fuel cf gray gens s, Forall fine gens -> numbers_made cf -> valid_double cf ->
  ((2 <= length gens)%nat \/ exists g n stp, gens = [g] /\ gene_params g = inr (n, stp) /\ 2 <= n) ->
  named_level (cf_mutation_lvl cf) \/ number_level (cf_mutation_lvl cf) ->
  Forall (fun x => exists xs, double_vector x xs /\ Forall2 between gens xs) (cf_input_population cf) ->
  evaluates cf (double_box gens) ->
  forall e, binary_ga fuel cf gray gens s <> Err e.
Proof.
  intros fuel cf gray gens s H V Vd H2 Hl Hin Ev. destruct (fine_prepared gray gens H) as (bp & P & Pg & Hn & Ln).
  destruct (@prepared_usable Fops gray gens bparams0 _ ltac:(vm_compute; reflexivity) Pg) as (bp' & Eb & Us & ps & Eps & Fps). assert (Eq : bp' = bp) by congruence. rewrite Eq in *. clear Eb Eq bp'.
  assert (Two : 2 <= zsum (num_bits bp)).
  { destruct H2 as [H2|(g & n & stp & -> & Gp & Hg)].
    - assert (K : Z.of_nat (length (num_bits bp)) <= zsum (num_bits bp)) by (clear - Hn; induction Hn; cbn [length zsum]; lia). lia.
    - rewrite Eps. inversion Fps as [|? p ? ? Gp' F]; subst. inversion F; subst. rewrite Gp in Gp'. injection Gp' as <-. cbn. lia. }
  assert (M : exists m, new_bin (cf_mutation_lvl cf) = inr m /\ m = MutBin (cf_mutation_lvl cf)).
  { unfold new_bin. destruct (cf_mutation_lvl cf) as [st|x|]; destruct Hl as [Hl|Hl]; try contradiction.
    - destruct Hl as [-> |[-> | ->]]; cbn; eauto.
    - rewrite (level_in_01 x) by apply Hl. eauto. }
  destruct M as (m & Em & Mm).
  apply (@optimize_safe_any Fops number fuel cf (GenBinary gray gens bparams0) _ OnePoint new_bin s (GenBinary gray gens bp) m); auto.
  - exact Forder_number.
  - intros gray' gens' bp' E. inversion E; subst. eauto.
  - eapply Forall_impl; [|exact Hin]. intros x (xs & Vx & Bx). destruct (C06_double gray gens bp xs H P (vector_double _ _ Vx)) as [Ok _]. destruct (Ok Bx) as (bs & Eb & Lb).
    exists (bits_to_geno bs). split; [|exists bs; auto]. cbn [input_genotype]. rewrite (vector_gvs_num _ _ Vx), Eb. reflexivity.
  - rewrite Mm. constructor; [discriminate|exact I].
  - rewrite Mm. cbn [mut_spec_ok]. destruct (cf_mutation_lvl cf) as [st|x|]; [|exact I|destruct Hl as [[]|[]]].
    assert (El : last (idx_bits bp) 0 = zsum (num_bits bp)). { rewrite Eps, idx_bits_total, zsum_fold. reflexivity. }
    rewrite El. apply nofZ_positive. lia.
  - intros x (bs & -> & Lb). rewrite map_length. cbn [min_len]. rewrite Mm. split; [lia|]. split; [exact I|].
    apply Forall_forall. intros y Hy. apply in_map_iff in Hy. destruct Hy as (b & <- & _). exact I.
  - intros x (bs & -> & Lb). destruct (C05_double gray gens bp bs) as (ys & Ey & _); auto.
    + eapply Forall_impl; [|exact H]. intros g Hg. apply Hg.
    + eapply Forall_impl; [|exact Hn]. cbn. intros; lia.
    + unfold decode_genotype. change (map GBit bs) with (bits_to_geno bs). rewrite geno_bits_id, Ey. eauto.
  - destruct Ev as (f & cl & N & Fk & T). exists f, cl. split; auto. split; auto. intros k pt gen best i D. apply T. apply grid_box; auto. eapply double_points; eauto.
Qed.

(** C70, BinaryGA: every call of the objective is on a grid point of the box, up to rounding.
    Input individuals outside the box are rejected. *)
Theorem C70_binary_calls : forall fuel cf gray gens s gd' cl s', Forall fine gens -> plain_double cf -> Forall double_input (cf_input_population cf) ->
  binary_ga fuel cf gray gens s = Ok (gd', cl) s' ->
  exists calls, log s' = calls ++ log s /\ Forall (fun x => double_grid gens (fst x) /\ double_box gens (fst x)) calls.
Proof. intros. eapply binary_calls_any; eauto. intros f cl0. apply new_plain. auto. Qed.
(** C70, BinaryGA: a valid configuration never raises.  At least two genes (with one gene the
    requirement is that it has two bits). *)
Theorem C70_binary_safe : forall fuel cf gray gens s, Forall fine gens -> plain_double cf -> valid_double cf ->
  ((2 <= length gens)%nat \/ exists g n stp, gens = [g] /\ gene_params g = inr (n, stp) /\ 2 <= n) ->
  named_level (cf_mutation_lvl cf) \/ number_level (cf_mutation_lvl cf) ->
  Forall (fun x => exists xs, double_vector x xs /\ Forall2 between gens xs) (cf_input_population cf) ->
  number_on cf (double_box gens) ->
  forall e, binary_ga fuel cf gray gens s <> Err e.
Proof. intros. apply binary_safe_any; auto; [intros f cl; apply new_plain; auto|apply double_evaluates; auto]. Qed.

(** *** CombinatoryGA *)
Lemma combinatory_calls_any : forall fuel cf a b k s gd' cl s', numbers_made cf -> Forall (arrangement a b k) (cf_input_population cf) ->
  combinatory_ga fuel cf a b k s = Ok (gd', cl) s' ->
  exists calls, log s' = calls ++ log s /\ Forall (fun x => arrangement a b k (fst x)) calls.
Proof.
  intros fuel cf a b k s gd' cl s' V Hi H. unfold combinatory_ga in H. eapply (@optimize_domain_any Fops number) in H; [| | |exact V|reflexivity| |].
  - destruct H as (calls & El & F). exists calls. split; auto. eapply Forall_impl; [|exact F]. intros x (geno & D & Sp). cbn in Sp. rewrite Sp. exact D.
  - exact Forder_number.
  - vm_compute. reflexivity.
  - intros l m Hm. unfold new_combi in Hm. destruct l; repeat (destruct (String.eqb _ _) in Hm || destruct (out_of_01 _) in Hm); inversion Hm; constructor.
  - intros x geno Hx E. cbn in E. inversion E; subst. rewrite Forall_forall in Hi. apply (Hi _ Hx).
Qed.
Theorem C70_combinatory_calls : forall fuel cf a b k s gd' cl s', plain_double cf -> Forall (arrangement a b k) (cf_input_population cf) ->
  combinatory_ga fuel cf a b k s = Ok (gd', cl) s' ->
  exists calls, log s' = calls ++ log s /\ Forall (fun x => arrangement a b k (fst x)) calls.
Proof. intros. eapply combinatory_calls_any; eauto. intros f cl0. apply new_plain. auto. Qed.
Lemma combinatory_safe_any : forall fuel cf a b k s, numbers_made cf -> valid_double cf -> 3 <= k <= b - a + 1 ->
  named_level (cf_mutation_lvl cf) \/ number_level (cf_mutation_lvl cf) ->
  Forall (arrangement a b k) (cf_input_population cf) -> evaluates cf (arrangement a b k) ->
  forall e, combinatory_ga fuel cf a b k s <> Err e.
Proof.
  intros fuel cf a b k s V Vd Hk Hl Hin Sc.
  assert (M : exists x, new_combi Movement (cf_mutation_lvl cf) = inr (MutCombi Movement x)).
  { unfold new_combi. destruct (cf_mutation_lvl cf) as [st|x|]; destruct Hl as [Hl|Hl]; try contradiction.
    - destruct Hl as [-> |[-> | ->]]; cbn [String.eqb Ascii.eqb Bool.eqb]; eauto.
    - rewrite (level_in_01 x) by apply Hl. eauto. }
  destruct M as (x & Em).
  apply (@optimize_safe_any Fops number fuel cf (GenOrd a b k) _ Order (new_combi Movement) s (GenOrd a b k) (MutCombi Movement x)); auto.
  - exact Forder_number.
  - cbn. lia.
  - intros; discriminate.
  - eapply Forall_impl; [|exact Hin]. intros y Hy. exists y. split; auto.
  - constructor.
  - exact I.
  - intros y (zs & -> & Lz & _). rewrite map_length. cbn [min_len mut_pre combi_min]. split; [lia|]. split; [rewrite map_length; lia|].
    apply Forall_forall. intros z Hz. apply in_map_iff in Hz. destruct Hz as (w & <- & _). exact I.
  - destruct Sc as (f & cl & N & Fk & T). exists f, cl. split; auto. split; auto. intros j pt gen best i (geno & D & Sp). apply T. cbn in Sp. rewrite Sp. exact D.
Qed.
Theorem C70_combinatory_safe : forall fuel cf a b k s, plain_double cf -> valid_double cf -> 3 <= k <= b - a + 1 ->
  named_level (cf_mutation_lvl cf) \/ number_level (cf_mutation_lvl cf) ->
  Forall (arrangement a b k) (cf_input_population cf) -> number_on cf (arrangement a b k) ->
  forall e, combinatory_ga fuel cf a b k s <> Err e.
Proof. intros. apply combinatory_safe_any; auto; [intros f cl; apply new_plain; auto|apply double_evaluates; auto]. Qed.

(** *** CategoricalGA *)
Lemma categorical_calls_any : forall fuel cf gens s gd' cl s', numbers_made cf -> Forall (from_pools gens) (cf_input_population cf) ->
  categorical_ga fuel cf gens s = Ok (gd', cl) s' ->
  exists calls, log s' = calls ++ log s /\ Forall (fun x => from_pools gens (fst x)) calls.
Proof.
  intros fuel cf gens s gd' cl s' V Hi H. unfold categorical_ga in H. eapply (@optimize_domain_any Fops number) in H; [| | |exact V|reflexivity| |].
  - destruct H as (calls & El & F). exists calls. split; auto. eapply Forall_impl; [|exact F]. intros x (geno & D & Sp). cbn in Sp. rewrite Sp. exact D.
  - exact Forder_number.
  - vm_compute. reflexivity.
  - intros l m Hm. unfold new_cat in Hm. destruct l; repeat (destruct (out_of_01 _) in Hm); inversion Hm; constructor; discriminate.
  - intros x geno Hx E. cbn in E. inversion E; subst. rewrite Forall_forall in Hi. apply (Hi _ Hx).
Qed.
Theorem C70_categorical_calls : forall fuel cf gens s gd' cl s', plain_double cf -> Forall (from_pools gens) (cf_input_population cf) ->
  categorical_ga fuel cf gens s = Ok (gd', cl) s' ->
  exists calls, log s' = calls ++ log s /\ Forall (fun x => from_pools gens (fst x)) calls.
Proof. intros. eapply categorical_calls_any; eauto. intros f cl0. apply new_plain. auto. Qed.
(** The listed values may be doubles, but not NaN. *)
Definition no_nan_pool (p : cgen) : Prop := match p with CList l => Forall (fun g => match g with GNum x => number x | _ => True end) l | _ => True end.
Lemma categorical_safe_any : forall fuel cf gens s, numbers_made cf -> valid_double cf -> Forall good_pool gens -> Forall no_nan_pool gens ->
  number_level (cf_mutation_lvl cf) ->
  Forall (from_pools gens) (cf_input_population cf) -> evaluates cf (from_pools gens) ->
  forall e, categorical_ga fuel cf gens s <> Err e.
Proof.
  intros fuel cf gens s V Vd Hg Hnn Hl Hin Sc.
  assert (M : exists x, new_cat (cf_mutation_lvl cf) = inr (MutCat x)).
  { unfold new_cat. destruct (cf_mutation_lvl cf) as [st|x|]; try contradiction. rewrite (level_in_01 x) by apply Hl. eauto. }
  destruct M as (x & Em).
  assert (Pf : Forall (@pool_fine Fops number) gens) by exact Hnn.
  apply (@optimize_safe_any Fops number fuel cf (GenCat gens) _ Uniform new_cat s (GenCat gens) (MutCat x)); auto.
  - exact Forder_number.
  - cbn. eapply Forall_impl; [|exact Hg]. apply good_pool_usable.
  - intros; discriminate.
  - eapply Forall_impl; [|exact Hin]. intros y Hy. exists y. split; auto.
  - constructor. discriminate.
  - exact I.
  - intros y Dy. cbn [min_len mut_pre]. split; [lia|]. cbn in Dy. split.
    + clear - Hg Pf Dy. induction Dy; inversion Hg; inversion Pf; subst; constructor; auto. apply (@good_pool_ok Fops number Forder_number); auto.
    + clear - Pf Dy. induction Dy; inversion Pf; subst; constructor; auto. eapply pool_gene_ok; eauto.
  - destruct Sc as (f & cl & N & Fk & T). exists f, cl. split; auto. split; auto. intros j pt gen best i (geno & D & Sp). apply T. cbn in Sp. rewrite Sp. exact D.
Qed.
Theorem C70_categorical_safe : forall fuel cf gens s, plain_double cf -> valid_double cf -> Forall good_pool gens -> Forall no_nan_pool gens ->
  number_level (cf_mutation_lvl cf) ->
  Forall (from_pools gens) (cf_input_population cf) -> number_on cf (from_pools gens) ->
  forall e, categorical_ga fuel cf gens s <> Err e.
Proof. intros. apply categorical_safe_any; auto; [intros f cl; apply new_plain; auto|apply double_evaluates; auto]. Qed.

(** *** Cases *)
(** An objective in doubles: the sum of the absolute values; plus infinity when there is nothing to add. *)
Definition abs_obj : objfun := Obj1 (fun _ genes => inr (OScalar
  (match genes with
   | [] => S754_infinity false
   | _ => nofZ (Z.min 1000 (fold_left (fun acc g => match g with GInt z => acc + Z.abs z | GNum x => acc + match f_trunc x with Some z => Z.abs z | None => 0 end | _ => acc end) genes 0))
   end))).
Lemma abs_numbers : returns_numbers abs_obj.
Proof. intros k g x E. injection E as <-. destruct g as [|v g]; [split; [reflexivity|discriminate]|]. apply nofZ_number. Qed.
Definition safe_double (lv : lvl) (inp : list (list gv)) : config := mkCfg 3 5 abs_obj (T1 (fq 1 2)) None PNone None (fq 6 10) None inp 2 lv "best" false.
Lemma safe_plain : forall lv inp, plain_double (safe_double lv inp).
Proof. intros lv inp. split; [reflexivity|]. split; [exact abs_numbers|]. split; vm_compute; reflexivity. Qed.
Lemma safe_valid : forall lv inp, Z.of_nat (length inp) <= 5 -> valid_double (safe_double lv inp).
Proof.
  intros lv inp H. split; [cbn; lia|]. split; [exists 3; split; [|lia]; vm_cast_no_check (eq_refl (Some 3))|]. split; [left; reflexivity|exact H].
Qed.
Lemma safe_on : forall lv inp sp, number_on (safe_double lv inp) sp.
Proof. intros lv inp sp k genes _. eexists. cbn [cf_objective cf_input_data safe_double given]. unfold abs_obj. exact (answer_1 _ k genes). Qed.
Example C70_binary_example : forall fuel gray s e, binary_ga fuel (safe_double (LStr "normal") [[GNum (nofZ 0); GInt 3]]) gray two_genes s <> Err e.
Proof.
  intros fuel gray s. apply C70_binary_safe.
  - apply C04_double_meets.
  - apply safe_plain.
  - apply safe_valid. cbn. lia.
  - left. cbn. lia.
  - left. right. left. reflexivity.
  - constructor; [|constructor]. exists [nofZ 0; nofZ 3]. split.
    + constructor; [left; split; [reflexivity|vm_compute; reflexivity]|]. constructor; [right; exists 3; auto|constructor].
    + constructor; [is_between|constructor; [is_between|constructor]].
  - apply safe_on.
Qed.
Example C70_combinatory_example : forall fuel s e, combinatory_ga fuel (safe_double (LStr "strong") []) 0 6 4 s <> Err e.
Proof. intros fuel s. apply C70_combinatory_safe; [apply safe_plain|apply safe_valid; cbn; lia|lia|left; right; right; reflexivity|constructor|apply safe_on]. Qed.
Example C70_categorical_example : forall fuel s e, categorical_ga fuel (safe_double (LFloat (fq 1 2)) []) [CRange 0 9 3; CList [GNum (fq 1 10); GNum (S754_infinity true); GInt 5]; CList [GStr "a"]] s <> Err e.
Proof.
  intros fuel s. apply C70_categorical_safe.
  - apply safe_plain.
  - apply safe_valid. cbn. lia.
  - constructor; [cbn; lia|]. constructor; [right; exists (@GNum Fops (fq 1 10)), (@GInt Fops 5); split; [left; reflexivity|split; [right; right; left; reflexivity|vm_compute; reflexivity]]|]. constructor; [left; eauto|constructor].
  - constructor; [exact I|]. constructor; [|constructor; [|constructor]].
    + constructor; [split; [vm_compute; reflexivity|vm_compute; discriminate]|]. constructor; [split; [reflexivity|discriminate]|]. constructor; [exact I|constructor].
    + constructor; [exact I|constructor].
  - cbn. split; vm_compute; reflexivity.
  - constructor.
  - apply safe_on.
Qed.
(** Such a run ends: the number of calls and the best point of a run of BinaryGA; its first
    call is on the decoded input individual, (0.0, 3) moved to the grid. *)
Definition run_double : outcome (gadata * option (list string)) := binary_ga 50 (safe_double (LStr "normal") [[GNum (nofZ 0); GInt 3]]) true two_genes ffresh.
Example C70_case : match run_double with Ok _ s => Some (length (log s), map fst (firstn 1 (rev (log s)))) | _ => None end =
  Some (11%nat, [[GNum (S754_finite false 4503599627370496 (-107)); GNum (S754_finite false 6537483330053946 (-51))]]).
Proof. run. Qed.
(** Just outside the conditions: a target list, a NaN individual, and a step so small that the number of intervals overflows. *)
Definition error_of {A} (o : outcome A) : option exn := match o with Err e => Some e | _ => None end.
Example C70_nan_input_case : error_of (binary_ga 50 (safe_double (LStr "normal") [[GNum S754_nan; GInt 3]]) true two_genes ffresh) = Some ValueError.
Proof. run. Qed.
Example C70_tiny_step_case : error_of (binary_ga 50 (safe_double (LStr "normal") []) true [(nofZ 0, nofZ 10, S754_finite false 1 (-1074))] ffresh) = Some OverflowError.
Proof. run. Qed.

Print Assumptions C70_binary_calls.
Print Assumptions C70_binary_safe.
Print Assumptions C70_combinatory_calls.
Print Assumptions C70_combinatory_safe.
Print Assumptions C70_categorical_calls.
Print Assumptions C70_categorical_safe.
