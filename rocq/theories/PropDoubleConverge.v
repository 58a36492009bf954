(** Property C87: in IEEE doubles, too, runs of BinaryGA, CategoricalGA and CombinatoryGA on
    full tours converge in probability and end with probability 1. *)
From Coq Require Import String.
From Coq Require Import ZArith QArith Qabs Qminmax Qreals Reals Bool List Lia Lra Floats.SpecFloat.
From Coq Require Lqa.
From Flocq Require Import Core IEEE754.BinarySingleNaN.
From Verif Require Import Spec Num State Binary Population GaData Crossover Mutation Selection Penalty Fitness NewGeneration Driver
  ListLemmas Rnd Exec Laws Float BinaryProofs CodingProofs PopulationProofs CrossoverProofs MutationProofs SelectionProofs AssessProofs FitnessProofs StepProofs RunProofs Runs
  PropRun PropBest PropFitness DomainProofs SafetyProofs OptimizeProofs ReachProofs Demo FloatProofs FloatDecode FloatEncode PropFloat PropDoubleCoding PropDoubleRun
  Chance ChanceProofs SelChanceProofs PropSelChance PropMutChance ChanceRun ChanceRunProofs ConvergeProofs PropConverge TourLuck TourSteps TourPaths TourRun PropTour AnyRunProofs.
Import ListNotations.
Open Scope string_scope.
Open Scope list_scope.
Open Scope Z_scope.
Local Existing Instance Fops.
Local Existing Instance prec_pos.
Local Existing Instance prec_emax.

(** *** Levels *)
(** A finite level from 0 to 0.998: every gene may be mutated, and none must. *)
Definition tempered (x : spec_float) : Prop := finite x /\ (0 <= f_val x)%Q /\ (f_val x <= 998 # 1000)%Q.
Lemma nofZ_near : forall z, exists b : bin, nofZ z = B2SF b /\ near b (IZR z).
Proof.
  intros z. cbn [nofZ Fops]. rewrite normalize_same. eexists. split; [reflexivity|].
  pose proof (binary_normalize_correct fprec femax prec_pos prec_emax mode_NE z 0 false) as H. cbv zeta in H. change (round_mode mode_NE) with ZnearestE in H.
  assert (V : F2R (Float radix2 z 0) = IZR z) by (unfold F2R; cbn; ring). rewrite V in H. eapply near_of. exact H.
Qed.
Lemma literal : forall x q, finite x -> (f_val x == q)%Q -> exists b : bin, x = B2SF b /\ is_finite b = true /\ B2R b = Q2R q.
Proof. intros x q F E. destruct (finite_bin x F) as (b & <- & Fb). exists b. split; auto. split; auto. rewrite val_real. now apply Qeq_eqR. Qed.
Lemma tempered_undecided : forall x, tempered x -> undecided x.
Proof.
  intros x (F & L0 & L1). destruct (finite_bin x F) as (b & <- & Fb). apply Qle_Rle in L0, L1. rewrite <- val_real in L0, L1.
  destruct (literal (@nofZ Fops 1000) 1000 ltac:(split; vm_compute; reflexivity) ltac:(vm_compute; reflexivity)) as (t & Et & Ft & Vt).
  destruct (literal (@nofZ Fops 998) 998 ltac:(split; vm_compute; reflexivity) ltac:(vm_compute; reflexivity)) as (u & Eu & Fu & Vu).
  destruct (literal (@nofZ Fops 0) 0 ltac:(split; vm_compute; reflexivity) ltac:(vm_compute; reflexivity)) as (o & Eo & Fo & Vo).
  assert (P : near (Bmult mode_NE b t) (B2R b * B2R t)) by (apply near_mult; auto; rewrite ?Vt; unfold Q2R in *; cbn in *; lra).
  assert (M : nmul (B2SF b) (nofZ 1000) = B2SF (Bmult mode_NE b t)) by (rewrite Et; apply mul_same).
  assert (N : not_nan (B2SF (Bmult mode_NE b t))) by (apply near_nan in P; intros C; destruct (Bmult mode_NE b t); discriminate).
  split; [exists 0|exists 999]; (split; [lia|]); unfold fires; rewrite M.
  - rewrite Eo. apply (near_le o _ (B2R o) (B2R b * B2R t)); [apply near_self; auto|exact P|]. rewrite Vo, Vt. unfold Q2R in *. cbn in *. lra.
  - assert (K : SFleb (B2SF (Bmult mode_NE b t)) (nofZ 998) = true).
    { rewrite Eu. apply (near_le _ u (B2R b * B2R t) (B2R u)); [exact P|apply near_self; auto|]. rewrite Vu, Vt. unfold Q2R in *. cbn in *. lra. }
    destruct (@nleb Fops (nofZ 999) (B2SF (Bmult mode_NE b t))) eqn:E; [|reflexivity]. exfalso. cbn [nleb Fops] in E.
    assert (N9 : not_nan (nofZ 999)) by (vm_compute; discriminate). assert (N8 : not_nan (nofZ 998)) by (vm_compute; discriminate).
    rewrite f_le in E, K by auto. rewrite negb_true_iff in E, K. pose proof (no_negtrans _ _ Forder _ _ _ N8 N N9 K E) as C. vm_compute in C. discriminate C.
Qed.
Lemma tempered_level : forall x, tempered x -> number_level (LFloat x).
Proof.
  intros x (F & L0 & L1). destruct (finite_bin x F) as (b & <- & Fb). apply Qle_Rle in L0, L1. rewrite <- val_real in L0, L1.
  destruct (literal (@nofZ Fops 1) 1 ltac:(split; vm_compute; reflexivity) ltac:(vm_compute; reflexivity)) as (t & Et & Ft & Vt).
  destruct (literal (@nofZ Fops 0) 0 ltac:(split; vm_compute; reflexivity) ltac:(vm_compute; reflexivity)) as (o & Eo & Fo & Vo).
  cbn [number_level]. change (S754_zero false) with (@nofZ Fops 0). rewrite Et, Eo. split.
  - apply (near_le o b (B2R o) (B2R b)); try (apply near_self; auto). rewrite Vo. unfold Q2R in *. cbn in *. lra.
  - apply (near_le b t (B2R b) (B2R t)); try (apply near_self; auto). rewrite Vt. unfold Q2R in *. cbn in *. lra.
Qed.
(** The named levels of the binary mutation are divided by the number of bits. *)
Lemma shared_level : forall (c : spec_float) q m n, finite c -> (f_val c == q)%Q -> (0 <= q)%Q -> 1 <= m <= n -> m <= 4 -> (q <= (3 # 4) * inject_Z m)%Q ->
  exists x, py_div c (nofZ n) = inr x /\ tempered x.
Proof.
  intros c q m n Fc Ec Q0 Hm H4 Qm. destruct (literal c q Fc Ec) as (cb & -> & Fcb & Vc).
  unfold py_div. rewrite (nofZ_positive n) by lia. eexists. split; [reflexivity|]. cbn [ndiv_raw Fops].
  destruct (nofZ_near n) as (b & Eb & Nb). rewrite Eb, div_same.
  assert (Z3 : exists t : bin, is_finite t = true /\ B2R t = Q2R (3 # 4)).
  { destruct (literal (fq 3 4) (3 # 4) ltac:(split; vm_compute; reflexivity) ltac:(vm_compute; reflexivity)) as (t & _ & Ft & Vt). eauto. }
  destruct Z3 as (t3 & F3 & V3).
  assert (Am : above (IZR m) b).
  { apply (near_above b (IZR n)); auto; [| |apply IZR_le; lia].
    - assert (C : m = 1 \/ m = 2 \/ m = 3 \/ m = 4) by lia.
      destruct C as [-> |[-> |[-> | ->]]]; [destruct (literal (@nofZ Fops 1) 1 ltac:(split; vm_compute; reflexivity) ltac:(vm_compute; reflexivity)) as (t & _ & Ft & Vt)
        |destruct (literal (@nofZ Fops 2) 2 ltac:(split; vm_compute; reflexivity) ltac:(vm_compute; reflexivity)) as (t & _ & Ft & Vt)
        |destruct (literal (@nofZ Fops 3) 3 ltac:(split; vm_compute; reflexivity) ltac:(vm_compute; reflexivity)) as (t & _ & Ft & Vt)
        |destruct (literal (@nofZ Fops 4) 4 ltac:(split; vm_compute; reflexivity) ltac:(vm_compute; reflexivity)) as (t & _ & Ft & Vt)];
        pose proof (rnd_bin t) as R; rewrite Vt in R; unfold Q2R in R; cbn in R; rewrite Rinv_1, Rmult_1_r in R; exact R.
    - pose proof top_pos. assert (1 <= IZR m)%R by (apply IZR_le; lia). lra. }
  apply Qle_Rle in Q0, Qm. rewrite Q2R_mult, Q2R_Z in Qm. assert (M1 : (1 <= IZR m)%R) by (apply IZR_le; lia). assert (Q00 : Q2R 0 = 0%R) by (unfold Q2R; cbn; lra). rewrite Q00 in Q0.
  assert (G : is_finite (Bdiv mode_NE cb b) = true /\ (0 <= B2R (Bdiv mode_NE cb b) <= Q2R (3 # 4))%R).
  { destruct Am as [-> |[Fb Lb]].
    - destruct cb as [s|s| |s mm ee He]; try discriminate Fcb; cbn; (split; [reflexivity|unfold Q2R; cbn; lra]).
    - assert (D : near (Bdiv mode_NE cb b) (B2R cb / B2R b)) by (apply near_div; auto; lra).
      assert (D0 : (0 <= B2R cb / B2R b)%R) by (rewrite Vc; apply Rmult_le_pos; [exact Q0|left; apply Rinv_0_lt_compat; lra]).
      assert (D1 : (B2R cb / B2R b <= Q2R (3 # 4))%R).
      { apply (Rmult_le_reg_r (B2R b)); [lra|]. unfold Rdiv. rewrite Rmult_assoc, Rinv_l, Rmult_1_r by lra. rewrite Vc. eapply Rle_trans; [exact Qm|]. apply Rmult_le_compat_l; [unfold Q2R; cbn; lra|exact Lb]. }
      apply rnd_le in D0, D1. rewrite rnd_0 in D0. rewrite <- V3, rnd_bin, V3 in D1. pose proof (abs_B2R_lt_emax _ _ t3) as T3. rewrite V3 in T3.
      assert (P3 : (Rabs (Q2R (3 # 4)) = Q2R (3 # 4))%R) by (apply Rabs_pos_eq; unfold Q2R; cbn; lra). rewrite P3 in T3.
      destruct D as [(A & Fd & Ed)|[[A _]|[A _]]]; [rewrite Ed; auto|lra|pose proof top_pos; lra]. }
  destruct G as (Fd & D0 & D1). split; [split; [apply bin_double|now rewrite is_finite_SF_B2SF]|]. rewrite val_real in D0, D1.
  split; apply Rle_Qle; [rewrite Q00; exact D0|]. eapply Rle_trans; [exact D1|]. unfold Q2R. cbn. lra.
Qed.
Definition tempered_lvl (l : lvl) (bits : Z) : Prop :=
  match l with
  | LFloat x => tempered x
  | LStr s => s = "weak" \/ s = "normal" \/ (s = "strong" /\ 4 <= bits)
  | LOther => False
  end.
Lemma tempered_update : forall l n, 2 <= n -> tempered_lvl l n -> (named_level l \/ number_level l) /\ exists x, update_level l n = inr x /\ undecided x.
Proof.
  intros l n Hn H. destruct l as [st|x|]; [| |destruct H].
  - split; [left; cbn in *; tauto|]. cbn [update_level]. destruct H as [-> |[-> |[-> H4]]]; cbn [String.eqb Ascii.eqb Bool.eqb].
    + destruct (shared_level (@dec Fops 3 10) (f_val (@dec Fops 3 10)) 1 n) as (x & E & T); [split; vm_compute; reflexivity|reflexivity|vm_compute; discriminate|lia|lia|vm_compute; discriminate|].
      exists x. split; auto. now apply tempered_undecided.
    + destruct (shared_level (@nofZ Fops 1) 1 2 n) as (x & E & T); [split; vm_compute; reflexivity|vm_compute; reflexivity|vm_compute; discriminate|lia|lia|vm_compute; discriminate|].
      exists x. split; auto. now apply tempered_undecided.
    + destruct (shared_level (@nofZ Fops 3) 3 4 n) as (x & E & T); [split; vm_compute; reflexivity|vm_compute; reflexivity|vm_compute; discriminate|lia|lia|vm_compute; discriminate|].
      exists x. split; auto. now apply tempered_undecided.
  - split; [right; apply tempered_level, H|]. exists x. split; [reflexivity|]. apply tempered_undecided, H.
Qed.

Ltac qlra := Lqa.lra.
(** *** Whole runs *)
Lemma zero_eq : neqb (nofZ 0) nzero = true.
Proof. vm_compute. reflexivity. Qed.
(** Two genes, or one gene of two bits. *)
Definition two_bits_double (gens : list (@bgene Fops)) : Prop := (2 <= length gens)%nat \/ exists g n stp, gens = [g] /\ gene_params g = inr (n, stp) /\ 2 <= n.
Definition boxed (gens : list (@bgene Fops)) (x : list gv) : Prop := exists xs, double_vector x xs /\ Forall2 between gens xs.
(** The points of the search space: what the codes, bit strings of the right length, stand for. *)
Definition coded (gray : bool) (gens : list (@bgene Fops)) (bp : bparams) (y : list gv) : Prop :=
  exists bs ys, Z.of_nat (length bs) = zsum (num_bits bp) /\ binary_individ_to_float gray gens bp bs = inr ys /\ y = map GNum ys.
(** Every vector between the bounds has a point of the space near it. *)
Definition beside (gens : list (@bgene Fops)) (bp : bparams) (xs : list spec_float) (y : list gv) : Prop :=
  exists ys, y = map GNum ys /\ Forall4 decoded_near gens (num_bits bp) xs ys.
Lemma coded_beside : forall gray gens bp xs, Forall fine gens -> get_gens_params gens = inr bp -> Forall2 between gens xs -> exists y, coded gray gens bp y /\ beside gens bp xs y.
Proof.
  intros gray gens bp xs H P B. destruct (C04_double gray gens xs H B) as (bp' & bs & ys & P' & _ & _ & L & D & F). rewrite P in P'. injection P' as <-.
  exists (map GNum ys). split; [exists bs, ys; auto|exists ys; auto].
Qed.
Lemma fine_two : forall gray gens bp, Forall fine gens -> get_gens_params gens = inr bp -> two_bits_double gens ->
  2 <= zsum (num_bits bp) /\ last (idx_bits bp) 0 = zsum (num_bits bp) /\ prepare (GenBinary gray gens bparams0) = inr (GenBinary gray gens bp) /\ Forall (fun n => 1 <= n <= 49) (num_bits bp).
Proof.
  intros gray gens bp H P H2. destruct (fine_prepared gray gens H) as (bp' & P' & Pg & Hn & Ln). rewrite P in P'. injection P' as <-.
  destruct (@prepared_usable Fops gray gens bparams0 _ zero_eq Pg) as (bp' & Eb & Us & ps & Eps & Fps). assert (Eq : bp' = bp) by congruence. rewrite Eq in *. clear Eb Eq bp'.
  split; [|split; [rewrite Eps, idx_bits_total, zsum_fold; reflexivity|auto]].
  destruct H2 as [H2|(g & n & stp & -> & Gp & Hg)].
  - assert (K : Z.of_nat (length (num_bits bp)) <= zsum (num_bits bp)) by (clear - Hn; induction Hn; cbn [length zsum]; lia). lia.
  - rewrite Eps. inversion Fps as [|? p ? ? Gp' F]; subst. inversion F; subst. rewrite Gp in Gp'. injection Gp' as <-. cbn. lia.
Qed.
Lemma binary_fits : forall cf gray gens bp, Forall fine gens -> get_gens_params gens = inr bp -> plain_double cf -> valid_double cf -> two_bits_double gens ->
  named_level (cf_mutation_lvl cf) \/ number_level (cf_mutation_lvl cf) -> Forall (boxed gens) (cf_input_population cf) -> number_on cf (double_box gens) ->
  fits number cf (GenBinary gray gens bparams0) OnePoint new_bin (GenBinary gray gens bp) (MutBin (cf_mutation_lvl cf)).
Proof.
  intros cf gray gens bp H P V Vd H2 Hl Hin Sc. destruct (fine_two gray gens bp H P H2) as (Two & El & Pg & Hn).
  split; [exact Vd|]. split; [exact Pg|]. split; [|split; [|split; [|split; [|split; [|split; [|split]]]]]].
  - eapply Forall_impl; [|exact Hin]. intros x (xs & Vx & Bx). destruct (C06_double gray gens bp xs H P (vector_double _ _ Vx)) as [Ok _]. destruct (Ok Bx) as (bs & Eb & Lb).
    exists (bits_to_geno bs). split; [|exists bs; auto]. cbn [input_genotype]. rewrite (vector_gvs_num _ _ Vx), Eb. reflexivity.
  - unfold new_bin. destruct (cf_mutation_lvl cf) as [st|x|]; destruct Hl as [Hl|Hl]; try contradiction.
    + destruct Hl as [-> |[-> | ->]]; cbn; eauto.
    + rewrite (level_in_01 x) by apply Hl. eauto.
  - constructor; [discriminate|exact I].
  - cbn [mut_spec_ok]. destruct (cf_mutation_lvl cf) as [st|x|]; [|exact I|destruct Hl as [[]|[]]]. rewrite El. apply nofZ_positive. lia.
  - intros x (bs & -> & Lb). rewrite map_length. cbn [min_len]. split; [lia|]. split; [exact I|].
    apply Forall_forall. intros y Hy. apply in_map_iff in Hy. destruct Hy as (b & <- & _). exact I.
  - intros x (bs & -> & Lb). destruct (C05_double gray gens bp bs) as (ys & Ey & _); auto.
    + eapply Forall_impl; [|exact H]. intros g Hg. apply Hg.
    + eapply Forall_impl; [|exact Hn]. cbn. intros; lia.
    + unfold decode_genotype. change (map GBit bs) with (bits_to_geno bs). rewrite geno_bits_id, Ey. eauto.
  - apply double_evaluates; auto. intros k genes Dg. apply Sc. apply grid_box; auto. eapply double_points; eauto.
  - intros f cl N. eapply new_plain; eauto.
Qed.
Lemma binary_hit : forall gray gens bp l level y Y, Forall fine gens -> get_gens_params gens = inr bp -> two_bits_double gens ->
  update_level l (zsum (num_bits bp)) = inr level -> coded gray gens bp y -> Y y = true ->
  exists T, may_hit T Y (MutBin l) (GenBinary gray gens bp) (1 - qpow (either_way level) (Z.to_nat (zsum (num_bits bp)))).
Proof.
  intros gray gens bp l level y Y H P H2 Ul (bs & ys & Lb & Db & ->) HY. destruct (fine_two gray gens bp H P H2) as (Two & El & Pg & Hn).
  exists (bits_eqb bs). split.
  - intros x pt Tx Dx Sp. apply any_bits_eq in Tx. subst x. cbn [spec_point] in Sp. unfold decode_genotype in Sp. change (map GBit bs) with (bits_to_geno bs) in Sp.
    rewrite geno_bits_id, Db in Sp. inversion Sp; subst pt. exact HY.
  - eexists. split; [cbn [mutator]; rewrite El, Ul; reflexivity|]. intros x s (bs' & -> & Lb').
    assert (E : Z.to_nat (zsum (num_bits bp)) = length bs') by lia. rewrite E. apply any_bits_miss. lia.
Qed.
Lemma rest_nonneg : forall level n, (0 <= 1 - qpow (either_way level) n)%Q.
Proof. intros level n. destruct (either_range level) as [R0 R1]. pose proof (qpow_le_one _ n R0 R1). qlra. Qed.

(** C87, BinaryGA.  A run that returns has evaluated a given point of the space except with
    probability (1 - d^L)^(N - 1): N generations, L bits, and d the smaller of the
    probabilities of a mutation of one bit and of its absence.  With transfer "random", or
    with as many children as individuals, the same holds of the whole run, up to the
    probability of a search for a second parent of more than [fuel] draws. *)
Theorem C87_binary : forall fuel cf gray gens bp level s y Y, Forall fine gens -> get_gens_params gens = inr bp -> plain_double cf -> valid_double cf -> two_bits_double gens ->
  named_level (cf_mutation_lvl cf) \/ number_level (cf_mutation_lvl cf) -> update_level (cf_mutation_lvl cf) (zsum (num_bits bp)) = inr level ->
  Forall (boxed gens) (cf_input_population cf) -> number_on cf (double_box gens) -> all_generations cf -> rnd_seed s = None -> coded gray gens bp y -> Y y = true ->
  (exists p, probability (binary_ga fuel cf gray gens) s (returns_without s Y) p /\
    (p <= qpow (1 - qpow (either_way level) (Z.to_nat (zsum (num_bits bp)))) (after_first cf))%Q) /\
  (no_copies cf -> exists p, probability (binary_ga fuel cf gray gens) s (fails s Y) p /\
    (p <= qpow (1 - qpow (either_way level) (Z.to_nat (zsum (num_bits bp)))) (after_first cf) + searching cf fuel)%Q).
Proof.
  intros fuel cf gray gens bp level s y Y H P V Vd H2 Hl Ul Hin Sc Fl Hs Cy HY. pose proof (binary_fits cf gray gens bp H P V Vd H2 Hl Hin Sc) as Fi.
  destruct (binary_hit gray gens bp (cf_mutation_lvl cf) level y Y H P H2 Ul Cy HY) as (T & MH). split.
  - eapply any_returns_without; eauto using Forder_number, zero_eq. apply rest_nonneg.
  - intros NT. eapply any_fails; eauto using Forder_number, zero_eq; [apply rest_nonneg|]. intros s' e. apply C70_binary_safe; auto.
Qed.

(** *** Categories *)
Lemma categorical_fits : forall cf gens level, plain_double cf -> valid_double cf -> Forall good_pool gens -> Forall no_nan_pool gens ->
  cf_mutation_lvl cf = LFloat level -> number_level (LFloat level) -> Forall (from_pools gens) (cf_input_population cf) -> number_on cf (from_pools gens) ->
  fits number cf (GenCat gens) Uniform new_cat (GenCat gens) (MutCat level) /\
  forall y Y, from_pools gens y -> (forall z, from_pools gens z -> gvs_eqb z y = true -> Y z = true) ->
    exists T, may_hit T Y (MutCat level) (GenCat gens) (1 - qprod (map (either_value level) gens)).
Proof.
  intros cf gens level V Vd Hg Hnn El Hl Hin Sc. assert (Pf : Forall (@pool_fine Fops number) gens) by exact Hnn.
  assert (Pk : forall z, from_pools gens z -> Forall2 (fun p a => pool_ok p a /\ In a (pool_values p) /\ gene_ok (ok := number) a) gens z).
  { intros z Dz. clear - Hg Pf Dz. induction Dz as [|p a ps z Ha Dz IH]; inversion Hg; inversion Pf; subst; constructor; auto.
    assert (Po : pool_ok p a) by (apply (@good_pool_ok Fops number Forder_number); auto). split; auto. split; [eapply gene_in_values; eauto|eapply pool_gene_ok; eauto]. }
  split.
  - split; [exact Vd|]. split; [reflexivity|]. split; [|split; [|split; [|split; [|split; [|split; [|split]]]]]].
    + eapply Forall_impl; [|exact Hin]. intros z Hz. exists z. split; auto.
    + rewrite El. unfold new_cat. rewrite (level_in_01 level) by apply Hl. reflexivity.
    + constructor. discriminate.
    + exact I.
    + intros z Dz. cbn [min_len mut_pre]. split; [lia|]. apply Pk in Dz. split; [eapply Forall2_impl; [|exact Dz]; cbv beta; tauto|].
      clear - Dz. induction Dz; constructor; auto. tauto.
    + intros; exact I.
    + apply double_evaluates; auto. intros k genes (geno & D & Sp). apply Sc. cbn in Sp. rewrite Sp. exact D.
    + intros f cl N. eapply new_plain; eauto.
  - intros y Y Fy HY. exists (fun g => gvs_eqb g y). split.
    + intros x pt Tx Dx Sp. cbn in Sp. subst pt. apply HY; auto.
    + eexists. split; [reflexivity|]. intros x s Dx.
      destruct (@any_cat_hit Fops number Forder_number level gens x y s (Pk x Dx)) as [D (e & Ae & Le)]. { apply Pk in Fy. eapply Forall2_impl; [|exact Fy]. cbv beta. tauto. }
      exists (1 - e)%Q. split; [apply any_complement; auto|qlra].
Qed.
Theorem C87_categorical : forall fuel cf gens level s y Y, plain_double cf -> valid_double cf -> Forall good_pool gens -> Forall no_nan_pool gens ->
  cf_mutation_lvl cf = LFloat level -> number_level (LFloat level) -> Forall (from_pools gens) (cf_input_population cf) -> number_on cf (from_pools gens) ->
  all_generations cf -> rnd_seed s = None -> from_pools gens y -> (forall z, from_pools gens z -> gvs_eqb z y = true -> Y z = true) ->
  (exists p, probability (categorical_ga fuel cf gens) s (returns_without s Y) p /\ (p <= qpow (1 - qprod (map (either_value level) gens)) (after_first cf))%Q) /\
  (no_copies cf -> exists p, probability (categorical_ga fuel cf gens) s (fails s Y) p /\
    (p <= qpow (1 - qprod (map (either_value level) gens)) (after_first cf) + searching cf fuel)%Q).
Proof.
  intros fuel cf gens level s y Y V Vd Hg Hnn El Hl Hin Sc Fl Hs Fy HY. destruct (categorical_fits cf gens level V Vd Hg Hnn El Hl Hin Sc) as (Fi & Mh). destruct (Mh y Y Fy HY) as (T & MH).
  assert (Q0 : (0 <= 1 - qprod (map (either_value level) gens))%Q) by (destruct (values_range level gens); qlra). split.
  - eapply any_returns_without; eauto using Forder_number, zero_eq.
  - intros NT. eapply any_fails; eauto using Forder_number, zero_eq. intros s' e. apply C70_categorical_safe; auto. rewrite El. exact Hl.
Qed.

(** *** Tours *)
Lemma combinatory_fits : forall cf a b k, plain_double cf -> valid_double cf -> 3 <= k <= b - a + 1 ->
  named_level (cf_mutation_lvl cf) \/ number_level (cf_mutation_lvl cf) -> Forall (arrangement a b k) (cf_input_population cf) -> number_on cf (arrangement a b k) ->
  exists x, new_combi Movement (cf_mutation_lvl cf) = inr (MutCombi Movement x) /\ fits number cf (GenOrd a b k) Order (new_combi Movement) (GenOrd a b k) (MutCombi Movement x).
Proof.
  intros cf a b k V Vd Hk Hl Hin Sc.
  assert (M : exists x, new_combi Movement (cf_mutation_lvl cf) = inr (MutCombi Movement x)).
  { unfold new_combi. destruct (cf_mutation_lvl cf) as [st|x|]; destruct Hl as [Hl|Hl]; try contradiction.
    - destruct Hl as [-> |[-> | ->]]; cbn [String.eqb Ascii.eqb Bool.eqb]; eauto.
    - rewrite (level_in_01 x) by apply Hl. eauto. }
  destruct M as (x & Em). exists x. split; auto.
  split; [exact Vd|]. split; [reflexivity|]. split; [|split; [exact Em|split; [|split; [|split; [|split; [|split]]]]]].
  - eapply Forall_impl; [|exact Hin]. intros y Hy. exists y. split; auto.
  - constructor.
  - exact I.
  - intros y (zs & -> & Lz & _). rewrite map_length. cbn [min_len mut_pre combi_min]. split; [lia|]. split; [rewrite map_length; lia|].
    apply Forall_forall. intros z Hz. apply in_map_iff in Hz. destruct Hz as (w & <- & _). exact I.
  - intros; exact I.
  - apply double_evaluates; auto. intros j genes (geno & D & Sp). apply Sc. cbn in Sp. rewrite Sp. exact D.
  - intros f cl N. eapply new_plain; eauto.
Qed.
(** The level of the mutation: its number, or the named one (base_combinatory_mutation.py:14-43). *)
Definition combi_level (l : lvl) : spec_float :=
  match l with LFloat x => x | LStr st => if String.eqb st "weak" then @dec Fops 3 100 else if String.eqb st "normal" then @dec Fops 1 10 else @dec Fops 3 10 | LOther => S754_nan end.

Lemma combi_level_is : forall l x, new_combi Movement l = inr (MutCombi Movement x) -> x = combi_level l.
Proof.
  intros l x H. unfold new_combi in H. destruct l as [st|y|]; [|destruct (out_of_01 y); [discriminate|now inversion H]|discriminate]. unfold combi_level.
  generalize dependent (@dec Fops 3 100). generalize (@dec Fops 1 10). generalize (@dec Fops 3 10). intros d3 d1 d0 H.
  destruct (String.eqb st "weak"); [now inversion H|]. destruct (String.eqb st "normal"); [now inversion H|]. destruct (String.eqb st "strong"); [now inversion H|discriminate].
Qed.
(** The chance of the lucky generations that lead from any population to a given tour. *)
Definition tour_luck (cf : config) (k : Z) : Q :=
  qpow (generation_chance (cf_num_individ cf) (cf_tournament_size cf) (offspring cf) k (either_way (combi_level (cf_mutation_lvl cf)))) (path_length k).
(** C87, CombinatoryGA on full tours with at least as many children as the tournament size:
    as C86, with an objective that gives the same answer whenever it is asked about a tour. *)
Theorem C87_combinatory : forall fuel cf a b k s z Y, (0 < fuel)%nat -> plain_double cf -> valid_double cf -> cf_tournament_size cf <= offspring cf -> 3 <= k -> k = b - a + 1 ->
  named_level (cf_mutation_lvl cf) \/ number_level (cf_mutation_lvl cf) -> Forall (arrangement a b k) (cf_input_population cf) -> number_on cf (arrangement a b k) ->
  answers_alike cf (arrangement a b k) -> all_generations cf -> rnd_seed s = None -> arrangement a b k z -> Y z = true ->
  (exists p, probability (combinatory_ga fuel cf a b k) s (returns_without s Y) p /\ (p <= qpow (1 - tour_luck cf k) (after_first cf / path_length k))%Q) /\
  (no_copies cf -> exists p, probability (combinatory_ga fuel cf a b k) s (fails s Y) p /\ (p <= qpow (1 - tour_luck cf k) (after_first cf / path_length k) + searching cf fuel)%Q).
Proof.
  intros fuel cf a b k s z Y Hf V Vd Mc Hk Ek Hl Hin Sc Rp Fl Hs Az HY. destruct (combinatory_fits cf a b k V Vd ltac:(lia) Hl Hin Sc) as (x & Em & Fi).
  apply combi_level_is in Em. subst x.
  assert (P1 : exists p, probability (combinatory_ga fuel cf a b k) s (returns_without s Y) p /\ (p <= qpow (1 - tour_luck cf k) (after_first cf / path_length k))%Q).
  { eapply (@any_tour Fops number Forder_number); eauto using zero_eq. split; [apply either_range|apply Qle_refl]. }
  split; [exact P1|]. intros NT. apply (any_either s _ (returns_without s Y) lost); auto.
  - apply any_treelike.
  - intros t e o. destruct o; reflexivity.
  - intros t e o. destruct o; reflexivity.
  - intros o _. destruct o; cbn [fails returns_without lost]; auto.
  - eapply (@any_ends Fops number Forder_number); eauto using zero_eq. intros s' e. apply C70_combinatory_safe; auto. lia.
Qed.

(** *** Runs end *)
Theorem C87_ends : 
  (forall fuel cf gray gens bp s, Forall fine gens -> get_gens_params gens = inr bp -> plain_double cf -> valid_double cf -> two_bits_double gens ->
    named_level (cf_mutation_lvl cf) \/ number_level (cf_mutation_lvl cf) -> Forall (boxed gens) (cf_input_population cf) -> number_on cf (double_box gens) -> no_copies cf -> rnd_seed s = None ->
    exists p, probability (binary_ga fuel cf gray gens) s lost p /\ (p <= searching cf fuel)%Q) /\
  (forall fuel cf gens s, plain_double cf -> valid_double cf -> Forall good_pool gens -> Forall no_nan_pool gens -> number_level (cf_mutation_lvl cf) ->
    Forall (from_pools gens) (cf_input_population cf) -> number_on cf (from_pools gens) -> no_copies cf -> rnd_seed s = None ->
    exists p, probability (categorical_ga fuel cf gens) s lost p /\ (p <= searching cf fuel)%Q) /\
  (forall fuel cf a b k s, plain_double cf -> valid_double cf -> 3 <= k <= b - a + 1 -> named_level (cf_mutation_lvl cf) \/ number_level (cf_mutation_lvl cf) ->
    Forall (arrangement a b k) (cf_input_population cf) -> number_on cf (arrangement a b k) -> no_copies cf -> rnd_seed s = None ->
    exists p, probability (combinatory_ga fuel cf a b k) s lost p /\ (p <= searching cf fuel)%Q) /\
  (forall cf eps, valid_double cf -> (0 < eps)%Q -> exists enough, forall fuel, (enough <= fuel)%nat -> (searching cf fuel < eps)%Q).
Proof.
  split; [|split; [|split]].
  - intros fuel cf gray gens bp s H P V Vd H2 Hl Hin Sc NT Hs. eapply (@any_ends Fops number Forder_number); eauto using zero_eq; [eapply binary_fits; eauto|]. intros s' e. apply C70_binary_safe; auto.
  - intros fuel cf gens s V Vd Hg Hnn Hl Hin Sc NT Hs. assert (El : exists level, cf_mutation_lvl cf = LFloat level) by (destruct (cf_mutation_lvl cf) as [st|x|]; [destruct Hl|eauto|destruct Hl]).
    destruct El as (level & El). destruct (categorical_fits cf gens level V Vd Hg Hnn El) as (Fi & _); auto; [rewrite <- El; exact Hl|].
    eapply (@any_ends Fops number Forder_number); eauto using zero_eq. intros s' e. apply C70_categorical_safe; auto.
  - intros fuel cf a b k s V Vd Hk Hl Hin Sc NT Hs. destruct (combinatory_fits cf a b k V Vd Hk Hl Hin Sc) as (x & _ & Fi).
    eapply (@any_ends Fops number Forder_number); eauto using zero_eq. intros s' e. apply C70_combinatory_safe; auto.
  - intros cf eps Vd He. apply searching_vanishes; auto.
Qed.

(** *** The reported best *)
(** The objective gives the finite double [f pt] on every point of the space, at every call. *)
Definition weighs (cf : config) (f : list gv -> spec_float) (space : list gv -> Prop) : Prop :=
  forall k pt, space pt -> answers (cf_objective cf) (given (cf_input_data cf)) k pt (inr (OScalar (f pt))).
Definition plain_finite (cf : config) : Prop :=
  cf_penalty cf = PNone /\ returns_finite (cf_objective cf) /\ match cf_obj_value cf with T1 t => finite t | TNone => True | TL _ => False end.
(** The value [x] is at least as good as [z]: not larger, exactly; or, with a target, of a
    score that is not lower. *)
Definition good_double (t : obj_target) (z x : spec_float) : bool :=
  match t with
  | TNone => Qle_bool (f_val x) (f_val z)
  | T1 t => match hyper t x nzero, hyper t z nzero with inr y, inr w => SFleb w y | _, _ => false end
  | TL _ => false
  end.
Definition reports_lower {A} (t : obj_target) (z : spec_float) (o : outcome (gadata * A)) : bool :=
  match o with
  | Ok (gd, _) _ => match best_solution gd with BSingle i _ => match obj_score i with SV1 x => negb (good_double t z x) | _ => true end | _ => true end
  | _ => false
  end.
Definition lower_or_lost {A} (t : obj_target) (z : spec_float) (o : outcome (gadata * A)) : bool := match o with Ok _ _ => reports_lower t z o | _ => true end.

Lemma finite_number : forall x, finite x -> number x.
Proof. intros x [D F]. split; auto. intros ->. discriminate F. Qed.
Lemma finite_plain : forall cf, plain_finite cf -> plain_double cf.
Proof.
  intros cf (Pn & Ro & Ft). split; auto. split; auto. destruct (cf_objective cf) as [o|o|o1 o2]; cbn in *; [| |destruct Ro as [R1 R2]; split]; intros; apply finite_number; eauto.
Qed.
Lemma good_double_iff : forall t z x, no_better_double t z x <-> good_double t z x = true.
Proof.
  intros [|t|l] z x; cbn [no_better_double good_double]; [rewrite Qle_bool_iff; tauto| |split; [intros []|discriminate]]. split.
  - intros (y & w & -> & -> & H). exact H.
  - destruct (hyper t x nzero) as [|y]; [discriminate|]. destruct (hyper t z nzero) as [|w]; [discriminate|]. intros H. eauto.
Qed.
Definition scorer (t : spec_float) : fitness := mkFit Hyperbola (Obj1 (fun _ _ => inl ValueError)) (T1 t) None None [] false [].
Lemma hyper_number : forall t x, finite t -> finite x -> exists y, hyper t x nzero = inr y /\ number y.
Proof. intros t x Ft Fx. exact (score_number (scorer t) x Ft I (finite_number x Fx)). Qed.
Lemma good_refl : forall t x, finite x -> match t with T1 t => finite t | TNone => True | TL _ => False end -> good_double t x x = true.
Proof.
  intros t x Fx Ft. destruct t as [|t|l]; cbn [good_double]; [apply Qle_bool_iff, Qle_refl| |destruct Ft].
  destruct (hyper_number t x Ft Fx) as (y & -> & [_ N]). rewrite f_le by auto. pose proof (no_irrefl _ _ Forder y N) as I. cbn [nltb Fops] in I. rewrite I. reflexivity.
Qed.
Lemma leb_numbers : forall x y, SFleb x y = true -> not_nan x /\ not_nan y.
Proof. intros x y H. split; intros ->; [discriminate H|]. destruct x as [s|s| |s m e]; try discriminate H; destruct s; discriminate H. Qed.
Lemma leb_trans : forall x y z, SFleb x y = true -> SFleb y z = true -> SFleb x z = true.
Proof.
  intros x y z H1 H2. destruct (leb_numbers _ _ H1) as [Nx Ny]. destruct (leb_numbers _ _ H2) as [_ Nz]. rewrite f_le in * by auto. rewrite negb_true_iff in *.
  exact (no_negtrans _ _ Forder z y x Nz Ny Nx H2 H1).
Qed.
Lemma good_trans : forall t a b c, good_double t a b = true -> good_double t b c = true -> good_double t a c = true.
Proof.
  intros [|t|l] a b c; cbn [good_double].
  - rewrite !Qle_bool_iff. intros H1 H2. eapply Qle_trans; eauto.
  - destruct (hyper t a nzero) as [|ya], (hyper t b nzero) as [|yb], (hyper t c nzero) as [|yc]; try discriminate. apply leb_trans.
  - discriminate.
Qed.
Lemma double_seen : forall fuel cf g ck mk s gd' cl s' (f : list gv -> spec_float) space z, plain_finite cf -> weighs cf f space ->
  ga_optimize fuel cf false g Hyperbola (SelTournament (cf_tournament_size cf)) ck mk false s = Ok (gd', cl) s' ->
  (exists calls, log s' = calls ++ log s /\ Forall (fun x => space (fst x)) calls) ->
  existsb (fun call => good_double (cf_obj_value cf) z (f (fst call))) (new_calls s s') = true -> reports_lower (cf_obj_value cf) z (Ok (gd', cl) s') = false.
Proof.
  intros fuel cf g ck mk s gd' cl s' f space z0 Pf Me H (calls & El & Fs) Ex. pose proof Pf as (Pn & Ro & Ft).
  assert (Ft' : finite_target (cf_obj_value cf)) by (unfold finite_target; destruct (cf_obj_value cf); auto).
  destruct (C37_double fuel cf g (SelTournament (cf_tournament_size cf)) ck mk s gd' cl s' I Pn Ro Ft' H) as (calls1 & i & gen & pt & x & El1 & Eb & _ & Eo & K).
  assert (calls1 = calls) by (rewrite El1 in El; apply app_inv_tail in El; auto). subst calls1. clear El1.
  assert (En : new_calls s s' = calls). { unfold new_calls. rewrite El, app_length. replace (length calls + length (log s) - length (log s))%nat with (length calls + 0)%nat by lia. rewrite firstn_app_2. cbn. apply app_nil_r. }
  rewrite En in Ex. apply existsb_exists in Ex. destruct Ex as ([pt' v] & Iv & Ev). cbn [fst] in Ev.
  destruct (K _ _ Iv) as (z & -> & Nb).
  assert (Ez : z = f pt').
  { pose proof H as H'. apply optimize_run in H'; [|repeat split; auto; exact I]. destruct H' as (p & s1 & p' & s2 & ft & m & ng & c' & _ & _ & _ & Nf & _ & _ & L & _ & Si & St & R).
    apply run_ends in R. destruct R as (k & A).
    destruct (@C48_run Fops number Forder_number _ _ _ _ Si (new_plain cf ft _ (finite_plain cf Pf) Nf) St _ _ _ _ A) as (cs & _ & Ec & Ge). rewrite L, El in Ec. apply app_inv_tail in Ec.
    assert (Ic : In (pt', OScalar z) cs) by (apply in_rev; rewrite <- Ec; exact Iv). apply In_nth_error in Ic. destruct Ic as (j & Ej). apply Ge in Ej. cbn [c_fitness] in Ej.
    rewrite Pn in Nf. destruct (new_fitness_plain _ _ _ _ _ _ _ _ Nf (or_introl eq_refl)) as (_ & _ & _ & Eob & _ & Ein). rewrite Forall_forall in Fs. specialize (Fs _ Iv). cbn [fst] in Fs.
    pose proof (Me (length (log s2) + j)%nat pt' Fs) as An. rewrite Eob, Ein in Ej. clear - Ej An. inversion Ej; subst; inversion An; congruence. }
  subst z. apply good_double_iff in Nb. cbn [reports_lower]. rewrite Eb, Eo, (good_trans _ _ _ _ Ev Nb). reflexivity.
Qed.
Lemma weighs_number : forall cf f space, weighs cf f space -> number_on cf space.
Proof. intros cf f space H k pt Hp. exists (f pt). apply H, Hp. Qed.
Lemma weighs_finite : forall cf f (space : list gv -> Prop) pt, plain_finite cf -> weighs cf f space -> space pt -> finite (f pt).
Proof.
  intros cf f space pt (_ & Ro & _) Me Hp. specialize (Me O pt Hp). destruct (cf_objective cf) as [o|o|o1 o2]; destruct (given (cf_input_data cf)); inversion Me; cbn in Ro; eauto.
  - destruct Ro as [_ Ro]. eauto.
  - destruct Ro as [Ro _]. eauto.
Qed.
(** From events about the evaluated points to the reported best. *)
Lemma best_of_event : forall fuel cf g ck mk s f (space : list gv -> Prop) z q1, plain_finite cf -> weighs cf f space ->
  (forall s1 gd' cl s', ga_optimize fuel cf false g Hyperbola (SelTournament (cf_tournament_size cf)) ck mk false s1 = Ok (gd', cl) s' ->
    exists calls, log s' = calls ++ log s1 /\ Forall (fun x => space (fst x)) calls) ->
  ((exists p, probability (ga_optimize fuel cf false g Hyperbola (SelTournament (cf_tournament_size cf)) ck mk false) s (returns_without s (fun pt => good_double (cf_obj_value cf) z (f pt))) p /\ (p <= q1)%Q) ->
   exists p, probability (ga_optimize fuel cf false g Hyperbola (SelTournament (cf_tournament_size cf)) ck mk false) s (reports_lower (cf_obj_value cf) z) p /\ (p <= q1)%Q) /\
  ((exists p, probability (ga_optimize fuel cf false g Hyperbola (SelTournament (cf_tournament_size cf)) ck mk false) s (fails s (fun pt => good_double (cf_obj_value cf) z (f pt))) p /\ (p <= q1)%Q) ->
   exists p, probability (ga_optimize fuel cf false g Hyperbola (SelTournament (cf_tournament_size cf)) ck mk false) s (lower_or_lost (cf_obj_value cf) z) p /\ (p <= q1)%Q).
Proof.
  intros fuel cf g ck mk s f space z q1 Pf Me Ca. set (Y := fun pt => good_double (cf_obj_value cf) z (f pt)). set (run := ga_optimize _ _ _ _ _ _ _ _ _) in *.
  assert (Imp : forall r s', arises run s (Ok r s') -> existsb (fun call => Y (fst call)) (new_calls s s') = true -> reports_lower (cf_obj_value cf) z (Ok r s') = false).
  { intros [gd' cl] s' Ho Ex. destruct (Ho (tape s') (ent s')) as (t & e & E). cbn [with_source] in E. rewrite source_same in E.
    refine (double_seen fuel cf g ck mk (set_source t e s) gd' cl s' f space z Pf Me E (Ca _ _ _ _ E) Ex). }
  split; intros H.
  - eapply am_weaken; [exact H| |apply Qle_refl].
    intros o Ho. destruct o as [r s'|x|]; cbn [returns_without]; [|apply Qle_refl|apply Qle_refl]. specialize (Imp r s' Ho).
    destruct (existsb _ (new_calls s s')); [rewrite Imp by auto; apply Qle_refl|]. apply indicator_bounds.
  - eapply am_weaken; [exact H| |apply Qle_refl].
    intros o Ho. destruct o as [r s'|x|]; cbn [fails lower_or_lost]; [|apply Qle_refl|apply Qle_refl]. specialize (Imp r s' Ho).
    destruct (existsb _ (new_calls s s')); [rewrite Imp by auto; apply Qle_refl|]. apply indicator_bounds.
Qed.
Lemma boxed_input : forall gens x, boxed gens x -> double_input x.
Proof.
  intros gens x (xs & Vx & _). induction Vx as [|g v x xs Hg F IH]; constructor; auto. destruct Hg as [[-> D]|(z & -> & _)]; [exact D|exact I].
Qed.
Lemma coded_box : forall gray gens bp y, Forall fine gens -> get_gens_params gens = inr bp -> coded gray gens bp y -> double_box gens y.
Proof.
  intros gray gens bp y H P (bs & ys & Lb & Db & ->). apply grid_box; auto. apply (double_points gray gens bp H P). exists (map GBit bs). split; [exists bs; auto|].
  cbn. unfold decode_genotype. change (map GBit bs) with (bits_to_geno bs). rewrite geno_bits_id, Db. reflexivity.
Qed.
(** C87: the best solution reported is at least as good as a given point of the space, but
    for the same probabilities. *)
Theorem C87_binary_best : forall fuel cf gray gens bp level s y f, Forall fine gens -> get_gens_params gens = inr bp -> plain_finite cf -> valid_double cf -> two_bits_double gens ->
  named_level (cf_mutation_lvl cf) \/ number_level (cf_mutation_lvl cf) -> update_level (cf_mutation_lvl cf) (zsum (num_bits bp)) = inr level ->
  Forall (boxed gens) (cf_input_population cf) -> weighs cf f (double_box gens) -> all_generations cf -> rnd_seed s = None -> coded gray gens bp y ->
  (exists p, probability (binary_ga fuel cf gray gens) s (reports_lower (cf_obj_value cf) (f y)) p /\
    (p <= qpow (1 - qpow (either_way level) (Z.to_nat (zsum (num_bits bp)))) (after_first cf))%Q) /\
  (no_copies cf -> exists p, probability (binary_ga fuel cf gray gens) s (lower_or_lost (cf_obj_value cf) (f y)) p /\
    (p <= qpow (1 - qpow (either_way level) (Z.to_nat (zsum (num_bits bp)))) (after_first cf) + searching cf fuel)%Q).
Proof.
  intros fuel cf gray gens bp level s y f H P V Vd H2 Hl Ul Hin Me Fl Hs Cy. pose proof (finite_plain cf V) as Vp. pose proof (weighs_number _ _ _ Me) as Sc.
  assert (Ca : forall s1 gd' cl s', binary_ga fuel cf gray gens s1 = Ok (gd', cl) s' -> exists calls, log s' = calls ++ log s1 /\ Forall (fun x => double_box gens (fst x)) calls).
  { intros s1 gd' cl s' E. destruct (C70_binary_calls fuel cf gray gens s1 gd' cl s' H Vp) as (calls & El & F); auto.
    - eapply Forall_impl; [|exact Hin]. apply boxed_input.
    - exists calls. split; auto. eapply Forall_impl; [|exact F]. cbv beta. tauto. }
  assert (HY : good_double (cf_obj_value cf) (f y) (f y) = true) by (apply good_refl; [apply (weighs_finite cf f (double_box gens) y V Me (coded_box gray gens bp y H P Cy))|apply V]).
  destruct (C87_binary fuel cf gray gens bp level s y (fun pt => good_double (cf_obj_value cf) (f y) (f pt)) H P Vp Vd H2 Hl Ul Hin Sc Fl Hs Cy HY) as (R1 & R2).
  split; [|intros NT; specialize (R2 NT)]; [eapply (proj1 (best_of_event _ _ _ _ _ _ _ _ _ _ V Me Ca))|eapply (proj2 (best_of_event _ _ _ _ _ _ _ _ _ _ V Me Ca))]; eassumption.
Qed.
Theorem C87_categorical_best : forall fuel cf gens level s y f, plain_finite cf -> valid_double cf -> Forall good_pool gens -> Forall no_nan_pool gens ->
  cf_mutation_lvl cf = LFloat level -> number_level (LFloat level) -> Forall (from_pools gens) (cf_input_population cf) -> weighs cf f (from_pools gens) ->
  (forall z, from_pools gens z -> gvs_eqb z y = true -> f z = f y) -> all_generations cf -> rnd_seed s = None -> from_pools gens y ->
  (exists p, probability (categorical_ga fuel cf gens) s (reports_lower (cf_obj_value cf) (f y)) p /\ (p <= qpow (1 - qprod (map (either_value level) gens)) (after_first cf))%Q) /\
  (no_copies cf -> exists p, probability (categorical_ga fuel cf gens) s (lower_or_lost (cf_obj_value cf) (f y)) p /\
    (p <= qpow (1 - qprod (map (either_value level) gens)) (after_first cf) + searching cf fuel)%Q).
Proof.
  intros fuel cf gens level s y f V Vd Hg Hnn El Hl Hin Me Fe Fl Hs Fy. pose proof (finite_plain cf V) as Vp. pose proof (weighs_number _ _ _ Me) as Sc.
  assert (Ca : forall s1 gd' cl s', categorical_ga fuel cf gens s1 = Ok (gd', cl) s' -> exists calls, log s' = calls ++ log s1 /\ Forall (fun x => from_pools gens (fst x)) calls).
  { intros s1 gd' cl s' E. apply (C70_categorical_calls fuel cf gens s1 gd' cl s' Vp Hin E). }
  assert (HY : forall z, from_pools gens z -> gvs_eqb z y = true -> good_double (cf_obj_value cf) (f y) (f z) = true).
  { intros z Fz Ez. rewrite (Fe z Fz Ez). apply good_refl; [apply (weighs_finite cf f (from_pools gens) y V Me Fy)|apply V]. }
  destruct (C87_categorical fuel cf gens level s y (fun pt => good_double (cf_obj_value cf) (f y) (f pt)) Vp Vd Hg Hnn El Hl Hin Sc Fl Hs Fy HY) as (R1 & R2).
  split; [|intros NT; specialize (R2 NT)]; [eapply (proj1 (best_of_event _ _ _ _ _ _ _ _ _ _ V Me Ca))|eapply (proj2 (best_of_event _ _ _ _ _ _ _ _ _ _ V Me Ca))]; eassumption.
Qed.
Theorem C87_combinatory_best : forall fuel cf a b k s z f, (0 < fuel)%nat -> plain_finite cf -> valid_double cf -> cf_tournament_size cf <= offspring cf -> 3 <= k -> k = b - a + 1 ->
  named_level (cf_mutation_lvl cf) \/ number_level (cf_mutation_lvl cf) -> Forall (arrangement a b k) (cf_input_population cf) -> weighs cf f (arrangement a b k) ->
  all_generations cf -> rnd_seed s = None -> arrangement a b k z ->
  (exists p, probability (combinatory_ga fuel cf a b k) s (reports_lower (cf_obj_value cf) (f z)) p /\ (p <= qpow (1 - tour_luck cf k) (after_first cf / path_length k))%Q) /\
  (no_copies cf -> exists p, probability (combinatory_ga fuel cf a b k) s (lower_or_lost (cf_obj_value cf) (f z)) p /\
    (p <= qpow (1 - tour_luck cf k) (after_first cf / path_length k) + searching cf fuel)%Q).
Proof.
  intros fuel cf a b k s z f Hf V Vd Mc Hk Ek Hl Hin Me Fl Hs Az. pose proof (finite_plain cf V) as Vp. pose proof (weighs_number _ _ _ Me) as Sc.
  assert (Ca : forall s1 gd' cl s', combinatory_ga fuel cf a b k s1 = Ok (gd', cl) s' -> exists calls, log s' = calls ++ log s1 /\ Forall (fun x => arrangement a b k (fst x)) calls).
  { intros s1 gd' cl s' E. apply (C70_combinatory_calls fuel cf a b k s1 gd' cl s' Vp Hin E). }
  assert (HY : good_double (cf_obj_value cf) (f z) (f z) = true) by (apply good_refl; [apply (weighs_finite cf f (arrangement a b k) z V Me Az)|apply V]).
  assert (Rp : answers_alike cf (arrangement a b k)) by (exists (fun pt => OScalar (f pt : @num Fops)); exact Me).
  destruct (C87_combinatory fuel cf a b k s z (fun pt => good_double (cf_obj_value cf) (f z) (f pt)) Hf Vp Vd Mc Hk Ek Hl Hin Sc Rp Fl Hs Az HY) as (R1 & R2).
  split; [|intros NT; specialize (R2 NT)]; [eapply (proj1 (best_of_event _ _ _ _ _ _ _ _ _ _ V Me Ca))|eapply (proj2 (best_of_event _ _ _ _ _ _ _ _ _ _ V Me Ca))]; eassumption.
Qed.

(** *** In the limit *)
(** With enough generations the reported best is, up to any given risk, as good as any point
    of the space. *)
Theorem C87_binary_limit : forall gens bp eps, Forall fine gens -> get_gens_params gens = inr bp -> two_bits_double gens -> (0 < eps)%Q ->
  exists N, forall cf gray s y f, N <= cf_num_generations cf -> plain_finite cf -> valid_double cf -> tempered_lvl (cf_mutation_lvl cf) (zsum (num_bits bp)) ->
    Forall (boxed gens) (cf_input_population cf) -> weighs cf f (double_box gens) -> all_generations cf -> rnd_seed s = None -> coded gray gens bp y ->
    (forall fuel, exists p, probability (binary_ga fuel cf gray gens) s (reports_lower (cf_obj_value cf) (f y)) p /\ (p < eps)%Q) /\
    (no_copies cf -> exists enough, forall fuel, (enough <= fuel)%nat ->
      exists p, probability (binary_ga fuel cf gray gens) s (lower_or_lost (cf_obj_value cf) (f y)) p /\ (p < eps)%Q).
Proof.
  intros gens bp eps H P H2 He. set (d := qpow (1 # 1000) (Z.to_nat (zsum (num_bits bp)))).
  destruct (misses_vanish d (eps * (1 # 2))) as (N & HN); [apply qpow_positive; reflexivity|qlra|]. exists (Z.of_nat N + 1).
  intros cf gray s y f LN V Vd Tl Hin Me Fl Hs Cy. destruct (fine_two gray gens bp H P H2) as (Two & _). destruct (tempered_update _ _ Two Tl) as (Hl & level & Ul & Un).
  assert (Bd : (qpow (1 - qpow (either_way level) (Z.to_nat (zsum (num_bits bp)))) (after_first cf) < eps * (1 # 2))%Q).
  { destruct (either_range level). apply HN; [apply qpow_raise; [discriminate|apply either_positive; auto]|apply qpow_le_one; auto|unfold after_first; lia]. }
  split.
  - intros fuel. destruct (C87_binary_best fuel cf gray gens bp level s y f H P V Vd H2 Hl Ul Hin Me Fl Hs Cy) as ((p & Pp & Lp) & _). exists p. split; auto. qlra.
  - intros NT. destruct (proj2 (proj2 (proj2 C87_ends)) cf (eps * (1 # 2))%Q Vd) as (f0 & Hf0); [qlra|]. exists f0. intros fuel Lf. specialize (Hf0 fuel Lf).
    destruct (C87_binary_best fuel cf gray gens bp level s y f H P V Vd H2 Hl Ul Hin Me Fl Hs Cy) as (_ & K). destruct (K NT) as (p & Pp & Lp). exists p. split; auto. qlra.
Qed.
(** In particular as good as a point near any vector between the bounds. *)
Corollary C87_binary_near : forall gens bp eps xs, Forall fine gens -> get_gens_params gens = inr bp -> two_bits_double gens -> (0 < eps)%Q -> Forall2 between gens xs ->
  exists N, forall cf gray s f, N <= cf_num_generations cf -> plain_finite cf -> valid_double cf -> tempered_lvl (cf_mutation_lvl cf) (zsum (num_bits bp)) ->
    Forall (boxed gens) (cf_input_population cf) -> weighs cf f (double_box gens) -> all_generations cf -> rnd_seed s = None ->
    exists y, beside gens bp xs y /\ forall fuel, exists p, probability (binary_ga fuel cf gray gens) s (reports_lower (cf_obj_value cf) (f y)) p /\ (p < eps)%Q.
Proof.
  intros gens bp eps xs H P H2 He B. destruct (C87_binary_limit gens bp eps H P H2 He) as (N & HN). exists N. intros cf gray s f LN V Vd Tl Hin Me Fl Hs.
  destruct (coded_beside gray gens bp xs H P B) as (y & Cy & By). exists y. split; auto. apply (HN cf gray s y f); auto.
Qed.
Lemma pool_some : forall p, good_pool p -> pool_values p <> [].
Proof.
  intros p G. destruct p as [a b stp|l|]; cbn [good_pool pool_values] in *; [|destruct G as [(x & ->)|(x & y & Hx & _)]; [discriminate|intros ->; destruct Hx]|contradiction].
  intros C. apply map_eq_nil in C. apply (f_equal (@length Z)) in C. rewrite py_range_length in C. cbn [length] in C.
  assert (Pl : 0 < range_len a (b + 1) stp). { apply range_len_pos; [lia|]. destruct (0 <? stp) eqn:E0; [apply Z.ltb_lt in E0|apply Z.ltb_ge in E0]; lia. }
  lia.
Qed.
Theorem C87_categorical_limit : forall gens (level : @num Fops) eps, Forall good_pool gens -> Forall no_nan_pool gens -> tempered level -> (0 < eps)%Q ->
  exists N, forall cf s y f, N <= cf_num_generations cf -> plain_finite cf -> valid_double cf -> cf_mutation_lvl cf = LFloat level -> Forall (from_pools gens) (cf_input_population cf) ->
    weighs cf f (from_pools gens) -> (forall z, from_pools gens z -> gvs_eqb z y = true -> f z = f y) -> all_generations cf -> rnd_seed s = None -> from_pools gens y ->
    (forall fuel, exists p, probability (categorical_ga fuel cf gens) s (reports_lower (cf_obj_value cf) (f y)) p /\ (p < eps)%Q) /\
    (no_copies cf -> exists enough, forall fuel, (enough <= fuel)%nat ->
      exists p, probability (categorical_ga fuel cf gens) s (lower_or_lost (cf_obj_value cf) (f y)) p /\ (p < eps)%Q).
Proof.
  intros gens level eps Hg Hnn Tl He. set (d := qprod (map (either_value level) gens)).
  assert (D0 : (0 < d)%Q).
  { unfold d. clear - Hg Tl. induction Hg as [|p gens G Hg IH]; [reflexivity|]. cbn [map qprod]. apply Qmult_lt_0_compat; auto. apply value_positive; [now apply tempered_undecided|now apply pool_some]. }
  destruct (misses_vanish d (eps * (1 # 2)) D0) as (N & HN); [qlra|]. exists (Z.of_nat N + 1).
  intros cf s y f LN V Vd El Hin Me Fe Fl Hs Fy. pose proof (tempered_level level Tl) as Hl.
  assert (Bd : (qpow (1 - d) (after_first cf) < eps * (1 # 2))%Q) by (apply HN; [apply Qle_refl|apply values_range|unfold after_first; lia]).
  split.
  - intros fuel. destruct (C87_categorical_best fuel cf gens level s y f V Vd Hg Hnn El Hl Hin Me Fe Fl Hs Fy) as ((p & Pp & Lp) & _). exists p. split; auto. unfold d in Bd. qlra.
  - intros NT. destruct (proj2 (proj2 (proj2 C87_ends)) cf (eps * (1 # 2))%Q Vd) as (f0 & Hf0); [qlra|]. exists f0. intros fuel Lf. specialize (Hf0 fuel Lf).
    destruct (C87_categorical_best fuel cf gens level s y f V Vd Hg Hnn El Hl Hin Me Fe Fl Hs Fy) as (_ & K). destruct (K NT) as (p & Pp & Lp). exists p. split; auto. unfold d in Bd. qlra.
Qed.
Lemma combi_tempered : forall l, named_level l \/ match l with LFloat x => tempered x | _ => False end -> (named_level l \/ number_level l) /\ (1 # 1000 <= either_way (combi_level l))%Q.
Proof.
  intros l H. assert (T : tempered (combi_level l)).
  { destruct l as [st|x|]; cbn [combi_level named_level] in *; [|destruct H as [[]|H]; exact H|destruct H as [[]|[]]]. destruct H as [H|[]].
    destruct H as [-> |[-> | ->]]; cbn [String.eqb Ascii.eqb Bool.eqb]; (split; [split; vm_compute; reflexivity|split; vm_compute; discriminate]). }
  split; [|apply either_positive, tempered_undecided, T]. destruct H as [H|H]; [left; exact H|right]. destruct l as [st|x|]; [destruct H|apply tempered_level, H|destruct H].
Qed.
Theorem C87_combinatory_limit : forall n t m k eps, 3 <= k -> (0 < eps)%Q ->
  exists N, forall cf a b s z f, cf_num_individ cf = n -> cf_tournament_size cf = t -> offspring cf = m -> k = b - a + 1 -> N <= cf_num_generations cf ->
    plain_finite cf -> valid_double cf -> t <= m -> named_level (cf_mutation_lvl cf) \/ match cf_mutation_lvl cf with LFloat x => tempered x | _ => False end ->
    Forall (arrangement a b k) (cf_input_population cf) -> weighs cf f (arrangement a b k) -> all_generations cf -> rnd_seed s = None -> arrangement a b k z ->
    (forall fuel, (0 < fuel)%nat -> exists p, probability (combinatory_ga fuel cf a b k) s (reports_lower (cf_obj_value cf) (f z)) p /\ (p < eps)%Q) /\
    (no_copies cf -> exists enough, forall fuel, (enough <= fuel)%nat ->
      exists p, probability (combinatory_ga fuel cf a b k) s (lower_or_lost (cf_obj_value cf) (f z)) p /\ (p < eps)%Q).
Proof.
  intros n t m k eps Hk He. destruct (Z_lt_le_dec n 1) as [Neg|Hn].
  { exists 0. intros cf a b s z f En Et _ _ _ _ ((Ht1 & Ht2) & _). lia. }
  set (d := qpow (generation_chance n t m k (1 # 1000)) (path_length k)). assert (Dp : (0 < d)%Q) by (apply qpow_positive, generation_positive; auto; reflexivity).
  destruct (misses_vanish d (eps * (1 # 2)) Dp) as (N & HN); [qlra|]. exists (Z.of_nat (N * path_length k) + 1).
  intros cf a b s z f En Et Em Ek LN V Vd Mc Ml Hin Me Fl Hs Az. pose proof Vd as ((Ht1 & Ht2) & _). destruct (combi_tempered _ Ml) as (Hl & Lp).
  assert (Mc' : cf_tournament_size cf <= offspring cf) by lia.
  assert (Bd : (qpow (1 - tour_luck cf k) (after_first cf / path_length k) < eps * (1 # 2))%Q).
  { apply HN.
    - unfold d, tour_luck. rewrite En, Et, Em. apply qpow_raise; [apply Qlt_le_weak, generation_positive; auto; reflexivity|apply generation_raise; auto; split; [discriminate|exact Lp]].
    - unfold tour_luck. set (x := (combi_level (cf_mutation_lvl cf) : @num Fops)).
      assert (W : (0 <= generation_chance (cf_num_individ cf) (cf_tournament_size cf) (offspring cf) k (either_way x) <= 1)%Q).
      { apply (w_range (cf_tournament_size cf) (offspring cf) (cf_num_individ cf) x (either_way x) k); auto; try lia.
        - apply either_range.
        - apply Q.le_min_l.
        - apply Q.le_min_r. }
      apply qpow_le_one; tauto.
    - apply enough_blocks; [unfold path_length; lia|]. unfold after_first. lia. }
  split.
  - intros fuel Hf. destruct (C87_combinatory_best fuel cf a b k s z f Hf V Vd Mc' Hk Ek Hl Hin Me Fl Hs Az) as ((p & Pp & Lq) & _). exists p. split; auto. qlra.
  - intros NT. destruct (proj2 (proj2 (proj2 C87_ends)) cf (eps * (1 # 2))%Q Vd) as (f0 & Hf0); [qlra|]. exists (S f0). intros fuel Lf. specialize (Hf0 fuel ltac:(lia)).
    destruct (C87_combinatory_best fuel cf a b k s z f ltac:(lia) V Vd Mc' Hk Ek Hl Hin Me Fl Hs Az) as (_ & K). destruct (K NT) as (p & Pp & Lq). exists p. split; auto. qlra.
Qed.

(** *** Examples *)
(** An objective with finite values: the sum of the whole parts, at most 1000. *)
Definition sum_value (genes : list (@gv Fops)) : spec_float :=
  @nofZ Fops (Z.min 1000 (fold_left (fun acc g => match g with GInt z => acc + Z.abs z | GNum x => acc + match f_trunc x with Some z => Z.abs z | None => 0 end | _ => acc end) genes 0)).
Lemma sum_finite : forall genes, finite (sum_value genes).
Proof.
  intros genes. unfold sum_value.
  assert (H : 0 <= fold_left (fun acc (g : @gv Fops) => match g with GInt z => acc + Z.abs z | GNum x => acc + match f_trunc x with Some z => Z.abs z | None => 0 end | _ => acc end) genes 0).
  { enough (G : forall l acc, 0 <= acc -> 0 <= fold_left (fun acc (g : @gv Fops) => match g with GInt z => acc + Z.abs z | GNum x => acc + match f_trunc x with Some z => Z.abs z | None => 0 end | _ => acc end) l acc) by (apply G; lia).
    induction l as [|g l IH]; intros acc Ha; cbn [fold_left]; auto. apply IH. destruct g; try lia. destruct (f_trunc _); lia. }
  revert H. generalize (fold_left (fun acc (g : @gv Fops) => match g with GInt z => acc + Z.abs z | GNum x => acc + match f_trunc x with Some z => Z.abs z | None => 0 end | _ => acc end) genes 0).
  intros z Hz. destruct (int_exact (Z.min 1000 z)) as (b & -> & Fb & _); [lia|]. now apply finite_B2SF.
Qed.
Definition sum_obj : objfun := Obj1 (fun _ genes => inr (OScalar (sum_value genes : @num Fops))).
Definition long_double (N : Z) (lv : lvl) (inp : list (list gv)) : config := mkCfg N 5 sum_obj (T1 (fq 1 2)) None PNone None (fq 6 10) None inp 2 lv "random" false.
Lemma long_plain : forall N lv inp, plain_finite (long_double N lv inp).
Proof. intros N lv inp. split; [reflexivity|]. split; [intros k g x E; injection E as <-; apply sum_finite|]. split; vm_compute; reflexivity. Qed.
Lemma long_valid : forall N lv inp, Z.of_nat (length inp) <= 5 -> valid_double (long_double N lv inp).
Proof. intros N lv inp H. split; [cbn; lia|]. split; [exists 3; split; [|lia]; vm_cast_no_check (eq_refl (Some 3))|]. split; [right; reflexivity|exact H]. Qed.
Lemma long_weighs : forall N lv inp sp, weighs (long_double N lv inp) sum_value sp.
Proof. intros N lv inp sp k genes _. cbn [cf_objective cf_input_data long_double given]. exact (answer_1 (fun _ genes => inr (OScalar (sum_value genes : @num Fops))) k genes). Qed.
Lemma long_children : forall N lv inp, offspring (long_double N lv inp) = 3.
Proof. intros N lv inp. vm_cast_no_check (eq_refl 3). Qed.
Lemma two_params : get_gens_params two_genes = inr (params_or_none two_genes).
Proof. vm_cast_no_check (eq_refl (@inr exn _ (params_or_none two_genes))). Qed.
Lemma two_total : zsum (num_bits (params_or_none two_genes)) = 7.
Proof. vm_compute. reflexivity. Qed.
Lemma two_input : Forall (boxed two_genes) [[GNum (nofZ 0); GInt 3]].
Proof.
  constructor; [|constructor]. exists [nofZ 0; nofZ 3]. split.
  - constructor; [left; split; [reflexivity|vm_compute; reflexivity]|]. constructor; [right; exists 3; auto|constructor].
  - constructor; [is_between|constructor; [is_between|constructor]].
Qed.
Lemma quarter : tempered (fq 1 4).
Proof. split; [split; vm_compute; reflexivity|split; vm_compute; discriminate]. Qed.
(** Two genes on seven bits, level 0.25: from any population a child is the code of y with
    chance at least (251/1000)^7. *)
Example C87_binary_case : forall N fuel gray s y, 1 <= N -> rnd_seed s = None -> coded gray two_genes (params_or_none two_genes) y ->
  exists p, probability (binary_ga fuel (long_double N (@LFloat Fops (fq 1 4)) [[GNum (nofZ 0); GInt 3]]) gray two_genes) s (lower_or_lost (T1 (fq 1 2)) (sum_value y)) p /\
    (p <= qpow (1 - qpow (either_way (fq 1 4 : @num Fops)) 7) (Z.to_nat (N - 1)) + inject_Z (Z.of_nat (Z.to_nat (N - 1))) * (3 * qpow (2 # 5) fuel))%Q.
Proof.
  intros N fuel gray s y HN Hs Cy.
  destruct (C87_binary_best fuel (long_double N (@LFloat Fops (fq 1 4)) [[GNum (nofZ 0); GInt 3]]) gray two_genes (params_or_none two_genes) (fq 1 4) s y sum_value) as (_ & K); auto.
  - apply C04_double_meets.
  - apply long_plain.
  - apply long_valid. cbn. lia.
  - left. cbn. lia.
  - right. apply tempered_level, quarter.
  - exact two_input.
  - apply long_weighs.
  - split; [exact HN|intros e E; discriminate E].
  - destruct (K (or_introl eq_refl)) as (p & Pp & Lp). exists p. split; [exact Pp|]. rewrite two_total in Lp. unfold searching in Lp. rewrite long_children in Lp. exact Lp.
Qed.
Example C87_chance_case : Qeq_bool (either_way (fq 1 4 : @num Fops)) (251 # 1000) = true /\ Qeq_bool (either_way (fq 1 10 : @num Fops)) (101 # 1000) = true /\ Qeq_bool (either_way (fq 9 10 : @num Fops)) (99 # 1000) = true.
Proof. split; [|split]; vm_compute; reflexivity. Qed.
(** By name, and in the limit: near 0 and 3.7. *)
Example C87_binary_limit_case : exists N, forall gray s, rnd_seed s = None ->
  exists y, beside two_genes (params_or_none two_genes) [@nofZ Fops 0 : spec_float; fq 37 10] y /\ forall fuel,
    exists p, probability (binary_ga fuel (long_double N (LStr "strong") [[GNum (nofZ 0); GInt 3]]) gray two_genes) s (reports_lower (T1 (fq 1 2)) (sum_value y)) p /\ (p < 1 # 1000000)%Q.
Proof.
  destruct (C87_binary_near two_genes (params_or_none two_genes) (1 # 1000000)%Q [@nofZ Fops 0 : spec_float; fq 37 10] (proj1 C04_double_meets) two_params) as (N & HN); [left; cbn; lia|reflexivity|apply C04_double_meets|].
  exists (Z.max 1 N). intros gray s Hs. apply (HN (long_double (Z.max 1 N) (LStr "strong") [[GNum (nofZ 0); GInt 3]]) gray s sum_value); auto.
  - cbn. lia.
  - apply long_plain.
  - apply long_valid. cbn. lia.
  - right. right. split; [reflexivity|rewrite two_total; lia].
  - exact two_input.
  - apply long_weighs.
  - split; [cbn; lia|intros e E; discriminate E].
Qed.
(** Categories: a range, a list with a fraction and an infinity, a single string. *)
Definition double_pools : list (@cgen Fops) := [CRange 0 9 3; CList [GNum (fq 1 10); GNum (S754_infinity true); GInt 5]; CList [GStr "a"]].
Lemma double_pools_good : Forall good_pool double_pools.
Proof. constructor; [cbn; lia|]. constructor; [right; exists (@GNum Fops (fq 1 10)), (@GInt Fops 5); split; [left; reflexivity|split; [right; right; left; reflexivity|vm_compute; reflexivity]]|]. constructor; [left; eauto|constructor]. Qed.
Lemma double_pools_numbers : Forall no_nan_pool double_pools.
Proof.
  constructor; [exact I|]. constructor; [|constructor; [constructor; [exact I|constructor]|constructor]].
  constructor; [split; [vm_compute; reflexivity|vm_compute; discriminate]|]. constructor; [split; [vm_compute; reflexivity|discriminate]|]. constructor; [exact I|constructor].
Qed.
Lemma double_pools_equal : forall z y, from_pools double_pools z -> from_pools double_pools y -> gvs_eqb z y = true -> sum_value z = sum_value y.
Proof.
  assert (Sh : forall z, from_pools double_pools z -> exists u v, z = [GInt u; v; GStr "a"] /\ In v [GNum (fq 1 10); GNum (S754_infinity true); GInt 5]).
  { intros z Fz. inversion Fz as [|? a ? z1 Ga F1]; subst. inversion F1 as [|? b ? z2 Gb F2]; subst. inversion F2 as [|? c ? z3 Gc F3]; subst. inversion F3; subst. clear Fz F1 F2 F3.
    destruct Ga as (x & i & -> & _). cbn [gene_in] in Gb, Gc. destruct Gc as [<-|[]]. eauto. }
  intros z y Fz Fy E. destruct (Sh z Fz) as (u & v & -> & Hv). destruct (Sh y Fy) as (u' & v' & -> & Hv'). cbn [gvs_eqb gv_eqb] in E.
  apply andb_true_iff in E. destruct E as [E1 E]. apply andb_true_iff in E. destruct E as [E2 _]. apply Z.eqb_eq in E1. subst u'.
  enough (v = v') by (subst; reflexivity). destruct Hv as [<-|[<-|[<-|[]]]]; destruct Hv' as [<-|[<-|[<-|[]]]]; try reflexivity; exfalso; vm_compute in E2; discriminate E2.
Qed.
Example C87_categorical_case : forall N fuel s y, 1 <= N -> rnd_seed s = None -> from_pools double_pools y ->
  exists p, probability (categorical_ga fuel (long_double N (@LFloat Fops (fq 1 4)) []) double_pools) s (lower_or_lost (T1 (fq 1 2)) (sum_value y)) p /\
    (p <= qpow (1 - qprod (map (either_value (fq 1 4 : @num Fops)) double_pools)) (Z.to_nat (N - 1)) + inject_Z (Z.of_nat (Z.to_nat (N - 1))) * (3 * qpow (2 # 5) fuel))%Q.
Proof.
  intros N fuel s y HN Hs Fy.
  destruct (C87_categorical_best fuel (long_double N (@LFloat Fops (fq 1 4)) []) double_pools (fq 1 4) s y sum_value) as (_ & K); auto.
  - apply long_plain.
  - apply long_valid. cbn. lia.
  - exact double_pools_good.
  - exact double_pools_numbers.
  - apply tempered_level, quarter.
  - constructor.
  - apply long_weighs.
  - intros z Fz. apply double_pools_equal; auto.
  - split; [exact HN|intros e E; discriminate E].
  - destruct (K (or_introl eq_refl)) as (p & Pp & Lp). exists p. split; [exact Pp|]. unfold searching in Lp. rewrite long_children in Lp. exact Lp.
Qed.
Example C87_categorical_limit_case : exists N, forall s y, rnd_seed s = None -> from_pools double_pools y ->
  exists enough, forall fuel, (enough <= fuel)%nat ->
    exists p, probability (categorical_ga fuel (long_double N (@LFloat Fops (fq 1 4)) []) double_pools) s (lower_or_lost (T1 (fq 1 2)) (sum_value y)) p /\ (p < 1 # 1000000)%Q.
Proof.
  destruct (C87_categorical_limit double_pools (fq 1 4) (1 # 1000000)%Q double_pools_good double_pools_numbers quarter eq_refl) as (N & HN). exists (Z.max 1 N). intros s y Hs Fy.
  destruct (HN (long_double (Z.max 1 N) (@LFloat Fops (fq 1 4)) []) s y sum_value) as (_ & K); auto.
  - cbn. lia.
  - apply long_plain.
  - apply long_valid. cbn. lia.
  - constructor.
  - apply long_weighs.
  - intros z Fz. apply double_pools_equal; auto.
  - split; [cbn; lia|intros e E; discriminate E].
  - exact (K (or_introl eq_refl)).
Qed.
(** Tours of 0 to 3. *)
Example C87_combinatory_case : forall N fuel s z, 1 <= N -> (0 < fuel)%nat -> rnd_seed s = None -> arrangement 0 3 4 z ->
  exists p, probability (combinatory_ga fuel (long_double N (LStr "normal") []) 0 3 4) s (lower_or_lost (T1 (fq 1 2)) (sum_value z)) p /\
    (p <= qpow (1 - qpow (generation_chance 5 2 3 4 (either_way (fq 1 10 : @num Fops))) (path_length 4)) (Z.to_nat (N - 1) / path_length 4) + inject_Z (Z.of_nat (Z.to_nat (N - 1))) * (3 * qpow (2 # 5) fuel))%Q.
Proof.
  intros N fuel s z HN Hf Hs Az.
  destruct (C87_combinatory_best fuel (long_double N (LStr "normal") []) 0 3 4 s z sum_value) as (_ & K); auto; try lia.
  - apply long_plain.
  - apply long_valid. cbn. lia.
  - rewrite long_children. cbn. lia.
  - left. right. left. reflexivity.
  - constructor.
  - apply long_weighs.
  - split; [exact HN|intros e E; discriminate E].
  - destruct (K (or_introl eq_refl)) as (p & Pp & Lp). exists p. split; [exact Pp|]. unfold searching, tour_luck in Lp. rewrite long_children in Lp. exact Lp.
Qed.
Example C87_combinatory_limit_case : exists N, forall s z, rnd_seed s = None -> arrangement 0 3 4 z ->
  exists enough, forall fuel, (enough <= fuel)%nat ->
    exists p, probability (combinatory_ga fuel (long_double N (LStr "normal") []) 0 3 4) s (lower_or_lost (T1 (fq 1 2)) (sum_value z)) p /\ (p < 1 # 1000000)%Q.
Proof.
  destruct (C87_combinatory_limit 5 2 3 4 (1 # 1000000)%Q ltac:(lia) eq_refl) as (N & HN). exists (Z.max 1 N). intros s z Hs Az.
  destruct (HN (long_double (Z.max 1 N) (LStr "normal") []) 0 3 s z sum_value) as (_ & K); auto; try lia.
  - cbn. lia.
  - apply long_plain.
  - apply long_valid. cbn. lia.
  - left. right. left. reflexivity.
  - constructor.
  - apply long_weighs.
  - split; [cbn; lia|intros e E; discriminate E].
  - exact (K (or_introl eq_refl)).
Qed.
(** A run of the modelled program. *)
Definition long_run : outcome (gadata * option (list string)) := binary_ga 50 (long_double 4 (@LFloat Fops (fq 1 4)) [[GNum (nofZ 0); GInt 3]]) true two_genes ffresh.
Example C87_run : match long_run with Ok r s => Some (length (log s), reports_lower (T1 (fq 1 2)) (sum_value [GNum (nofZ 0); GNum (nofZ 0)]) long_run) | _ => None end = Some (14%nat, false).
Proof. run. Qed.

Print Assumptions C87_binary.
Print Assumptions C87_categorical.
Print Assumptions C87_combinatory.
Print Assumptions C87_ends.
Print Assumptions C87_binary_best.
Print Assumptions C87_categorical_best.
Print Assumptions C87_combinatory_best.
Print Assumptions C87_binary_limit.
Print Assumptions C87_binary_near.
Print Assumptions C87_categorical_limit.
Print Assumptions C87_combinatory_limit.
