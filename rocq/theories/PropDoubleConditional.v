(** Property C91: conditional tasks in IEEE doubles. *)
From Coq Require Import String.
From Coq Require Import ZArith QArith Qabs Qreals Reals Bool List Lia Lra Floats.SpecFloat.
From Flocq Require Import Core IEEE754.BinarySingleNaN.
From Verif Require Import Spec Num State Binary Population GaData Crossover Mutation Selection Penalty Fitness NewGeneration Driver
  ListLemmas Rnd Exec Laws Float CodingProofs FitnessProofs AssessProofs StepProofs PropRun PropFitness DomainProofs SafetyProofs OptimizeProofs Demo FloatProofs FloatDecode PropFloat PropDoubleCoding
  PropDoubleRun PropConditional PropOverflow AgreeProofs PropAgree.
Import ListNotations.
Open Scope string_scope.
Open Scope list_scope.
Open Scope Z_scope.
Local Existing Instance Fops.
Local Existing Instance prec_pos.
Local Existing Instance prec_emax.

(** *** The conditions *)
(** A double from 0 to 2^k. *)
Definition upto (k : Z) (x : spec_float) : Prop := finite x /\ (0 <= f_val x)%Q /\ (f_val x <= inject_Z (2 ^ k))%Q.
(** An exponent whose powers of the doubles up to 2^k are doubles up to 2^400, as x ** 2 for k = 200. *)
Definition tame (k : Z) (e : @expo Fops) : Prop := forall x, upto k x -> exists y, e x = inr y /\ upto 400 y.
Definition tame_penalty (k : Z) (p : @penalty Fops) : Prop :=
  match p with
  | Dynamic delta c alpha betta => upto 100 delta /\ upto 100 c /\ tame 200 alpha /\ tame k betta
  | Adaptive delta b1 b2 betta => upto 100 delta /\ finite b1 /\ upto 100 b2 /\ new_adaptive delta b1 b2 betta = inr p /\ tame k betta
  | Static _ _ _ _ => False
  end.
(** The value of a constraint: between -2^k and 2^k.  The objective itself: any double but NaN. *)
Definition constraint_value (k : Z) (x : spec_float) : Prop := finite x /\ (Qabs (f_val x) <= inject_Z (2 ^ k))%Q.
Definition row (k : Z) (cl : list string) (l : list spec_float) : Prop := Forall2 (fun c v => if String.eqb c "optimize" then number v else constraint_value k v) cl l.
Definition returns_rows (b : Z) (cl : list string) (o : @objfun Fops) : Prop :=
  match o with
  | Obj1 f => forall k g l, f k g = inr (OTuple l) -> length l = length cl -> row b cl l
  | Obj2 f => forall k d g l, f k d g = inr (OTuple l) -> length l = length cl -> row b cl l
  | Obj12 f1 f2 => (forall k g l, f1 k g = inr (OTuple l) -> length l = length cl -> row b cl l) /\ (forall k d g l, f2 k d g = inr (OTuple l) -> length l = length cl -> row b cl l)
  end.
Definition tuples_on (cf : @config Fops) (n : nat) (space : list gv -> Prop) : Prop :=
  forall k genes, space genes -> exists l, answers (cf_objective cf) (given (cf_input_data cf)) k genes (inr (OTuple l)) /\ length l = n.
Definition conditional_double (k : Z) (cf : @config Fops) (space : list gv -> Prop) : Prop :=
  0 <= k /\ exists p cl, cf_penalty cf = PPen p /\ tame_penalty k p /\ cf_conditions cf = Some cl /\ conditions_ok cl /\ Z.of_nat (length cl) <= 2 ^ 20 /\
    match cf_obj_value cf with T1 t => finite t | TNone => True | TL _ => False end /\
    returns_rows k cl (cf_objective cf) /\ tuples_on cf (length cl) space /\ cf_num_generations cf <= 2 ^ 53.

(** *** Bounds on the results of the operations *)
Local Open Scope R_scope.
Definition ub (k : Z) (b : bin) : Prop := is_finite b = true /\ 0 <= B2R b <= bpow radix2 k.
Lemma upto_ub : forall k x, (0 <= k)%Z -> upto k x -> exists b, B2SF b = x /\ ub k b.
Proof.
  intros k x Hk (Fx & L & U). destruct (finite_bin x Fx) as (b & <- & Fb). exists b. split; auto. split; auto. rewrite val_real. apply Qle_Rle in L, U. rewrite RMicromega.Q2R_0 in L. rewrite Q2R_pow2 in U by auto. lra.
Qed.
Lemma ub_upto : forall k b, (0 <= k)%Z -> ub k b -> upto k (B2SF b).
Proof.
  intros k b Hk (Fb & L & U). split; [now apply finite_B2SF|]. rewrite val_real in L, U. split; apply Rle_Qle; [rewrite RMicromega.Q2R_0; auto|rewrite Q2R_pow2; auto].
Qed.
Lemma ub_weak : forall k k' b, (k <= k')%Z -> ub k b -> ub k' b.
Proof. intros k k' b H (F & L & U). split; auto. split; auto. apply Rle_trans with (1 := U). now apply bpow_le. Qed.
Lemma ub_near : forall k b r, (-1074 <= k <= 1023)%Z -> near b r -> 0 <= r <= bpow radix2 k -> ub k b.
Proof.
  intros k b r Hk N [L U]. destruct (near_finite b r k Hk N) as [F E]; [rewrite Rabs_pos_eq; auto|]. split; auto. rewrite E. split.
  - rewrite <- rnd_0. now apply rnd_le.
  - rewrite <- (rnd_bpow k Hk). now apply rnd_le.
Qed.
Lemma ub_mult : forall k j x y, (0 <= k)%Z -> (0 <= j)%Z -> (k + j <= 1023)%Z -> ub k x -> ub j y -> ub (k + j) (Bmult mode_NE x y).
Proof.
  intros k j x y Hk Hj H (Fx & Lx & Ux) (Fy & Ly & Uy). apply ub_near with (B2R x * B2R y); [lia|now apply near_mult|]. split; [now apply Rmult_le_pos|]. rewrite bpow_plus. now apply Rmult_le_compat.
Qed.
(** The sum of [n] terms: at most n * 2^400, which is a double. *)
Definition cap (n : nat) : R := INR n * bpow radix2 400.
Lemma cap_rnd : forall n, (Z.of_nat n <= 2 ^ 53)%Z -> rnd (cap n) = cap n.
Proof.
  intros n H. apply round_generic; [apply valid_rnd_N|]. destruct (Z.eq_dec (Z.of_nat n) (2 ^ 53)) as [E|E].
  - unfold cap. rewrite INR_IZR_INZ, E. change (IZR (2 ^ 53)) with (IZR (radix2 ^ 53)). rewrite IZR_Zpower by lia. rewrite <- bpow_plus. apply generic_format_bpow. unfold SpecFloat.fexp, SpecFloat.emin, fprec, femax. lia.
  - replace (cap n) with (F2R (Float radix2 (Z.of_nat n) 400)) by (unfold F2R, cap; cbn [Fnum Fexp]; rewrite INR_IZR_INZ; reflexivity).
    apply generic_format_FLT. exists (Float radix2 (Z.of_nat n) 400); [reflexivity| |]; cbn [Fnum Fexp]; [|unfold SpecFloat.emin, fprec, femax; lia].
    rewrite Z.abs_eq by lia. change (radix2 ^ fprec)%Z with (2 ^ 53)%Z. lia.
Qed.
Lemma cap_top : forall n, (Z.of_nat n <= 2 ^ 53)%Z -> cap n <= bpow radix2 453.
Proof.
  intros n H. unfold cap. replace (bpow radix2 453) with (IZR (2 ^ 53) * bpow radix2 400).
  - apply Rmult_le_compat_r; [apply bpow_ge_0|]. rewrite INR_IZR_INZ. now apply IZR_le.
  - change (IZR (2 ^ 53)) with (IZR (radix2 ^ 53)). rewrite IZR_Zpower by lia. rewrite <- bpow_plus. reflexivity.
Qed.
Lemma cap_plus : forall n a b, (Z.of_nat (S n) <= 2 ^ 53)%Z -> is_finite a = true -> 0 <= B2R a <= cap n -> ub 400 b ->
  is_finite (Bplus mode_NE a b) = true /\ 0 <= B2R (Bplus mode_NE a b) <= cap (S n).
Proof.
  intros n a b H Fa Ha (Fb & Lb & Ub). assert (C : cap (S n) = cap n + bpow radix2 400) by (unfold cap; rewrite S_INR; ring).
  pose proof (cap_top (S n) H) as T. destruct (near_finite (Bplus mode_NE a b) (B2R a + B2R b) 453) as [F E]; [lia|now apply near_plus|rewrite Rabs_pos_eq; lra|].
  split; auto. rewrite E. split; [rewrite <- rnd_0; apply rnd_le; lra|]. rewrite <- (cap_rnd (S n) H). apply rnd_le. lra.
Qed.
Local Open Scope Z_scope.

Lemma abs_upto : forall k x, 0 <= k -> constraint_value k x -> upto k (@nabs Fops x).
Proof.
  intros k x Hk (Fx & U). destruct (finite_bin x Fx) as (b & <- & Fb). cbn [nabs Fops]. rewrite abs_same. apply ub_upto; [lia|]. split; [rewrite is_finite_Babs; auto|].
  rewrite B2R_Babs. split; [apply Rabs_pos|]. rewrite val_real, <- Q2R_abs, <- Q2R_pow2 by lia. now apply Qle_Rle.
Qed.
Lemma zero_upto : forall k, 0 <= k -> upto k (@nzero Fops).
Proof. intros k H. split; [split; reflexivity|]. change (f_val (@nzero Fops)) with 0%Q. split; [apply Qle_refl|]. change 0%Q with (inject_Z 0). rewrite <- Zle_Qle. apply Z.pow_nonneg. lia. Qed.
Lemma max_upto : forall k x, 0 <= k -> constraint_value k x -> upto k (@nmax0 Fops x).
Proof.
  intros k x Hk Hx. pose proof (abs_upto k x Hk Hx) as A. unfold nmax0. destruct (@nltb Fops (@nzero Fops) x) eqn:E; [|apply zero_upto; lia].
  cbn [nltb nabs Fops] in *. change (@nzero Fops) with (S754_zero false) in E. destruct x as [sx|sx| |[|] m e]; try discriminate E; exact A.
Qed.
Lemma sum_double : forall k power, 0 <= k -> tame k power -> forall conds values n (a : bin), Forall sign conds -> Forall (constraint_value k) values -> length conds = length values ->
  Z.of_nat (n + length conds) <= 2 ^ 53 -> is_finite a = true -> (0 <= B2R a <= cap n)%R ->
  exists t : bin, sum_violations power (B2SF a) conds values = inr (B2SF t) /\ is_finite t = true /\ (0 <= B2R t <= cap (n + length conds))%R.
Proof.
  intros k power Hk T conds. induction conds as [|c cs IH]; intros [|v vs] n a Fs Fv L Hn Fa Ha; try discriminate; cbn [sum_violations length] in *.
  - exists a. rewrite Nat.add_0_r. auto.
  - inversion Fs as [|? ? Hc Fs']; subst. inversion Fv as [|? ? Hv Fv']; subst.
    assert (St : forall x, upto k x -> exists t : bin, match power x with inl e => inl e | inr y => sum_violations power (nadd (B2SF a) y) cs vs end = inr (B2SF t) /\ is_finite t = true /\ (0 <= B2R t <= cap (n + S (length cs)))%R).
    { intros x Hx. destruct (T x Hx) as (y & -> & Hy). destruct (upto_ub 400 y ltac:(lia) Hy) as (b & <- & Ub).
      destruct (cap_plus n a b) as [F1 B1]; auto; [lia|]. change (@nadd Fops (B2SF a) (B2SF b)) with (SFadd fprec femax (B2SF a) (B2SF b)). rewrite add_same.
      rewrite Nat.add_succ_r. change (S (n + length cs)) with (S n + length cs)%nat. apply IH; auto; lia. }
    destruct Hc as [-> | ->]; cbn [String.eqb Ascii.eqb Bool.eqb]; apply St; [now apply max_upto|now apply abs_upto].
Qed.

(** *** The penalty *)
(** The exponent alpha as far as a run of at most 2^53 generations can see; 0 elsewhere. *)
Definition capped (e : @expo Fops) : @expo Fops := fun x => if SFleb (S754_zero false) x && SFleb x (@nofZ Fops (2 ^ 200)) then e x else inr nzero.
Lemma bleb_real : forall a b : bin, is_finite a = true -> is_finite b = true -> (SFleb (B2SF a) (B2SF b) = true <-> (B2R a <= B2R b)%R).
Proof.
  intros a b Fa Fb. change (SFleb (B2SF a) (B2SF b)) with (Bleb a b). rewrite Bleb_correct by auto. split; [|apply Rle_bool_true]. case Rle_bool_spec; [auto|discriminate].
Qed.
Lemma big_bin : exists b : bin, @nofZ Fops (2 ^ 200) = B2SF b /\ is_finite b = true /\ B2R b = bpow radix2 200.
Proof.
  exists (binary_normalize fprec femax prec_pos prec_emax mode_NE (2 ^ 200) 0 false). split; [exact (normalize_same _ _ _)|].
  pose proof (binary_normalize_correct fprec femax prec_pos prec_emax mode_NE (2 ^ 200) 0 false) as H. cbv zeta in H. change (round_mode mode_NE) with ZnearestE in H.
  assert (V : F2R (Float radix2 (2 ^ 200) 0) = bpow radix2 200) by (unfold F2R; cbn [Fnum Fexp]; change (2 ^ 200) with (radix2 ^ 200); rewrite IZR_Zpower by lia; cbn [bpow]; ring).
  rewrite V in H. change (round radix2 _ ZnearestE (bpow radix2 200)) with (rnd (bpow radix2 200)) in H. rewrite rnd_bpow in H by lia.
  rewrite Rlt_bool_true in H; [tauto|]. rewrite Rabs_pos_eq by apply bpow_ge_0. apply bpow_lt. unfold femax. lia.
Qed.
Lemma capped_total : forall e, tame 200 e -> forall x, double x -> exists y, capped e x = inr y /\ upto 400 y.
Proof.
  intros e T x Dx. unfold capped. destruct (SFleb (S754_zero false) x && SFleb x (@nofZ Fops (2 ^ 200))) eqn:E; [|exists nzero; split; [reflexivity|apply zero_upto; lia]].
  apply T. apply andb_true_iff in E. destruct E as [E1 E2]. destruct big_bin as (bg & Eb & Fg & Vg). rewrite Eb in E2.
  destruct (double_bin x Dx) as (b & <-). assert (Fb : is_finite b = true) by (destruct b as [s|[]| |]; try discriminate E1; try reflexivity; destruct bg; discriminate).
  apply ub_upto; [lia|]. split; auto. apply (bleb_real (B754_zero false) b eq_refl Fb) in E1. apply (bleb_real b bg Fb Fg) in E2. rewrite Vg in E2. cbn [B2R] in E1. lra.
Qed.
Lemma capped_same : forall e x, upto 200 x -> capped e x = e x.
Proof.
  intros e x Hx. destruct (upto_ub 200 x ltac:(lia) Hx) as (b & <- & Fb & L & U). unfold capped. destruct big_bin as (bg & Eb & Fg & Vg). rewrite Eb.
  assert (E1 : SFleb (S754_zero false) (B2SF b) = true) by (apply (bleb_real (B754_zero false) b eq_refl Fb); exact L).
  assert (E2 : SFleb (B2SF b) (B2SF bg) = true) by (apply bleb_real; auto; rewrite Vg; exact U). rewrite E1, E2. reflexivity.
Qed.
Lemma clock_upto : forall c gen, upto 100 c -> 0 <= gen < 2 ^ 53 -> upto 200 (nmul c (nofZ gen)).
Proof.
  intros c gen Hc Hg. destruct (upto_ub 100 c ltac:(lia) Hc) as (b & <- & Ub). destruct (int_exact gen) as (g & Eg & Fg & Vg); [lia|]. rewrite Eg. cbn [nmul Fops]. rewrite mul_same.
  apply ub_upto; [lia|]. apply ub_weak with (100 + 53); [lia|]. apply ub_mult; try lia; auto. split; auto. rewrite Vg. split; [apply IZR_le; lia|]. rewrite <- IZR_Zpower by lia. apply IZR_le. change (radix2 ^ 53) with (2 ^ 53). lia.
Qed.
(** A penalty whose exponents give powers of every double. *)
Definition total_penalty (k : Z) (p : @penalty Fops) : Prop :=
  match p with
  | Dynamic delta c alpha betta => upto 100 delta /\ upto 100 c /\ (forall x, double x -> exists y, alpha x = inr y /\ upto 400 y) /\ tame k betta
  | Adaptive delta b1 b2 betta => tame_penalty k p
  | Static _ _ _ _ => False
  end.
Definition seen (p : @penalty Fops) : @penalty Fops := match p with Dynamic delta c alpha betta => Dynamic delta c (capped alpha) betta | _ => p end.
Lemma seen_total : forall k p, tame_penalty k p -> total_penalty k (seen p).
Proof. intros k [delta c alpha betta|delta b1 b2 betta|]; cbn; auto. intros (H1 & H2 & H3 & H4). split; auto. split; auto. split; auto. now apply capped_total. Qed.
Lemma seen_same : forall k p conds values gen best, tame_penalty k p -> 0 <= gen < 2 ^ 53 -> penalty_execute (seen p) conds values gen best = penalty_execute p conds values gen best.
Proof. intros k [delta c alpha betta|delta b1 b2 betta|] conds values gen best H Hg; try reflexivity. destruct H as (H1 & H2 & H3 & H4). unfold penalty_execute. cbn [seen]. rewrite capped_same; [reflexivity|]. now apply clock_upto. Qed.

Lemma mult_upto : forall k j x y, 0 <= k -> 0 <= j -> k + j <= 1023 -> upto k x -> upto j y -> upto (k + j) (nmul x y).
Proof.
  intros k j x y Hk Hj H Hx Hy. destruct (upto_ub k x Hk Hx) as (a & <- & Ua). destruct (upto_ub j y Hj Hy) as (b & <- & Ub). cbn [nmul Fops]. rewrite mul_same. apply ub_upto; [lia|]. now apply ub_mult.
Qed.
Lemma upto_weak : forall k k' x, k <= k' -> upto k x -> upto k' x.
Proof. intros k k' x H (F & L & U). split; auto. split; auto. apply Qle_trans with (1 := U). rewrite <- Zle_Qle. apply Z.pow_le_mono_r; lia. Qed.
Lemma ten_upto : upto 4 (nofZ 10).
Proof. destruct (int_exact 10) as (b & -> & F & V); [lia|]. apply ub_upto; [lia|]. split; auto. rewrite V. split; [lra|]. change (bpow radix2 4) with 16%R. lra. Qed.
Lemma above_1 : forall b1, finite b1 -> nleb b1 (nofZ 1) = false -> exists q, py_div none_ b1 = inr q /\ upto 0 q.
Proof.
  intros b1 F1 N. destruct (finite_bin b1 F1) as (b & <- & Fb). destruct (int_exact 1) as (o & Eo & Fo & Vo); [lia|]. cbn [nleb Fops] in N. rewrite Eo in N.
  assert (G : (1 < B2R b)%R). { destruct (Rlt_or_le 1 (B2R b)) as [|L]; auto. exfalso. assert (C : SFleb (B2SF b) (B2SF o) = true) by (apply bleb_real; auto; rewrite Vo; auto). congruence. }
  assert (A : above 1 b) by (right; split; auto; lra). unfold py_div. cbn [neqb Fops]. change (@nzero Fops) with (S754_zero false). rewrite above_nonzero by auto. rewrite one_same. cbn [ndiv_raw Fops]. rewrite div_same.
  eexists. split; [reflexivity|]. apply ub_upto; [lia|]. destruct one_val as [V1 F1'].
  apply ub_near with (B2R one / B2R b)%R; [lia|apply near_div; auto; rewrite ?V1; lra|]. rewrite V1. cbn [bpow]. split.
  - apply Rmult_le_pos; [lra|]. left. apply Rinv_0_lt_compat. lra.
  - apply Rmult_le_reg_r with (B2R b); [lra|]. unfold Rdiv. rewrite Rmult_assoc, Rinv_l by lra. lra.
Qed.
Lemma penalty_double : forall k p conds values gen best, 0 <= k -> total_penalty k p -> Forall sign conds -> Forall (constraint_value k) values -> length conds = length values -> Z.of_nat (length conds) <= 2 ^ 20 ->
  match penalty_execute p conds values gen best with inr q => upto 1000 q | inl _ => ~ sane_best gen best end.
Proof.
  intros k p conds values gen best Hk Hp Hs Hv L Ln.
  assert (Sum : forall betta, tame k betta -> exists t, sum_violations betta nzero conds values = inr t /\ upto 453 t).
  { intros betta Tb. destruct (sum_double k betta Hk Tb conds values 0 (B754_zero false) Hs Hv L) as (t & Et & Ft & Bt); [lia|reflexivity|unfold cap; cbn; lra|].
    exists (B2SF t). split; [exact Et|]. apply ub_upto; [lia|]. split; auto. pose proof (cap_top (0 + length conds) ltac:(cbn [Nat.add]; lia)). lra. }
  unfold penalty_execute. rewrite L, Nat.eqb_refl. cbn [negb].
  destruct p as [delta c alpha betta|delta b1 b2 betta|]; [| |destruct Hp].
  - destruct Hp as (Hd & Hc & Ha & Hb). destruct (Sum betta Hb) as (t & -> & Ut). destruct (Ha (nmul c (nofZ gen))) as (y & -> & Uy).
    { destruct (upto_ub 100 c ltac:(lia) Hc) as (b & <- & _). destruct (double_bin _ (proj1 (nofZ_number gen))) as (g & <-). cbn [nmul Fops]. rewrite mul_same. apply bin_double. }
    apply upto_weak with (100 + 400 + 453); [lia|]. apply mult_upto; try lia; auto. apply mult_upto; try lia; auto.
  - destruct Hp as (Hd & F1 & U2 & Hn & Hb). destruct (Sum betta Hb) as (t & -> & Ut). destruct (gen =? 0) eqn:E0.
    { apply upto_weak with (100 + 0 + 453); [lia|]. apply mult_upto; try lia; auto. apply mult_upto; try lia; auto. apply zero_upto. lia. }
    assert (N1 : nleb b1 (nofZ 1) = false) by (unfold new_adaptive in Hn; destruct (nleb b1 (nofZ 1)); [discriminate Hn|reflexivity]).
    destruct best as [|i g|]; cbn [best_feasible].
    + intros [[-> _]|(_ & i & g & C)]; [discriminate E0|discriminate C].
    + destruct (feasible i).
      * destruct (above_1 b1 F1 N1) as (q & -> & Uq). apply upto_weak with (100 + (0 + 4) + 453); [lia|]. apply mult_upto; try lia; auto. apply mult_upto; try lia; auto. apply mult_upto; try lia; auto. apply ten_upto.
      * apply upto_weak with (100 + (100 + 4) + 453); [lia|]. apply mult_upto; try lia; auto. apply mult_upto; try lia; auto. apply mult_upto; try lia; auto. apply ten_upto.
    + intros [[-> _]|(_ & i & g & C)]; [discriminate E0|discriminate C].
Qed.

(** *** Scores *)
Lemma score_penalised : forall f x q, match obj_value f with T1 t => finite t | TNone => True | TL _ => False end -> number x -> upto 1000 q ->
  exists y, score_of f x q = inr y /\ number y.
Proof.
  intros f x q Ht Hx Hq. destruct (upto_ub 1000 q ltac:(lia) Hq) as (p & <- & Fp & Lp & Up). assert (Ap : above 0 p) by (right; split; auto).
  unfold score_of. destruct (number_cases x Hx) as [Fx|(s & ->)].
  - destruct (finite_bin x Fx) as (xb & <- & Fxb). destruct (obj_value f) as [|t|]; [| |destruct Ht].
    + eexists. split; [reflexivity|]. unfold neg_score. cbn [nopp nadd Fops]. rewrite add_same, opp_same. split; [apply bin_double|].
      pose proof (near_nan _ _ (near_opp _ _ (near_plus xb p Fxb Fp))) as N. intros C. destruct (Bopp (Bplus mode_NE xb p)); discriminate.
    + destruct (finite_bin t Ht) as (tb & <- & Ft). rewrite (hyper_double tb xb p Ft Fxb Ap). eexists. split; [reflexivity|]. split; [apply bin_double|].
      destruct (inv_range _ (denom_above tb xb p Ft Fxb Ap)) as [[E|[F _]] _]; [rewrite E; discriminate|]. apply finite_not_nan. now apply finite_B2SF.
  - destruct (obj_value f) as [|t|]; [| |destruct Ht].
    + eexists. split; [reflexivity|]. unfold neg_score. cbn [nopp nadd Fops]. destruct p as [sp|sp| |sp m e ?]; try discriminate Fp; destruct s; (split; [reflexivity|discriminate]).
    + exists (S754_zero false). split; [|split; [reflexivity|discriminate]]. unfold hyper, py_div. cbn [nadd nsub nabs ndiv_raw neqb Fops]. destruct Ht as [_ Ft].
      destruct t as [a|a| |a m e]; try discriminate Ft; try destruct a; destruct s; destruct p as [sp|sp| |sp m' e' ?]; try discriminate Fp; reflexivity.
Qed.
Lemma row_split : forall k a b va x vb, Forall sign a -> Forall sign b -> length va = length a -> row k (a ++ "optimize" :: b) (va ++ x :: vb) -> number x /\ Forall (constraint_value k) (va ++ vb) /\ length vb = length b.
Proof.
  intros k. assert (P : forall c vs, Forall sign c -> Forall2 (fun c v => if String.eqb c "optimize" then number v else constraint_value k v) c vs -> Forall (constraint_value k) vs /\ length vs = length c).
  { intros c vs Fs F. induction F as [|d v c vs Hd F IH]; [split; constructor|]. inversion Fs as [|? ? Hs Fs']; subst. destruct (IH Fs'). split; [|cbn; lia]. constructor; auto. destruct Hs as [-> | ->]; exact Hd. }
  intros a b va x vb Fa Fb L R. unfold row in R. apply Forall2_app_inv_l in R. destruct R as (l1 & l2 & R1 & R2 & E). assert (L1 : length a = length l1) by (clear - R1; induction R1; cbn; congruence).
  assert (E' : va = l1 /\ x :: vb = l2).
  { assert (K : length va = length l1) by congruence. clear - K E. revert l1 K E. induction va as [|v va IH]; intros [|w l1] K E; try discriminate K; cbn in E; [auto|]. injection E as -> E. destruct (IH l1) as [-> ->]; auto. }
  destruct E' as [<- <-]. inversion R2 as [|? ? ? ? Hx R3]; subst. destruct (P a va Fa R1) as [C1 _]. destruct (P b vb Fb R3) as [C2 L2]. split; [exact Hx|]. split; [apply Forall_app; auto|auto].
Qed.
Lemma called_row : forall b f o cl k genes l, called f k genes = inr (OTuple l) -> obj_function f = o -> returns_rows b cl o -> length l = length cl -> row b cl l.
Proof.
  intros b f o cl k genes l C <- Ro. unfold called in C. unfold returns_rows in Ro.
  destruct (input_data f) as [d|]; [destruct (truthy d)|]; destruct (obj_function f) as [o|o|o1 o2]; try discriminate C; try (eapply Ro; eassumption); try (eapply (proj1 Ro); eassumption); eapply (proj2 Ro); eassumption.
Qed.
(** The fitness object of a conditional task: its evaluations of rows. *)
Lemma assess_row : forall k f p a b gen best va x vb i, 0 <= k -> conditional_on f p a b -> total_penalty k p -> Forall sign a -> Forall sign b -> Z.of_nat (length (a ++ b)) <= 2 ^ 20 ->
  match obj_value f with T1 t => finite t | TNone => True | TL _ => False end -> length va = length a -> row k (a ++ "optimize" :: b) (va ++ x :: vb) ->
  match assess f gen best (OTuple (va ++ x :: vb)) i with inr j => exists y, score j = SV1 y /\ number y | inl _ => ~ sane_best gen best end.
Proof.
  intros k f p a b gen best va x vb i Hk K Tp Fa Fb Ln Ht L Rw. destruct (row_split k a b va x vb Fa Fb L Rw) as (Nx & Cv & Lb). rewrite (assess_cond_exact f p a b) by auto.
  pose proof (penalty_double k p (a ++ b) (va ++ vb) gen best Hk Tp (proj2 (Forall_app _ _ _) (conj Fa Fb)) Cv ltac:(rewrite !app_length; lia) Ln) as P.
  match goal with |- context [penalty_execute ?a1 ?a2 ?a3 ?a4 ?a5] =>
    change (match penalty_execute a1 a2 a3 a4 a5 with inr q => upto 1000 q | inl _ => ~ sane_best gen best end) in P; destruct (penalty_execute a1 a2 a3 a4 a5) as [e|q]; [exact P|] end.
  destruct (score_penalised f x q Ht Nx P) as (y & -> & Ny). exists y. split; auto.
Qed.
(** The same for every tuple of the right length. *)
Lemma assess_tuple : forall k f p a b gen best l i, 0 <= k -> conditional_on f p a b -> total_penalty k p -> Forall sign a -> Forall sign b -> Z.of_nat (length (a ++ b)) <= 2 ^ 20 ->
  match obj_value f with T1 t => finite t | TNone => True | TL _ => False end -> length l = length (a ++ "optimize" :: b) -> row k (a ++ "optimize" :: b) l ->
  match assess f gen best (OTuple l) i with inr j => exists y, score j = SV1 y /\ number y | inl _ => ~ sane_best gen best end.
Proof.
  intros k f p a b gen best l i Hk K Tp Fa Fb Ln Ht L Rw. rewrite app_length in L. cbn [length] in L. destruct (split_at l (length a)) as (va & x & vb & -> & Lp); [change (@num Fops) with spec_float in *; lia|].
  apply (assess_row k) with p a b; auto.
Qed.
Definition total_conditional (k : Z) (cf : @config Fops) (p : @penalty Fops) (a b : list string) : Prop :=
  0 <= k /\ cf_penalty cf = PPen p /\ total_penalty k p /\ cf_conditions cf = Some (a ++ "optimize" :: b) /\ Forall sign a /\ Forall sign b /\ a ++ b <> [] /\ Z.of_nat (length (a ++ b)) <= 2 ^ 20 /\
    match cf_obj_value cf with T1 t => finite t | TNone => True | TL _ => False end /\ returns_rows k (a ++ "optimize" :: b) (cf_objective cf).
Lemma new_total : forall k cf p a b, total_conditional k cf p a b ->
  let f := mkFit Hyperbola (cf_objective cf) (cf_obj_value cf) (cf_input_data cf) (Some p) (a ++ b) true [Z.of_nat (length a)] in
  new_fitness Hyperbola (cf_objective cf) (cf_obj_value cf) (cf_input_data cf) (cf_penalty cf) (cf_conditions cf) = inr (f, Some (a ++ b)) /\ conditional_on f p a b.
Proof.
  intros k cf p a b (_ & Ep & _ & Ec & Fa & Fb & Ne & _). rewrite Ep, Ec. cbn [new_fitness].
  assert (L : (2 <= length (a ++ "optimize" :: b))%nat).
  { rewrite app_length. cbn [length]. destruct a as [|x a]; [destruct b as [|y b]; [destruct Ne; reflexivity|cbn; lia]|cbn; lia]. }
  replace (Z.of_nat (length (a ++ "optimize" :: b)) <=? 1) with false by (symmetry; apply Z.leb_gt; lia). cbn [is_multi_kind].
  rewrite index_of_mid, remove_mid by auto. split; [reflexivity|]. repeat split.
Qed.
Lemma total_numbers : forall k cf p a b, total_conditional k cf p a b -> numbers_made cf.
Proof.
  intros K0 cf p a b T f cl E. destruct (new_total K0 cf p a b T) as [E' K]. rewrite E' in E. injection E as <- <-. destruct T as (Hk & _ & Tp & _ & Fa & Fb & _ & Ln & Ht & Ro).
  intros k genes gen best v i j C A. destruct (assess_cond _ _ _ _ _ _ _ _ _ K A) as (va & x & vb & pen & y & -> & L1 & L2 & _).
  assert (L : length (va ++ x :: vb) = length (a ++ "optimize" :: b)) by (rewrite !app_length; cbn [length]; change (@num Fops) with spec_float in *; lia).
  pose proof (assess_tuple K0 _ p a b gen best _ i Hk K Tp Fa Fb Ln Ht L (called_row _ _ _ _ _ _ _ C eq_refl Ro L)) as P. rewrite A in P. exact P.
Qed.
Lemma total_evaluates : forall k cf p a b space, total_conditional k cf p a b -> tuples_on cf (length (a ++ "optimize" :: b)) space -> evaluates cf space.
Proof.
  intros K0 cf p a b space T Tu. destruct (new_total K0 cf p a b T) as [E' K]. eexists _, _. split; [exact E'|]. split; [reflexivity|]. destruct T as (Hk & _ & Tp & _ & Fa & Fb & _ & Ln & Ht & Ro).
  intros k pt gen best i Hpt Sb. destruct (Tu k pt Hpt) as (l & A & L).
  match goal with |- exists v j, called ?f _ _ = _ /\ _ => assert (C : called f k pt = inr (OTuple l)) by (apply called_answers; exact A) end.
  pose proof (assess_tuple K0 _ p a b gen best l i Hk K Tp Fa Fb Ln Ht L (called_row _ _ _ _ _ _ _ C eq_refl Ro L)) as P.
  exists (OTuple l). destruct (assess _ gen best (OTuple l) i) as [e|j]; [contradiction|]. exists j. auto.
Qed.

(** *** The runs *)
Lemma seen_run : forall k cf space, conditional_double k cf space -> exists p cf', cf_penalty cf = PPen p /\ same_penalty cf p (seen p) /\ cf' = with_penalty (PPen (seen p)) cf /\
  numbers_made cf' /\ evaluates cf' space.
Proof.
  intros k cf space (Hk & p & cl & Ep & Tp & Ec & (a & b & -> & Fa & Fb & Ne) & Ln & Ht & Ro & Tu & G). exists p, (with_penalty (PPen (seen p)) cf). split; auto.
  split; [intros conds values gen best Hg; apply (seen_same k); auto; unfold run_generation in Hg; change (2 ^ 53) with 9007199254740992 in *; lia|]. split; auto.
  assert (T : total_conditional k (with_penalty (PPen (seen p)) cf) (seen p) a b).
  { split; [exact Hk|]. split; [reflexivity|]. split; [now apply seen_total|]. split; [exact Ec|]. split; auto. split; auto. split; auto. split; [|split; auto]. rewrite app_length in *. cbn [length] in Ln. lia. }
  split; [eapply total_numbers; eauto|]. eapply total_evaluates; eauto.
Qed.

(** C91: every call of the objective is on a grid point of the box. *)
Theorem C91_binary_calls : forall B fuel cf gray gens s gd' cl s', Forall fine gens -> conditional_double B cf (double_box gens) -> Forall double_input (cf_input_population cf) ->
  binary_ga fuel cf gray gens s = Ok (gd', cl) s' ->
  exists calls, log s' = calls ++ log s /\ Forall (fun x => double_grid gens (fst x) /\ double_box gens (fst x)) calls.
Proof.
  intros B fuel cf gray gens s gd' cl s' H C Hin Rr. destruct (seen_run B cf _ C) as (p & cf' & Ep & Sa & E' & N & _).
  destruct (C90_same_run fuel cf p (seen p) s Ep Sa) as (K & _). rewrite <- K, <- E' in Rr. eapply binary_calls_any; eauto. rewrite E'. exact Hin.
Qed.
(** C91, BinaryGA: a conditional task in doubles never raises. *)
Theorem C91_binary_safe : forall B fuel cf gray gens s, Forall fine gens -> conditional_double B cf (double_box gens) -> valid_double cf ->
  ((2 <= length gens)%nat \/ exists g n stp, gens = [g] /\ gene_params g = inr (n, stp) /\ 2 <= n) ->
  named_level (cf_mutation_lvl cf) \/ number_level (cf_mutation_lvl cf) ->
  Forall (fun x => exists xs, double_vector x xs /\ Forall2 between gens xs) (cf_input_population cf) ->
  forall e, binary_ga fuel cf gray gens s <> Err e.
Proof.
  intros B fuel cf gray gens s H C Vd H2 Hl Hin. destruct (seen_run B cf _ C) as (p & cf' & Ep & Sa & E' & N & Ev).
  destruct (C90_same_run fuel cf p (seen p) s Ep Sa) as (K & _). rewrite <- K, <- E'. apply binary_safe_any; auto; rewrite E'; assumption.
Qed.
Theorem C91_combinatory_calls : forall B fuel cf a b k s gd' cl s', conditional_double B cf (arrangement a b k) -> Forall (arrangement a b k) (cf_input_population cf) ->
  combinatory_ga fuel cf a b k s = Ok (gd', cl) s' ->
  exists calls, log s' = calls ++ log s /\ Forall (fun x => arrangement a b k (fst x)) calls.
Proof.
  intros B fuel cf a b k s gd' cl s' C Hin Rr. destruct (seen_run B cf _ C) as (p & cf' & Ep & Sa & E' & N & _).
  destruct (C90_same_run fuel cf p (seen p) s Ep Sa) as (_ & K & _). rewrite <- K, <- E' in Rr. eapply combinatory_calls_any; eauto. rewrite E'. exact Hin.
Qed.
Theorem C91_combinatory_safe : forall B fuel cf a b k s, conditional_double B cf (arrangement a b k) -> valid_double cf -> 3 <= k <= b - a + 1 ->
  named_level (cf_mutation_lvl cf) \/ number_level (cf_mutation_lvl cf) -> Forall (arrangement a b k) (cf_input_population cf) ->
  forall e, combinatory_ga fuel cf a b k s <> Err e.
Proof.
  intros B fuel cf a b k s C Vd Hk Hl Hin. destruct (seen_run B cf _ C) as (p & cf' & Ep & Sa & E' & N & Ev).
  destruct (C90_same_run fuel cf p (seen p) s Ep Sa) as (_ & K & _). rewrite <- K, <- E'. apply combinatory_safe_any; auto; rewrite E'; assumption.
Qed.
Theorem C91_categorical_calls : forall B fuel cf gens s gd' cl s', conditional_double B cf (from_pools gens) -> Forall (from_pools gens) (cf_input_population cf) ->
  categorical_ga fuel cf gens s = Ok (gd', cl) s' ->
  exists calls, log s' = calls ++ log s /\ Forall (fun x => from_pools gens (fst x)) calls.
Proof.
  intros B fuel cf gens s gd' cl s' C Hin Rr. destruct (seen_run B cf _ C) as (p & cf' & Ep & Sa & E' & N & _).
  destruct (C90_same_run fuel cf p (seen p) s Ep Sa) as (_ & _ & K & _). rewrite <- K, <- E' in Rr. eapply categorical_calls_any; eauto. rewrite E'. exact Hin.
Qed.
Theorem C91_categorical_safe : forall B fuel cf gens s, conditional_double B cf (from_pools gens) -> valid_double cf -> Forall good_pool gens -> Forall no_nan_pool gens ->
  number_level (cf_mutation_lvl cf) -> Forall (from_pools gens) (cf_input_population cf) ->
  forall e, categorical_ga fuel cf gens s <> Err e.
Proof.
  intros B fuel cf gens s C Vd Hg Hnn Hl Hin. destruct (seen_run B cf _ C) as (p & cf' & Ep & Sa & E' & N & Ev).
  destruct (C90_same_run fuel cf p (seen p) s Ep Sa) as (_ & _ & K & _). rewrite <- K, <- E'. apply categorical_safe_any; auto; rewrite E'; assumption.
Qed.

(** *** Which exponents are tame *)
Lemma pow_upto : forall b n x, 0 <= b -> b * Z.of_nat n <= 1000 -> upto b x -> upto (b * Z.of_nat n) (npow x n).
Proof.
  intros b n x Hb Hn Hx. induction n as [|n IH]; cbn [npow].
  - rewrite Z.mul_0_r. destruct (int_exact 1) as (o & E & F & V); [lia|]. unfold none_. rewrite E. apply ub_upto; [lia|]. split; auto. rewrite V. cbn [bpow]. lra.
  - replace (b * Z.of_nat (S n)) with (b + b * Z.of_nat n) by lia. assert (0 <= b * Z.of_nat n) by nia. apply mult_upto; try lia; auto. apply IH. lia.
Qed.
(** The natural exponents n: x ** n for x up to 2^b, b * n <= 400. *)
Lemma natural_tame : forall b n, 0 <= b -> b * Z.of_nat n <= 400 -> tame b (natural n).
Proof.
  intros b n Hb Hn x Hx. exists (@npow Fops x n). assert (0 <= b * Z.of_nat n) by nia. pose proof (pow_upto b n x Hb ltac:(lia) Hx) as U. split; [|now apply upto_weak with (b * Z.of_nat n)].
  unfold natural. destruct (@pow_outcome Fops x n) as [[[_ C] E]|[_ E]]; [|exact E]. exfalso. apply C. unfold bounded. destruct U as ((_ & F) & _). cbn [ntrunc Fops].
  destruct (@npow Fops x n) as [s|s| |s m e]; try discriminate F; cbn [f_trunc]; discriminate.
Qed.

(** *** Cases *)
(** Minimise the sum of the (whole parts of the) genes subject to x0 <= 1 and x0 = x1; with plus
    infinity at the points whose sum is 3 times something. *)
Definition whole (g : gv) : Z := match g with GInt z => z | GNum x => match f_trunc x with Some z => z | None => 0 end | _ => 0 end.
Definition clamp (z : Z) : spec_float := if z <? 0 then SFopp (@nofZ Fops (Z.min 1000 (- z))) else @nofZ Fops (Z.min 1000 z).
Definition whole_row (genes : list gv) : list spec_float :=
  let x0 := whole (nth 0 genes (GInt 0)) in let total := fold_left (fun acc g => acc + whole g) genes 0 in
  [clamp (x0 - 1); if total mod 3 =? 0 then S754_infinity false else clamp total; clamp (x0 - whole (nth 1 genes (GInt 0)))].
Definition rows_obj : @objfun Fops := Obj1 (fun _ genes => inr (OTuple (whole_row genes))).
Definition rows_cf (p : @penalty Fops) (lv : lvl) (inp : list (list gv)) : @config Fops :=
  mkCfg 3 5 rows_obj (T1 (fq 1 2)) None (PPen p) (Some ["<="; "optimize"; "!="]) (fq 6 10) None inp 2 lv "best" false.
Definition ddynamic : @penalty Fops := Dynamic (fq 1 2) (fq 3 2) (natural 2) (natural 2).
Definition dadaptive : @penalty Fops := Adaptive (fq 1 3) (fq 3 2) (fq 2 1) (natural 3).
Lemma small_upto : forall z, 0 <= z <= 1000 -> upto 10 (@nofZ Fops z).
Proof.
  intros x Hx. destruct (int_exact x) as (b & -> & F & V); [lia|]. apply ub_upto; [lia|]. split; auto. rewrite V. change (bpow radix2 10) with 1024%R. split; apply IZR_le; lia.
Qed.
Lemma clamp_value : forall k z, 10 <= k -> constraint_value k (clamp z).
Proof.
  intros k z Hk. assert (P : (inject_Z (2 ^ 10) <= inject_Z (2 ^ k))%Q) by (rewrite <- Zle_Qle; apply Z.pow_le_mono_r; lia). unfold clamp. destruct (z <? 0) eqn:E.
  - apply Z.ltb_lt in E. destruct (upto_ub 10 _ ltac:(lia) (small_upto (Z.min 1000 (- z)) ltac:(lia))) as (b & <- & Fb & Lb & Ub). rewrite opp_same.
    split; [apply finite_B2SF; now rewrite is_finite_Bopp|]. apply Qle_trans with (2 := P). apply Rle_Qle. rewrite Q2R_abs, Q2R_pow2, <- val_real by lia. rewrite B2R_Bopp, Rabs_Ropp, Rabs_pos_eq by auto. exact Ub.
  - apply Z.ltb_ge in E. destruct (upto_ub 10 _ ltac:(lia) (small_upto (Z.min 1000 z) ltac:(lia))) as (b & <- & Fb & Lb & Ub).
    split; [now apply finite_B2SF|]. apply Qle_trans with (2 := P). apply Rle_Qle. rewrite Q2R_abs, Q2R_pow2, <- val_real by lia. rewrite Rabs_pos_eq by auto. exact Ub.
Qed.
Lemma clamp_number : forall z, number (clamp z).
Proof. intros z. destruct (clamp_value 10 z ltac:(lia)) as [F _]. split; [exact (proj1 F)|now apply finite_not_nan]. Qed.
Ltac is_upto := split; [split; vm_compute; reflexivity|split; apply Qle_bool_imp_le; vm_compute; reflexivity].
Lemma rows_meet : forall p lv inp sp, p = ddynamic \/ p = dadaptive -> conditional_double 133 (rows_cf p lv inp) sp.
Proof.
  intros p lv inp sp Hp. split; [lia|]. exists p, ["<="; "optimize"; "!="]. split; [reflexivity|].
  split.
  { destruct Hp as [-> | ->].
    - split; [is_upto|]. split; [is_upto|]. split; apply natural_tame; lia.
    - split; [is_upto|]. split; [split; vm_compute; reflexivity|]. split; [is_upto|]. split; [|apply natural_tame; lia]. unfold new_adaptive.
      assert (E1 : nleb (fq 3 2) (@nofZ Fops 1) = false) by (vm_compute; reflexivity). assert (E2 : nleb (fq 2 1) (@nofZ Fops 1) = false) by (vm_compute; reflexivity). rewrite E1, E2. reflexivity. }
  split; [reflexivity|]. split; [exists ["<="], ["!="]; split; [reflexivity|]; split; [constructor; [unfold sign; auto|constructor]|]; split; [constructor; [unfold sign; auto|constructor]|discriminate]|].
  split; [cbn [length]; lia|]. split; [split; vm_compute; reflexivity|]. split.
  { intros k g l E _. injection E as <-. unfold whole_row. cbv zeta. constructor; [apply clamp_value; lia|]. constructor; [|constructor; [apply clamp_value; lia|constructor]].
    cbn [String.eqb Ascii.eqb Bool.eqb]. destruct (_ =? 0); [split; [reflexivity|discriminate]|apply clamp_number]. }
  split; [|cbn; lia]. intros k genes _. eexists. split; [exact (answer_1 _ k genes)|reflexivity].
Qed.
Lemma rows_valid : forall p lv inp, Z.of_nat (length inp) <= 5 -> valid_double (rows_cf p lv inp).
Proof.
  intros p lv inp H. split; [cbn; lia|]. split; [exists 3; split; [|lia]; vm_cast_no_check (eq_refl (Some 3))|]. split; [left; reflexivity|exact H].
Qed.
Example C91_binary_example : forall fuel p gray s e, p = ddynamic \/ p = dadaptive -> binary_ga fuel (rows_cf p (LStr "normal") []) gray two_genes s <> Err e.
Proof.
  intros fuel p gray s e Hp. apply (C91_binary_safe 133).
  - apply C04_double_meets.
  - now apply rows_meet.
  - apply rows_valid. cbn. lia.
  - left. cbn. lia.
  - left. right. left. reflexivity.
  - constructor.
Qed.
Example C91_combinatory_example : forall fuel p s e, p = ddynamic \/ p = dadaptive -> combinatory_ga fuel (rows_cf p (LStr "strong") []) 0 6 4 s <> Err e.
Proof. intros fuel p s e Hp. apply (C91_combinatory_safe 133); [now apply rows_meet|apply rows_valid; cbn; lia|lia|left; right; right; reflexivity|constructor]. Qed.
Example C91_categorical_example : forall fuel p s e, p = ddynamic \/ p = dadaptive -> categorical_ga fuel (rows_cf p (LFloat (fq 1 2)) []) [CRange 0 9 3; CList [GInt 4; GInt 5]] s <> Err e.
Proof.
  intros fuel p s e Hp. apply (C91_categorical_safe 133).
  - now apply rows_meet.
  - apply rows_valid. cbn. lia.
  - constructor; [cbn; lia|]. constructor; [right; exists (@GInt Fops 4), (@GInt Fops 5); split; [left; reflexivity|split; [right; left; reflexivity|reflexivity]]|constructor].
  - constructor; [exact I|]. constructor; [|constructor]. constructor; [exact I|constructor; [exact I|constructor]].
  - cbn. split; vm_compute; reflexivity.
  - constructor.
Qed.
(** Outside the bounds: a violation of 2^512, whose square is no double, makes a run raise. *)
Definition huge_cf (n : Z) : @config Fops :=
  mkCfg 3 5 (Obj1 (fun _ _ => inr (OTuple [@nofZ Fops (2 ^ n); @nofZ Fops 1]))) (T1 (fq 1 2)) None (PPen ddynamic) (Some ["!="; "optimize"]) (fq 6 10) None [] 2 (LStr "strong") "best" false.
Example C91_huge_case : error_of (combinatory_ga 50 (huge_cf 512) 0 6 4 ffresh) = Some OverflowError.
Proof. run. Qed.
Example C91_large_case : error_of (combinatory_ga 50 (huge_cf 133) 0 6 4 ffresh) = None.
Proof. run. Qed.
(** What a condition means for doubles: <= holds for zero, negative numbers and NaN, any other
    condition for zero only. *)
Theorem C42_double_meaning : forall c (v : spec_float), @holds Fops c v <->
  if String.eqb c "<=" then match v with S754_nan | S754_zero _ | S754_infinity true | S754_finite true _ _ => True | _ => False end
  else match v with S754_zero _ => True | _ => False end.
Proof.
  intros c v. unfold holds. destruct (String.eqb c "<="); destruct v as [[]|[]| |[] m e]; cbn; split; intros H; try exact I; try reflexivity; try discriminate H; contradiction H.
Qed.
Print Assumptions C42_double_meaning.
Print Assumptions C91_binary_calls.
Print Assumptions C91_binary_safe.
Print Assumptions C91_combinatory_calls.
Print Assumptions C91_combinatory_safe.
Print Assumptions C91_categorical_calls.
Print Assumptions C91_categorical_safe.
