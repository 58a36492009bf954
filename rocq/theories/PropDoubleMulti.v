(** Property C89: VEGA and FFGA in IEEE doubles: which points the objective is called on,
    and what can be raised. *)
From Coq Require Import String.
From Coq Require Import ZArith QArith Qabs Qreals Reals Bool List Lia Lra Floats.SpecFloat Permutation.
From Flocq Require Import Core Relative IEEE754.BinarySingleNaN.
From Verif Require Import Spec Num State Binary Population GaData Crossover Mutation Selection Penalty Fitness NewGeneration Driver
  ListLemmas Rnd Exec Laws Float BinaryProofs CodingProofs PopulationProofs CrossoverProofs MutationProofs SelectionProofs BalancedProofs VegaProofs NewGenProofs AssessProofs FitnessProofs
  StepProofs RunProofs Runs RankingProofs MultiProofs MultiRuns MultiSafetyProofs
  PropRun PropFitness DomainProofs SafetyProofs OptimizeProofs Demo FloatProofs FloatDecode FloatEncode PropFloat PropDoubleCoding PropDoubleRun PropMultiDomain MultiAny.
Import ListNotations.
Open Scope string_scope.
Open Scope list_scope.
Open Scope Z_scope.
Local Existing Instance Fops.
Local Existing Instance prec_pos.
Local Existing Instance prec_emax.

(** *** Ranks and FFGA scores as doubles *)
Lemma counting_number : counting number.
Proof.
  intros n. destruct (counting_double n) as [Nn Gn]. split; auto. split; auto. clear. induction n as [|n IH]; cbn [ones].
  - rewrite one_same. apply bin_double.
  - destruct (double_bin _ IH) as (b & <-). rewrite one_same. change (double (SFadd fprec femax (B2SF b) (B2SF one))). rewrite add_same. apply bin_double.
Qed.
(** 2^53, the largest rank: adding 1 to it gives 2^53 again. *)
Definition big_bin : bin := binary_normalize fprec femax prec_pos prec_emax mode_NE (2 ^ 53) 0 false.
Lemma big_val : is_finite big_bin = true /\ B2R big_bin = IZR (2 ^ 53).
Proof.
  destruct (int_exact (2 ^ 53)) as (b & E & F & V); [lia|]. cbn [nofZ Fops] in E. rewrite normalize_same in E. apply B2SF_inj in E. unfold big_bin. rewrite E. auto.
Qed.
Lemma big_plus : Bplus mode_NE big_bin one = big_bin.
Proof. apply B2SF_inj. vm_compute. reflexivity. Qed.
Lemma above_0_1 : forall b, above 1 b -> above 0 b.
Proof. intros b. apply above_weak. lra. Qed.
Lemma big_above : above 1 big_bin.
Proof. right. destruct big_val as [F V]. split; auto. rewrite V. apply IZR_le. lia. Qed.
Lemma ones_range : forall n, exists b : bin, ones n = B2SF b /\ above 1 b /\ Bleb b big_bin = true.
Proof.
  induction n as [|n (b & E & A & L)].
  - exists one. split; [apply one_same|]. split; [apply above_one|vm_compute; reflexivity].
  - exists (Bplus mode_NE b one). cbn [ones]. split; [rewrite E, one_same; apply add_same|]. split.
    + apply plus_above; auto using rnd_1; [lra|apply above_0_1, above_one].
    + rewrite <- big_plus. apply plus_mono; auto using above_0_1, above_one, big_above.
Qed.
Definition tiny : R := bpow radix2 (-53).
Lemma tiny_pos : (0 < tiny)%R.
Proof. apply bpow_gt_0. Qed.
Definition tiny_bin : bin := binary_normalize fprec femax prec_pos prec_emax mode_NE 1 (-53) false.
Lemma tiny_val : is_finite tiny_bin = true /\ B2R tiny_bin = tiny.
Proof.
  split; [vm_compute; reflexivity|]. rewrite val_real. replace (f_val (B2SF tiny_bin)) with (4503599627370496 # 40564819207303340847894502572032)%Q by (vm_compute; reflexivity).
  unfold Q2R, tiny. cbn [Qnum Qden bpow]. change (Z.pow_pos radix2 53) with 9007199254740992. lra.
Qed.
Lemma tiny_rnd : rnd tiny = tiny.
Proof. destruct tiny_val as [_ <-]. apply rnd_bin. Qed.
Lemma tiny_inv : Bdiv mode_NE one big_bin = tiny_bin.
Proof. apply B2SF_inj. vm_compute. reflexivity. Qed.
(** A score FFGA can give: a double, at least 2^-53, at most 1. *)
Definition share_weight (x : spec_float) : Prop := finite x /\ (/ inject_Z (2 ^ 53) <= f_val x)%Q /\ (f_val x <= 1)%Q.
Definition weight_bin (b : bin) : Prop := is_finite b = true /\ (tiny <= B2R b <= 1)%R.
Lemma tiny_Q : Q2R (/ inject_Z (2 ^ 53)) = tiny.
Proof. rewrite Q2R_ipow2 by lia. reflexivity. Qed.
Lemma share_bin : forall x, share_weight x <-> exists b : bin, x = B2SF b /\ weight_bin b.
Proof.
  intros x. split.
  - intros (Fx & L & H). destruct (finite_bin x Fx) as (b & <- & Fb). exists b. split; auto. split; auto. rewrite val_real. apply Qle_Rle in L, H. rewrite tiny_Q in L. change 1%Q with (inject_Z 1) in H. rewrite Q2R_Z in H. auto.
  - intros (b & -> & Fb & L & H). rewrite val_real in L, H. split; [now apply finite_B2SF|]. split; apply Rle_Qle; [rewrite tiny_Q; auto|]. change 1%Q with (inject_Z 1). rewrite Q2R_Z. auto.
Qed.
Lemma ffga_score : forall n, exists y, py_div none_ (nadd none_ (ones n)) = inr y /\ share_weight y.
Proof.
  intros n. destruct (ones_range n) as (b & E & A & L). unfold py_div. rewrite E, one_same. cbn [nadd neqb ndiv_raw Fops]. rewrite add_same.
  assert (A1 : above 1 (Bplus mode_NE one b)) by (apply plus_above; auto using rnd_1, above_one, above_0_1; lra).
  change (@nzero Fops) with (S754_zero false). rewrite (above_nonzero _ A1), div_same. eexists. split; [reflexivity|]. apply share_bin. eexists. split; [reflexivity|].
  enough (T : above tiny (Bdiv mode_NE one (Bplus mode_NE one b))).
  { destruct (inv_range _ A1) as [_ U]. destruct T as [C|[Fd T]]; [rewrite C in U; unfold Bleb in U; rewrite one_eq in U; discriminate U|]. destruct one_val as [V1 F1].
    rewrite Bleb_correct, V1 in U by auto. split; auto. split; auto. revert U. case Rle_bool_spec; auto. discriminate. }
  assert (Lb : Bleb (Bplus mode_NE one b) big_bin = true).
  { assert (X : Bleb (Bplus mode_NE one b) (Bplus mode_NE one big_bin) = true) by (apply plus_mono; auto using above_0_1, above_one, big_above).
    replace (Bplus mode_NE one big_bin) with big_bin in X; auto. apply B2SF_inj. vm_compute. reflexivity. }
  pose proof (inv_anti _ _ A1 big_above Lb) as Q1. rewrite tiny_inv in Q1. destruct (inv_range _ A1) as [P _]. destruct P as [->|[F P]]; [left; reflexivity|]. right. split; auto.
  destruct tiny_val as [Ft Vt]. rewrite Bleb_correct in Q1 by auto. rewrite Vt in Q1. revert Q1. case Rle_bool_spec; auto. discriminate.
Qed.
Lemma plus_above_r : forall x y : bin, forall r, rnd r = r -> (0 <= r)%R -> above 0 x -> above r y -> above r (Bplus mode_NE x y).
Proof.
  intros x y r R0 R1 [->|[Fx Lx]] Ay.
  - left. apply plus_inf_l. eapply above_weak; eauto.
  - destruct Ay as [->|[Fy Ly]]; [left; apply plus_inf_r; right; auto|]. apply near_above with (x := (B2R x + B2R y)%R); [now apply near_plus|auto|pose proof top_pos; lra|lra].
Qed.
Lemma above_positive : forall r (v : bin), (0 < r)%R -> above r v -> SFeqb (B2SF v) (S754_zero false) = false.
Proof. intros r [s|s| |s m e B] Hr [A|[F A]]; try discriminate; try reflexivity; try (cbn in A; lra); destruct s; reflexivity. Qed.
(** *** The roulette in doubles *)
Open Scope R_scope.
Lemma relative : forall x, bpow radix2 (-1022) <= x -> x * (1 - tiny) <= rnd x <= x * (1 + tiny).
Proof.
  intros x Hx. assert (P : 0 < x) by (pose proof (bpow_gt_0 radix2 (-1022)); lra).
  pose proof (relative_error_N_FLT radix2 (3 - femax - fprec) fprec prec_pos (fun n => negb (Z.even n)) x) as K.
  change (bpow radix2 (3 - femax - fprec + fprec - 1)) with (bpow radix2 (-1022)) in K. rewrite (Rabs_pos_eq x) in K by lra. specialize (K Hx).
  change (round radix2 (FLT_exp (3 - femax - fprec) fprec) (Znearest (fun n => negb (Z.even n))) x) with (rnd x) in K.
  replace (/ 2 * bpow radix2 (- fprec + 1)) with tiny in K.
  - apply Rabs_le_inv in K. lra.
  - unfold tiny. change (- fprec + 1)%Z with (-53 + 1)%Z. rewrite bpow_plus. change (bpow radix2 1) with 2. lra.
Qed.
Lemma tiny_small : bpow radix2 (-1022) <= tiny.
Proof. apply bpow_le. lia. Qed.
Lemma tiny_1 : tiny <= / 4.
Proof. unfold tiny. change (/ 4) with (bpow radix2 (-2)). apply bpow_le. lia. Qed.
Lemma big_tiny : IZR (2 ^ 53) * tiny = 1.
Proof. change (IZR (2 ^ 53)) with (bpow radix2 53). unfold tiny. rewrite <- bpow_plus. reflexivity. Qed.
Lemma big_round : rnd (IZR (2 ^ 53) + 1) = IZR (2 ^ 53).
Proof.
  destruct big_val as [F V]. destruct one_val as [V1 F1]. pose proof (near_plus big_bin one F F1) as K. rewrite big_plus, V, V1 in K.
  destruct K as [(_ & _ & K)|[[_ K]|[_ K]]]; [congruence| |]; rewrite K in F; discriminate F.
Qed.
Lemma big_top : IZR (2 ^ 53) < top.
Proof. change (IZR (2 ^ 53)) with (bpow radix2 53). apply bpow_lt. reflexivity. Qed.
Definition total (bs : list bin) : R := fold_right (fun b r => B2R b + r) 0 bs.
Lemma total_nonneg : forall bs, Forall weight_bin bs -> 0 <= total bs.
Proof. induction 1 as [|b bs (_ & L & _) F IH]; cbn [total fold_right]; [lra|]. change (0 <= B2R b + total bs). pose proof tiny_pos. lra. Qed.
(** The sum does not overflow and exceeds the exact sum by a factor of at most (1 + 2^-53)^n. *)
Lemma sum_up : forall bs, Forall weight_bin bs -> forall a : bin, is_finite a = true -> 0 <= B2R a <= IZR (2 ^ 53) ->
  exists t : bin, fold_left nadd (map B2SF bs) (B2SF a) = B2SF t /\ is_finite t = true /\ B2R a <= B2R t <= IZR (2 ^ 53) /\
    B2R t <= (B2R a + total bs) * (1 + tiny) ^ length bs /\ (bs <> [] -> tiny <= B2R t).
Proof.
  induction 1 as [|b bs (Fb & Lb & Hb) Fw IH]; intros a Fa Ha; cbn [map fold_left length total fold_right pow].
  - exists a. split; [reflexivity|]. split; auto. split; [lra|]. split; [lra|congruence].
  - pose proof tiny_pos as TP. pose proof tiny_small as TS. pose proof big_top as BT. pose proof (total_nonneg bs Fw) as TN. fold (total bs).
    assert (K : is_finite (Bplus mode_NE a b) = true /\ B2R (Bplus mode_NE a b) = rnd (B2R a + B2R b) /\ B2R a <= rnd (B2R a + B2R b) <= IZR (2 ^ 53)).
    { assert (R1 : B2R a <= rnd (B2R a + B2R b)) by (rewrite <- (rnd_bin a) at 1; apply rnd_le; lra).
      assert (R2 : rnd (B2R a + B2R b) <= IZR (2 ^ 53)) by (rewrite <- big_round; apply rnd_le; lra).
      destruct (near_plus a b Fa Fb) as [(_ & F & E)|[[A _]|[A _]]]; [auto|lra|pose proof top_pos; lra]. }
    destruct K as (Fs & Es & L1 & L2). destruct (IH (Bplus mode_NE a b) Fs) as (t & Et & Ft & Bt & Ut & _); [rewrite Es; lra|].
    exists t. change (@nadd Fops (B2SF a) (B2SF b)) with (SFadd fprec femax (B2SF a) (B2SF b)). rewrite add_same. split; [exact Et|]. split; auto. rewrite Es in *. split; [lra|].
    destruct (relative (B2R a + B2R b)) as [_ U]; [lra|]. assert (P : 0 < (1 + tiny) ^ length bs) by (apply pow_lt; lra).
    split; [|intros _; rewrite <- tiny_rnd; apply Rle_trans with (2 := proj1 Bt); apply rnd_le; lra].
    apply Rle_trans with (1 := Ut). rewrite <- Rmult_assoc. apply Rmult_le_compat_r; [lra|]. nra.
Qed.
Lemma div_low : forall b t : bin, weight_bin b -> is_finite t = true -> tiny <= B2R t <= IZR (2 ^ 53) -> above (B2R b / B2R t * (1 - tiny)) (Bdiv mode_NE b t) /\ tiny * tiny <= B2R b / B2R t.
Proof.
  intros b t (Fb & Lb & Hb) Ft Ht. pose proof tiny_pos as TP. pose proof tiny_1 as T1. pose proof big_tiny as BT.
  assert (Q0 : tiny * tiny <= B2R b / B2R t).
  { apply Rmult_le_reg_r with (B2R t); [lra|]. replace (B2R b / B2R t * B2R t) with (B2R b) by (field; lra). apply Rle_trans with (tiny * (tiny * IZR (2 ^ 53))); [rewrite Rmult_assoc; apply Rmult_le_compat_l; [lra|]; apply Rmult_le_compat_l; lra|].
    replace (tiny * IZR (2 ^ 53)) with 1 by lra. lra. }
  split; auto.
  assert (Q1 : bpow radix2 (-1022) <= B2R b / B2R t) by (apply Rle_trans with (2 := Q0); unfold tiny; rewrite <- bpow_plus; apply bpow_le; lia).
  destruct (relative _ Q1) as [R1 _]. assert (P : 0 <= B2R b / B2R t * (1 - tiny)) by (apply Rmult_le_pos; [pose proof (bpow_gt_0 radix2 (-1022)); lra|lra]).
  destruct (near_div b t Fb Ft) as [(_ & F & E)|[[A E]|[A E]]]; [lra|lra| | |].
  - right. split; auto. rewrite E. exact R1.
  - left. exact E.
  - pose proof top_pos. lra.
Qed.
Lemma plus_low : forall c q : bin, forall x y, 0 <= x -> bpow radix2 (-1022) <= y -> above x c -> above y q -> above ((x + y) * (1 - tiny)) (Bplus mode_NE c q).
Proof.
  intros c q x y Hx Hy Ac Aq. assert (Py : 0 < y) by (pose proof (bpow_gt_0 radix2 (-1022)); lra).
  destruct Ac as [->|[Fc Lc]]; [left; apply plus_inf_l; apply above_weak with (2 := Aq); lra|]. destruct Aq as [->|[Fq Lq]]; [left; apply plus_inf_r; right; split; auto; lra|].
  pose proof tiny_pos as TP. pose proof tiny_1 as T1. destruct (relative (B2R c + B2R q)) as [R1 _]; [lra|].
  assert (P : (x + y) * (1 - tiny) <= (B2R c + B2R q) * (1 - tiny)) by (apply Rmult_le_compat_r; lra). assert (P0 : 0 <= (x + y) * (1 - tiny)) by (apply Rmult_le_pos; lra).
  destruct (near_plus c q Fc Fq) as [(_ & F & E)|[[A E]|[A E]]].
  - right. split; auto. rewrite E. lra.
  - left. exact E.
  - pose proof top_pos. lra.
Qed.
Lemma last_cons : forall {A} (cs : list A) d c, last (d :: cs) c = last cs d.
Proof. intros A. induction cs as [|e cs IH]; intros d c; [reflexivity|]. change (last (d :: e :: cs) c) with (last (e :: cs) c). rewrite !IH. reflexivity. Qed.
(** The last cumulative share: it falls short of the exact one by a factor of at most (1 - 2^-53)^(n+1). *)
Lemma shares_low : forall bs, Forall weight_bin bs -> forall (t c : bin) x, is_finite t = true -> tiny <= B2R t <= IZR (2 ^ 53) -> 0 <= x -> above x c ->
  exists cs : list bin, cumul (B2SF t) (B2SF c) (map B2SF bs) = inr (map B2SF cs) /\ above ((x + total bs / B2R t * (1 - tiny)) * (1 - tiny) ^ length bs) (last cs c).
Proof.
  induction 1 as [|b bs Wb Fw IH]; intros t c x Ft Ht Hx Ac; cbn [map cumul length total fold_right pow].
  - exists []. split; [reflexivity|]. cbn [last]. apply above_weak with (2 := Ac). unfold Rdiv. lra.
  - fold (total bs). pose proof tiny_pos as TP. pose proof tiny_1 as T1. pose proof (total_nonneg bs Fw) as TN. destruct (div_low b t Wb Ft Ht) as [Dq Qp].
    assert (Nz : @neqb Fops (B2SF t) nzero = false) by (change (@nzero Fops) with (S754_zero false); apply (above_positive tiny); [apply tiny_pos|right; split; [auto|lra]]).
    unfold py_div. rewrite Nz. change (@ndiv_raw Fops (B2SF b) (B2SF t)) with (SFdiv fprec femax (B2SF b) (B2SF t)). rewrite div_same.
    change (@nadd Fops (B2SF c) (B2SF (Bdiv mode_NE b t))) with (SFadd fprec femax (B2SF c) (B2SF (Bdiv mode_NE b t))). rewrite add_same.
    assert (Y : bpow radix2 (-1022) <= B2R b / B2R t * (1 - tiny)).
    { apply Rle_trans with (tiny * tiny * / 2); [|apply Rmult_le_compat; nra]. unfold tiny. change (/ 2) with (bpow radix2 (-1)). rewrite <- !bpow_plus. apply bpow_le. lia. }
    pose proof (plus_low c _ x _ Hx Y Ac Dq) as A1. set (x1 := (x + B2R b / B2R t * (1 - tiny)) * (1 - tiny)) in *.
    assert (X1 : 0 <= x1) by (apply Rmult_le_pos; [pose proof (bpow_gt_0 radix2 (-1022)); lra|lra]).
    destruct (IH t _ x1 Ft Ht X1 A1) as (cs & -> & Lc). exists (Bplus mode_NE c (Bdiv mode_NE b t) :: cs). split; [reflexivity|].
    rewrite last_cons.
    apply above_weak with (2 := Lc). rewrite <- Rmult_assoc. apply Rmult_le_compat_r; [apply pow_le; lra|]. unfold x1. unfold Rdiv.
    assert (0 <= total bs * / B2R t) by (apply Rmult_le_pos; [auto|left; apply Rinv_0_lt_compat; lra]). set (w := total bs * / B2R t) in *. replace ((B2R b + total bs) * / B2R t) with (B2R b * / B2R t + w) by (unfold w; ring).
    assert (0 <= w * (1 - tiny)) by (apply Rmult_le_pos; lra). assert (0 <= w * (1 - tiny) * tiny) by (apply Rmult_le_pos; lra). lra.
Qed.
Lemma bernoulli : forall n, 1 - INR n * tiny <= (1 - tiny) ^ n.
Proof.
  pose proof tiny_pos as TP. pose proof tiny_1 as T1. induction n as [|n IH]; [cbn; lra|]. rewrite S_INR. cbn [pow]. pose proof (pos_INR n).
  apply Rle_trans with ((1 - tiny) * (1 - INR n * tiny)); [nra|]. apply Rmult_le_compat_l; lra.
Qed.
Lemma last_share : forall bs, bs <> [] -> Forall weight_bin bs -> exists cs : list bin, selection_scores (map B2SF bs) = inr (map B2SF (B754_zero false :: cs)) /\
  above (1 - (2 * INR (length bs) + 1) * tiny) (last (B754_zero false :: cs) (B754_zero false)).
Proof.
  intros bs Ne Fw. pose proof tiny_pos as TP. pose proof tiny_1 as T1. unfold selection_scores, nsum. change (@nzero Fops) with (B2SF (B754_zero false : bin)).
  destruct (sum_up bs Fw (B754_zero false) eq_refl) as (t & -> & Ft & Ht & Ut & Lt); [cbn [B2R]; split; [lra|apply IZR_le; lia]|]. cbn [B2R] in Ht, Ut. rewrite Rplus_0_l in Ut.
  specialize (Lt Ne).
  destruct (shares_low bs Fw t (B754_zero false) 0 Ft (conj Lt (proj2 Ht)) (Rle_refl 0)) as (cs & -> & A); [right; split; [reflexivity|cbn; lra]|].
  exists cs. split; [reflexivity|]. rewrite Rplus_0_l in A. replace (last (B754_zero false :: cs) (B754_zero false : bin)) with (last cs (B754_zero false : bin)) by (destruct cs; reflexivity).
  apply above_weak with (2 := A). set (n := length bs) in *.
  assert (B : 1 - INR (n + n + 1) * tiny <= (1 - tiny) ^ (n + n + 1)) by apply bernoulli. rewrite !plus_INR in B. change (INR 1) with 1 in B.
  replace (1 - (2 * INR n + 1) * tiny) with (1 - (INR n + INR n + 1) * tiny) by ring. apply Rle_trans with (1 := B).
  rewrite !pow_add, pow_1. rewrite Rmult_assoc, (Rmult_comm (total bs / B2R t * (1 - tiny))). apply Rmult_le_compat_l; [apply pow_le; lra|]. apply Rmult_le_compat_r; [lra|].
  assert (Q1 : (1 - tiny) ^ n * (1 + tiny) ^ n <= 1). { rewrite <- Rpow_mult_distr. apply Rle_trans with (1 ^ n); [apply pow_incr; nra|rewrite pow1; lra]. }
  assert (P1 : 0 < (1 - tiny) ^ n) by (apply pow_lt; lra). assert (P2 : 0 < (1 + tiny) ^ n) by (apply pow_lt; lra). pose proof (total_nonneg bs Fw) as TN.
  apply Rmult_le_reg_r with (B2R t); [lra|]. replace (total bs / B2R t * B2R t) with (total bs) by (field; lra).
  apply Rle_trans with ((1 - tiny) ^ n * (total bs * (1 + tiny) ^ n)); [apply Rmult_le_compat_l; lra|]. nra.
Qed.
Open Scope Z_scope.
Lemma weights_bins : forall ws, Forall share_weight ws -> exists bs, ws = map B2SF bs /\ Forall weight_bin bs.
Proof. induction 1 as [|w ws H F (bs & -> & Fb)]; [exists []; auto|]. apply share_bin in H. destruct H as (b & -> & Hb). exists (b :: bs). auto. Qed.
Lemma weights_shares : forall ws, ws <> [] -> Forall share_weight ws -> exists scores, selection_scores ws = inr scores.
Proof.
  intros ws Ne Fw. destruct (weights_bins ws Fw) as (bs & -> & Fb). destruct (last_share bs) as (cs & E & _); auto; [intros ->; apply Ne; reflexivity|]. eauto.
Qed.
(** A draw is exact: k / 2^53. *)
Lemma draw_value : forall k, 0 <= k < 2 ^ 53 -> exists b : bin, nrand k = B2SF b /\ is_finite b = true /\ B2R b = (IZR k * tiny)%R.
Proof.
  intros k Hk. exists (binary_normalize fprec femax prec_pos prec_emax mode_NE k (-53) false). split; [apply normalize_same|].
  pose proof (binary_normalize_correct fprec femax prec_pos prec_emax mode_NE k (-53) false) as H. cbv zeta in H. change (round_mode mode_NE) with ZnearestE in H.
  assert (V : F2R (Float radix2 k (-53)) = (IZR k * tiny)%R) by reflexivity. rewrite V in H.
  assert (X : rnd (IZR k * tiny) = (IZR k * tiny)%R).
  { apply round_generic; [apply valid_rnd_N|]. apply generic_format_FLT. exists (Float radix2 k (-53)); [symmetry; exact V| |]; cbn [Fnum Fexp]; [change (radix2 ^ fprec) with (2 ^ 53); lia|]. unfold SpecFloat.emin. cbv. discriminate. }
  rewrite X in H. rewrite Rlt_bool_true in H; [tauto|]. rewrite Rabs_pos_eq by (apply Rmult_le_pos; [apply IZR_le; lia|pose proof tiny_pos; lra]).
  apply Rlt_trans with (2 := big_top). pose proof tiny_pos. pose proof tiny_1. assert (0 <= IZR k < IZR (2 ^ 53))%R by (split; [apply IZR_le|apply IZR_lt]; lia). nra.
Qed.

(** C89, the roulette: of the 2^53 draws, all but the 2n + 1 largest select one of the n
    individuals.  The others may select the index n, one too many (C89_ffga_refuted). *)
Theorem C89_roulette : forall ws scores k, ws <> [] -> Forall share_weight ws -> selection_scores ws = inr scores ->
  0 <= k < 2 ^ 53 - (2 * Z.of_nat (length ws) + 1) -> exists i, index_for scores (nrand k) = inr (Z.of_nat i) /\ (i < length ws)%nat.
Proof.
  intros ws scores k Ne Fw Es Hk. destruct (@index_range Fops ws scores (nrand k) Es) as (i & Ei & Ri & Rn & R0). destruct (draw_value k) as (r & Er & Fr & Vr); [lia|].
  assert (I0 : i <> -1).
  { intros C. specialize (R0 C). rewrite Er in R0. change (Bleb (B754_zero false) r = false) in R0. rewrite Bleb_correct in R0 by auto. revert R0. case Rle_bool_spec; [discriminate|]. intros L _.
    cbn [B2R] in L. rewrite Vr in L. assert (0 <= IZR k)%R by (apply IZR_le; lia). pose proof tiny_pos. nra. }
  assert (In : i <> Z.of_nat (length ws)).
  { intros C. specialize (Rn C). destruct (weights_bins ws Fw) as (bs & -> & Fb). rewrite map_length in *. destruct (last_share bs) as (cs & E & A); auto; [intros ->; apply Ne; reflexivity|].
    rewrite Es in E. injection E as ->. change (@nleb Fops (@last spec_float (map B2SF ((B754_zero false : bin) :: cs)) (B2SF (B754_zero false : bin))) (nrand k) = true) in Rn.
    assert (Lm : forall (l : list bin) d, last (map B2SF l) (B2SF d) = B2SF (last l d)) by (induction l as [|a [|b l] IH]; intros d; auto; exact (IH d)).
    rewrite Lm, Er in Rn. set (z := last _ _) in *. change (Bleb z r = true) in Rn. destruct A as [->|[Fz Lz]]; [destruct r as [| | |[] ? ? ?]; discriminate|].
    rewrite Bleb_correct in Rn by auto. revert Rn. case Rle_bool_spec; [|discriminate]. intros L _. rewrite Vr in L.
    assert (K : (IZR k < IZR (2 ^ 53) - (2 * INR (length bs) + 1))%R). { rewrite INR_IZR_INZ, <- mult_IZR, <- plus_IZR, <- minus_IZR. apply IZR_lt. lia. }
    pose proof big_tiny as BT. pose proof tiny_pos. pose proof (Rle_trans _ _ _ Lz L) as LL. apply (Rmult_lt_compat_r tiny) in K; [|assumption]. lra. }
  exists (Z.to_nat i). rewrite Z2Nat.id by lia. split; [exact Ei|change (@num Fops) with spec_float in *; lia].
Qed.

(** *** Configurations *)
Definition double_shape (cf : config) (gens : list (@bgene Fops)) : Prop :=
  Forall fine gens /\ ((2 <= length gens)%nat \/ exists g n stp, gens = [g] /\ gene_params g = inr (n, stp) /\ 2 <= n) /\
  (named_level (cf_mutation_lvl cf) \/ number_level (cf_mutation_lvl cf)) /\
  Forall (fun x => exists xs, double_vector x xs /\ Forall2 between gens xs) (cf_input_population cf) /\
  Z.of_nat (length (cf_input_population cf)) <= cf_num_individ cf /\ cf_penalty cf = PNone.
(** The objective answers every point of the space by n doubles, none of them NaN; without input
    data (the ranking calls it so) always by F pt. *)
Definition double_task (cf : config) (F : list gv -> list spec_float) (n : nat) (space : list gv -> Prop) : Prop :=
  (forall pt, length (F pt) = n /\ Forall number (F pt)) /\
  (forall k pt v, answers (cf_objective cf) None k pt (inr (OTuple v)) -> v = F pt) /\
  (forall k pt, space pt -> answers (cf_objective cf) None k pt (inr (OTuple (F pt)))) /\
  (forall k pt, space pt -> exists l, answers (cf_objective cf) (given (cf_input_data cf)) k pt (inr (OTuple l)) /\ length l = n /\ Forall number l).
Lemma one_arg_answers_any : forall o k pt v, answers o None k pt (inr v) <-> one_arg o k pt = inr v.
Proof.
  intros o k pt v. split.
  - intros H. inversion H; subst; auto.
  - intros H. destruct o; cbn in H; try discriminate; rewrite <- H; constructor.
Qed.

Lemma double_multi : forall fuel cf gray gens fk sel ngm ng F n (G : sval -> Prop) (big : nat -> Prop) lo (E : exn -> Prop) s,
  double_shape cf gens -> double_task cf F n (double_box gens) -> is_multi_kind fk = true ->
  new_newgen ngm (cf_transfer cf) = inr ng -> plain_selection sel -> objectives_ok sel ->
  (forall f i l, fkind f = fk -> obj_value f = cf_obj_value cf -> obj_score i = SVL l -> length l = n -> Forall number l -> ranked (rank i) ->
     exists sc, get_fitness_score f i nzero = inr sc /\ G sc) ->
  (forall g gd s, fits g (cf_num_individ cf) (cf_children_percent cf) gd ->
     (forall r, In r (members (population gd)) -> (r < next s)%nat /\ G (score (heap s r))) ->
     big (length (members (population gd))) -> only E (selection_execute fuel sel gd) s) ->
  (forall g gd k, fits g (cf_num_individ cf) (cf_children_percent cf) gd -> num_pairs sel gd k -> (lo <= k)%nat) ->
  (forall g gd s, fits g (cf_num_individ cf) (cf_children_percent cf) gd ->
     (forall r, In r (members (population gd)) -> G (score (heap s r)) /\ ranked (rank (heap s r)) /\
        Forall (gene_ok (ok := number)) (genotype (heap s r)) /\ exists ph, phenotype (heap s r) = Some (Some ph)) ->
     big (length (members (population gd))) -> (lo <= length (children gd))%nat -> safe (newgen_execute ng gd) s) ->
  (forall k, big k -> (0 < k)%nat) ->
  (forall g c gd s c' gd' s' kids els h1 h2 rc cs front, c_newgen c = ng -> fits g (cf_num_individ cf) (cf_children_percent cf) gd ->
     big (length (members (population gd))) -> (lo <= length kids)%nat ->
     c_selection c = sel -> MStep F c gd s c' gd' s' kids els h1 h2 rc cs front -> big (length (members (population gd')))) ->
  (forall k, Z.of_nat k = cf_num_individ cf -> big k) -> 0 <= cf_num_individ cf ->
  only E (ga_optimize fuel cf true (GenBinary gray gens bparams0) fk sel OnePoint new_bin ngm) s.
Proof.
  intros fuel cf gray gens fk sel ngm ng F n G big lo E s (H & H2 & Hl & Hin & Hnum & Pn) (Fl & Fs & Fc & Ft) Mk Ng Plain Ho Hsc Hsel Hpairs Hng Hbig1 Hbig Hstart Hn0.
  destruct (fine_prepared gray gens H) as (bp & P & Pg & Hn & Ln).
  destruct (@prepared_usable Fops gray gens bparams0 _ ltac:(vm_compute; reflexivity) Pg) as (bp' & Eb & Us & ps & Eps & Fps). assert (Eq : bp' = bp) by congruence. rewrite Eq in *. clear Eb Eq bp'.
  assert (Two : 2 <= zsum (num_bits bp)).
  { destruct H2 as [H2|(g & n0 & stp & -> & Gp & Hg)].
    - assert (K : Z.of_nat (length (num_bits bp)) <= zsum (num_bits bp)) by (clear - Hn; induction Hn; cbn [length zsum]; lia). lia.
    - rewrite Eps. inversion Fps as [|? p ? ? Gp' F0]; subst. inversion F0; subst. rewrite Gp in Gp'. injection Gp' as <-. cbn. lia. }
  assert (M : new_bin (cf_mutation_lvl cf) = inr (MutBin (cf_mutation_lvl cf))).
  { unfold new_bin. destruct (cf_mutation_lvl cf) as [st|x|]; destruct Hl as [Hl|Hl]; try contradiction.
    - destruct Hl as [-> |[-> | ->]]; cbn; eauto.
    - rewrite (level_in_01 x) by apply Hl. eauto. }
  assert (Dp : forall pt, domain_point (GenBinary gray gens bp) pt -> double_box gens pt) by (intros pt Hpt; apply grid_box; auto; eapply double_points; eauto).
  set (f := mkFit fk (cf_objective cf) (cf_obj_value cf) (cf_input_data cf) None (match cf_conditions cf with None => ["optimize"] | Some l => l end) false []).
  apply (@multi_only_any Fops number Forder_number counting_number ltac:(vm_compute; reflexivity) fuel cf gray gens bp fk sel ngm ng f (cf_conditions cf) F n G big lo E (Z.max 1 (cf_num_generations cf))); auto; try lia.
  - eauto.
  - eapply Forall_impl; [|exact Hin]. intros x (xs & Vx & Bx). destruct (C06_double gray gens bp xs H P (vector_double _ _ Vx)) as [Ok _]. destruct (Ok Bx) as (bs & Eb & Lb).
    exists (bits_to_geno bs). split; [|exists bs; auto]. cbn [input_genotype]. rewrite (vector_gvs_num _ _ Vx), Eb. reflexivity.
  - cbn [mut_spec_ok]. destruct (cf_mutation_lvl cf) as [st|x|]; [|exact I|destruct Hl as [[]|[]]].
    assert (El : last (idx_bits bp) 0 = zsum (num_bits bp)). { rewrite Eps, idx_bits_total, zsum_fold. reflexivity. }
    rewrite El. apply nofZ_positive. lia.
  - intros x (bs & -> & Lb). destruct (C05_double gray gens bp bs) as (ys & Ey & _); auto.
    + eapply Forall_impl; [|exact H]. intros g Hg. apply Hg.
    + eapply Forall_impl; [|exact Hn]. cbn. intros; lia.
    + unfold decode_genotype. change (map GBit bs) with (bits_to_geno bs). rewrite geno_bits_id, Ey. eauto.
  - rewrite Pn. reflexivity.
  - intros k pt v Hv. apply one_arg_answers_any in Hv. eapply Fs; eauto.
  - intros k pt Hpt. apply one_arg_answers_any. apply Fc. auto.
  - intros k pt gen best i Hpt Hgen Hr. destruct (Ft k pt (Dp pt Hpt)) as (l & A & Ll & Nl). apply (called_answers f) in A.
    destruct (Hsc f (set_obj_score_f (SVL l) i) l eq_refl eq_refl eq_refl Ll Nl Hr) as (sc & Es & Gs). exists (OTuple l), (set_score sc (set_obj_score_f (SVL l) i)). split; [exact A|].
    split; [|exact Gs]. unfold assess, check_input. cbn [fkind f]. rewrite Mk. cbn [is_conditional f]. rewrite Es. reflexivity.
  - intros gd s0 Fi A B. eapply Hsel; eauto.
  - intros gd k Fi A. eapply Hpairs; eauto.
  - intros gd s0 Fi A B C. eapply Hng; eauto.
  - intros c gd s0 c' gd' s' kids els h1 h2 rc cs front E1 Fi A B C D. eapply Hbig; eauto.
Qed.

(** *** VEGA *)
Definition vega_rounds (cf : config) (n : nat) : nat := match cf_conditions cf with Some cl => length (filter (fun a => String.eqb a "optimize") cl) | None => n end.
Definition vega_zero_call (cf : config) (gens : list (@bgene Fops)) : Prop :=
  match cf_conditions cf with
  | Some _ => True
  | None => forall k, exists v, answers (cf_objective cf) None k (map (fun _ => GInt 0) gens) (inr (OTuple v))
  end.
Definition vega_target (cf : config) (n : nat) : Prop :=
  match cf_obj_value cf with TNone => True | T1 _ => False | TL ts => (n <= length ts)%nat /\ Forall finite ts end.
Lemma hyper_number : forall t x, finite t -> number x -> exists y, hyper t x nzero = inr y /\ number y.
Proof. intros t x Ft Nx. destruct (score_number (hyp t) x Ft I Nx) as (y & E & N). eauto. Qed.
Lemma neg_number : forall x, number x -> number (neg_score x nzero).
Proof.
  intros x Nx. destruct (score_number (mkFit Hyperbola (Obj1 (fun _ _ => inl UserException)) TNone None None [] false []) x I I Nx) as (y & E & N). injection E as <-. exact N.
Qed.
Lemma hypers_numbers : forall xs ts, Forall finite ts -> Forall number xs -> (length xs <= length ts)%nat ->
  exists ys, hypers ts xs nzero = inr ys /\ length ys = length xs /\ Forall number ys.
Proof.
  induction xs as [|x xs IH]; intros ts Ft Fx L; [exists []; split; [destruct ts|split]; auto|]. destruct ts as [|t ts]; cbn [length] in L; [lia|]. cbn [hypers].
  inversion Ft; inversion Fx; subst. destruct (hyper_number t x) as (y & -> & Ny); auto. destruct (IH ts) as (ys & -> & Ly & Fy); auto; [lia|]. exists (y :: ys). cbn [length]. auto.
Qed.

(** C89, VEGA: a valid configuration never raises.  int(children_percent * num_individ / rounds) is
    computed in doubles. *)
Theorem C89_vega_safe : forall fuel cf gray gens F n s, double_shape cf gens -> double_task cf F n (double_box gens) ->
  vega_target cf n -> vega_zero_call cf gens -> cf_transfer cf = "best" \/ cf_transfer cf = "random" ->
  4 <= cf_num_individ cf -> (1 <= vega_rounds cf n <= n)%nat ->
  (exists x, f_trunc (SFdiv fprec femax (SFmul fprec femax (cf_children_percent cf) (nofZ (cf_num_individ cf))) (nofZ (Z.of_nat (vega_rounds cf n)))) = Some x /\ 1 <= x) ->
  forall e, vega fuel cf gray gens s <> Err e.
Proof.
  intros fuel cf gray gens F n s Sh Ta Ht Zc Tr Hn Hq (ch & Hch & Hc). change (safe (vega fuel cf gray gens) s). unfold vega.
  set (q := vega_rounds cf n) in *. set (num0 := cf_num_individ cf) in *.
  apply safe_bind.
  { unfold vega_zero_call in Zc. destruct (cf_conditions cf); [apply safe_ret|]. destruct (Zc (length (log s))) as (v & A). apply one_arg_answers_any in A.
    apply safe_bind; [|intros; apply safe_ret]. intros e. unfold call_list, bind. rewrite (call1_value _ _ _ _ A). discriminate. }
  intros m s1 R1. assert (Em : m = Z.of_nat q).
  { unfold q, vega_rounds. destruct (cf_conditions cf) as [cl|] eqn:Ec; [apply ret_ok in R1; destruct R1 as [-> _]; reflexivity|].
    unfold vega_zero_call in Zc. rewrite Ec in Zc. destruct (Zc (length (log s))) as (v & A). pose proof A as B. apply one_arg_answers_any in A.
    unfold call_list, bind in R1. rewrite (call1_value _ _ _ _ A) in R1. cbn [ret] in R1. inversion R1; subst m.
    destruct Ta as (Fl & Fs & _). rewrite (Fs _ _ _ B), (proj1 (Fl _)). reflexivity. }
  subst m. clear R1.
  assert (Ng : exists ng, new_newgen false (cf_transfer cf) = inr ng /\ ng_multi ng = false) by (destruct Tr as [-> | ->]; cbn; eauto).
  destruct Ng as (ng & Ng & Ngm).
  assert (Pw : forall gd, children_percent gd = cf_children_percent cf -> num_individ (population gd) = num0 -> pairs_wanted (Some (Z.of_nat q)) gd ch).
  { intros gd Ec En. cbn [pairs_wanted]. eexists. split; [|exact Hch]. rewrite Ec, En. unfold py_div. rewrite nofZ_positive by lia. reflexivity. }
  apply only_safe.
  apply (double_multi fuel cf gray gens VegaHyperbola (SelVegaTournament (Z.of_nat q) 3) false ng F n (fun v => exists l, v = SVL l /\ length l = n /\ Forall number l) (fun k => num0 <= Z.of_nat k) 1%nat); auto; try exact I.
  - intros f i l Fk Ov Eo Ll Nl _. unfold get_fitness_score. rewrite Fk, Ov, Eo. unfold vega_target in Ht. destruct (cf_obj_value cf) as [|t|ts]; [|contradiction|].
    + eexists. split; [reflexivity|]. eexists. split; [reflexivity|]. rewrite map_length. split; auto. apply Forall_forall. intros y Hy. apply in_map_iff in Hy. destruct Hy as (x & <- & Hx).
      apply neg_number. rewrite Forall_forall in Nl. auto.
    + destruct Ht as [Lt Ft]. destruct (hypers_numbers l ts Ft Nl) as (ys & -> & Ly & Ny); [change (@num Fops) with spec_float in *; lia|]. eexists. split; [reflexivity|]. exists ys. split; auto. split; [change (@num Fops) with spec_float in *; lia|auto].
  - intros g gd s0 (_ & En & Ecp) Hm Hb. apply safe_only. apply (@vega_selection_any Fops number Forder_number fuel _ _ gd s0 n); try lia; auto. eexists. apply Pw; auto.
  - intros g gd k (_ & En & Ecp) (x & Hx & ->). rewrite Nat2Z.id. specialize (Hx ltac:(lia)). rewrite (pairs_wanted_fun _ _ _ _ Hx (Pw gd Ecp En)). nia.
  - intros g gd s0 (_ & En & Ecp) Hm Hb Hk. apply (@newgen_single_safe_sorted Fops number); auto.
    + apply Forder_number.
    + intros C. rewrite C in Hb. cbn in Hb. lia.
    + apply sort_safe_lists. intros r Hr. destruct (Hm r Hr) as ((l & C & _) & _). exists l. unfold key_of. rewrite C. reflexivity.
    + intros r Hr. apply Hm; auto.
    + rewrite En. lia.
  - intros k Hk. lia.
  - intros g c gd s0 c' gd' s' kids els h1 h2 rc cs front Ec (_ & En & _) Hb Hk _ St.
    destruct (ms_taken_single _ _ _ _ _ _ _ _ _ _ _ _ _ _ St) as (l & s2 & P & _ & Tk); [rewrite Ec; auto|].
    pose proof (ms_perm _ _ _ _ _ _ _ _ _ _ _ _ _ _ St) as P2. apply Permutation_length in P, P2. rewrite app_length in P2. apply taken_length in Tk; [|lia].
    unfold num0 in *. rewrite En in Tk. rewrite P2, Tk. clear Tk. destruct (0 <? _) eqn:E0; [apply Z.ltb_lt in E0|apply Z.ltb_ge in E0]; lia.
  - intros k Hk. lia.
  - lia.
Qed.

(** *** FFGA *)
(** C89, FFGA: a valid configuration raises nothing but IndexError. *)
Definition ffga_sizes (cf : config) : Prop :=
  (cf_transfer cf = "best" /\ 1 <= cf_num_individ cf \/ cf_transfer cf = "random" /\ 11 <= cf_num_individ cf) /\
  exists x, f_trunc (SFmul fprec femax (cf_children_percent cf) (nofZ (cf_num_individ cf))) = Some x /\ 1 <= x.
Theorem C89_ffga_only : forall fuel cf gray gens F n s e, double_shape cf gens -> double_task cf F n (double_box gens) -> ffga_sizes cf ->
  ffga fuel cf gray gens s = Err e -> e = IndexError.
Proof.
  intros fuel cf gray gens F n s e Sh Ta [Tr (ch & Hch & Hc)]. revert e. change (only (fun e => e = IndexError) (ffga fuel cf gray gens) s). unfold ffga. set (num0 := cf_num_individ cf) in *.
  assert (Ng : exists ng, new_newgen true (cf_transfer cf) = inr ng /\ ng_multi ng = true /\ 1 <= num0 /\ (ng_transfer ng = TRandom -> 11 <= num0)).
  { destruct Tr as [[-> Hn]|[-> Hn]]; cbn; eexists; (split; [reflexivity|]); (split; [reflexivity|]); cbn; (split; [lia|]); [discriminate|auto]. }
  destruct Ng as (ng & Ng & Ngm & Hn & Hr).
  assert (Pw : forall gd, children_percent gd = cf_children_percent cf -> num_individ (population gd) = num0 -> pairs_wanted None gd ch) by (intros gd Ec En; cbn [pairs_wanted]; rewrite Ec, En; exact Hch).
  apply (double_multi fuel cf gray gens Ffga SelBalanced true ng F n (fun v => exists x, v = SV1 x /\ share_weight x)
           (fun k => (1 <= k)%nat /\ (ng_transfer ng = TRandom -> (11 <= k)%nat)) 1%nat); auto; try exact I.
  - intros f i l Fk _ _ _ _ (k & Ek). unfold get_fitness_score. rewrite Fk, Ek. destruct (ffga_score k) as (y & -> & Sy). eauto 10.
  - intros g gd s0 (_ & En & Ecp) Hm (Hb & _). apply (@balanced_selection_any Fops fuel gd s0 share_weight); [exact Hm| |eexists; apply Pw; auto].
    intros ws L Fw. apply weights_shares; auto. intros ->. cbn in L. lia.
  - intros g gd k (_ & En & Ecp) (x & Hx & ->). rewrite (pairs_wanted_fun _ _ _ _ Hx (Pw gd Ecp En)). lia.
  - intros g gd s0 (_ & En & Ecp) Hm (_ & Hb) Hk. apply newgen_multi_any; auto. intros r Ir. destruct (Hm r Ir) as (_ & A & _ & B). auto.
  - intros k [Hk _]. lia.
  - intros g c gd s0 c' gd' s' kids els h1 h2 rc cs front Ec (_ & En & _) (Hb & Hb2) Hk Es St.
    pose proof (ms_taken _ _ _ _ _ _ _ _ _ _ _ _ _ _ St) as Tk. rewrite Ec, Es in Tk. specialize (Tk Ngm I). unfold multi_taken in Tk.
    pose proof (ms_perm _ _ _ _ _ _ _ _ _ _ _ _ _ _ St) as P2. apply Permutation_length in P2. rewrite app_length in P2. rewrite P2. split; [lia|].
    intros Er. rewrite Er in Tk. destruct Tk as (l0 & b & e & _ & Pk & ->). apply picks_length in Pk. rewrite app_length, Pk. cbn. lia.
  - intros k Hk. split; [lia|]. intros C. specialize (Hr C). lia.
  - lia.
Qed.

(** C89, the selection: with draws below the 2n + 1 largest, proportional selection raises nothing. *)
Definition low_draws (n : nat) (s : st) : Prop := forall j, tape s j mod 2 ^ 53 < 2 ^ 53 - (2 * Z.of_nat n + 1).
Theorem C89_selection : forall fuel (gd : gadata) ws scores s, members (population gd) <> [] -> length ws = length (members (population gd)) ->
  Forall share_weight ws -> selection_scores ws = inr scores -> (exists x, pairs_wanted None gd x) -> low_draws (length ws) s ->
  forall e, balanced_selection fuel None scores gd s <> Err e.
Proof.
  intros fuel gd ws scores s Ne L Fw Es (x & Hx) Low. set (l := members (population gd)) in *. set (n := length ws) in *.
  assert (Nw : ws <> []) by (intros E; apply Ne; unfold n in L; rewrite E in L; destruct l; [auto|discriminate]).
  assert (Gi : forall s', low_draws n s' -> exists i s'', get_index scores s' = Ok (Z.of_nat i) s'' /\ (i < n)%nat /\ low_draws n s'').
  { intros s' Lw. unfold get_index, random_, bind, draw, ret. pose proof (Lw 0%nat) as L0. assert (0 <= tape s' 0%nat mod 2 ^ 53 < 2 ^ 53) by (apply Z.mod_pos_bound; lia).
    destruct (C89_roulette ws scores (tape s' 0%nat mod 2 ^ 53) Nw Fw Es) as (i & Ei & Hi); [fold n; lia|]. exists i, (set_tape (fun j => tape s' (S j)) s').
    unfold lift. rewrite Ei. split; [reflexivity|]. split; auto. intros j. apply (Lw (S j)). }
  assert (Si : forall f first s', low_draws n s' -> second_index f scores first s' = NoFuel \/
    exists i s'', second_index f scores first s' = Ok (Z.of_nat i) s'' /\ (i < n)%nat /\ low_draws n s'').
  { induction f as [|f IH]; intros first s' Lw; cbn [second_index]; [left; reflexivity|]. unfold bind. destruct (Gi s' Lw) as (i & s'' & -> & Hi & Lw'). destruct (_ =? first); [apply IH; auto|].
    right. exists i, s''. auto. }
  assert (Pa : forall i s', (i < n)%nat -> exists d, pop_at l (Z.of_nat i) s' = Ok d s').
  { intros i s' Hi. unfold pop_at, bind. rewrite ListLemmas.py_nth_in by lia. rewrite Nat2Z.id. destruct (nth_error l i) as [r|] eqn:En; [eexists; reflexivity|]. apply nth_error_None in En. unfold n in Hi. change (@num Fops) with spec_float in *. lia. }
  assert (Pr : forall s', low_draws n s' -> balanced_pair fuel scores l s' = NoFuel \/ exists c s'', balanced_pair fuel scores l s' = Ok c s'' /\ low_draws n s'').
  { intros s' Lw. unfold balanced_pair, bind. destruct (Gi s' Lw) as (i1 & s1 & -> & H1 & L1). destruct (Si fuel (Z.of_nat i1) s1 L1) as [->|(i2 & s2 & -> & H2 & L2)]; [left; reflexivity|]. right.
    destruct (Pa i1 s2 H1) as (d1 & ->). cbn [alloc]. destruct (Pa i2 (mkSt (upd (heap s2) (next s2) d1) (S (next s2)) (tape s2) (ent s2) (rnd_seed s2) (prng s2) (log s2)) H2) as (d2 & ->). cbn [alloc ret].
    eexists. eexists. split; [reflexivity|]. exact L2. }
  change (safe (balanced_selection fuel None scores gd) s). unfold balanced_selection. apply safe_bind.
  { unfold get_total_num_parents. apply safe_bind; [apply safe_ret|]. intros a s4 R. apply ret_ok in R. destruct R as [-> ->]. eapply safe_lift_opt. exact Hx. }
  intros m s4 R4. apply total_ok in R4. destruct R4 as [-> _]. apply safe_bind; [|intros; apply safe_ret]. fold l.
  apply safe_mrepeat with (P := low_draws n); auto.
  - intros s1 Lw e. destruct (Pr s1 Lw) as [->|(c & s2 & -> & _)]; discriminate.
  - intros s1 a s2 Lw E. destruct (Pr s1 Lw) as [C|(c & s3 & C & L3)]; rewrite E in C; [discriminate|]. injection C as -> ->. exact L3.
Qed.

(** *** The points *)
Lemma double_domain : forall fuel cf gray gens fk sel ngm F m s gd' cl s', Forall fine gens ->
  is_multi_kind fk = true -> objectives_ok sel -> steady (cf_objective cf) F -> sized number F m -> Forall double_input (cf_input_population cf) ->
  ga_optimize fuel cf true (GenBinary gray gens bparams0) fk sel OnePoint new_bin ngm s = Ok (gd', cl) s' ->
  exists calls, log s' = calls ++ log s /\ Forall (fun x => double_grid gens (fst x) /\ double_box gens (fst x)) calls.
Proof.
  intros fuel cf gray gens fk sel ngm F m s gd' cl s' Lg Mk Ho Sy Sz Hin H. destruct (fine_prepared gray gens Lg) as (bp & P & Pg & _). unfold ga_optimize in H.
  bd H u s1 Ra. destruct u. bd H p sx R2. apply lift_ok in R2. destruct R2 as [Sp ->].
  bd H fc sy R3. apply lift_ok in R3. destruct R3 as [Nf ->]. bd H mt sz R4. apply lift_ok in R4. destruct R4 as [Nm ->].
  bd H ng sw R5. apply lift_ok in R5. destruct R5 as [Nn ->]. bd H p' s2 R6. cbv zeta in H. bd H r s3 R7. destruct r as [c' gd1].
  bd H u1 s4 R8. apply ret_ok in H. destruct H as [E ->]. inversion E; subst gd1 cl. clear E. destruct fc as [f cl].
  cbn [fst snd] in *.
  assert (s4 = s3).
  { destruct (cf_is_print cf); [|apply ret_ok in R8; destruct R8; auto]. unfold print_best_solution in R8.
    destruct (best_solution gd') as [|i k|l [k|]]; try discriminate; [apply ret_ok in R8; destruct R8; auto|].
    clear - R8. induction l as [|x l IH]; cbn [miter] in R8; [apply ret_ok in R8; destruct R8; auto|]. destruct (phenotype x); [|discriminate].
    bd R8 u s1 Rx. apply ret_ok in Rx. destruct Rx as [_ ->]. auto. }
  subst s4. apply run_ends in R7. destruct R7 as (k & At).
  assert (A : fkind f = fk /\ obj_function f = cf_objective cf).
  { unfold new_fitness in Nf. destruct (cf_penalty cf); [inversion Nf; auto| |discriminate]. destruct (_ <=? 1); [inversion Nf; auto|].
    destruct (is_multi_kind fk); [|destruct (index_of "optimize" _)]; inversion Nf; auto. }
  destruct A as (A1 & A2). destruct (set_params_ok _ _ _ _ _ _ _ Sp R6) as (Pg' & _). assert (Eg : gspec_of p' = GenBinary gray gens bp) by congruence.
  assert (L : log s2 = log s).
  { pose proof Ra as Rb. apply extends_do_seed in Rb. destruct Rb as ((_ & L1 & _ & _) & _).
    pose proof R6 as R6'. apply fill_ok in R6'. destruct R6' as (g' & _ & K). cbv zeta in K. destruct K as (_ & _ & (_ & L2 & _ & _) & _). congruence. }
  assert (St : multi_started (new_gadata true (cf_num_generations cf) (cf_children_percent cf) (resolved_stop cf) p') s2).
  { unfold multi_started. repeat eexists; eauto. }
  edestruct (@C69_run Fops number Forder_number counting_number F m fuel) with (2 := St) (5 := At) as (_ & calls & El & Fc).
  - split; [cbn; rewrite A1; auto|]. split; [cbn; rewrite A2; auto|]. split; auto.
  - cbn [new_gadata population c_crossover c_mutation]. rewrite Eg. constructor; [discriminate|]. unfold new_bin in Nm.
    destruct (cf_mutation_lvl cf); repeat (destruct (_ || _) in Nm || destruct (out_of_01 _) in Nm); inversion Nm; exact Logic.I.
  - pose proof (fill_in (cf_num_individ cf) _ _ p s1 p' s2 (cf_num_generations cf) (cf_children_percent cf) (resolved_stop cf) ltac:(vm_compute; reflexivity) Sp R6) as X.
    cbn [new_gadata population]. apply X. intros x geno Ix E. rewrite Eg in *. rewrite Forall_forall in Hin. eapply double_inputs; eauto.
  - exists calls. split; [rewrite <- L; auto|]. eapply Forall_impl; [|exact Fc]. intros x Hx. cbn [new_gadata population] in Hx. rewrite Eg in Hx.
    apply (double_points gray gens bp Lg P) in Hx. split; auto. now apply grid_box.
Qed.
Definition double_values (cf : config) (F : list gv -> list spec_float) (n : nat) : Prop :=
  (forall pt, length (F pt) = n /\ Forall number (F pt)) /\ forall k pt v, answers (cf_objective cf) None k pt (inr (OTuple v)) -> v = F pt.
(** C89, FFGA: every call of the objective is on a grid point of the box, up to rounding. *)
Theorem C89_ffga_calls : forall fuel cf gray gens F n s gd' cl s', Forall fine gens -> double_values cf F n -> Forall double_input (cf_input_population cf) ->
  ffga fuel cf gray gens s = Ok (gd', cl) s' ->
  exists calls, log s' = calls ++ log s /\ Forall (fun x => double_grid gens (fst x) /\ double_box gens (fst x)) calls.
Proof.
  intros fuel cf gray gens F n s gd' cl s' Lg [Sz D] Hin H. unfold ffga in H.
  eapply double_domain; [exact Lg| | | |exact Sz|exact Hin|exact H]; [reflexivity|exact I|]. intros k pt v Hv. apply one_arg_answers_any in Hv. eapply D; eauto.
Qed.
(** C89, VEGA: so is every call but the first one, on a list of zeros. *)
Theorem C89_vega_calls : forall fuel cf gray gens F n s gd' cl s', Forall fine gens -> double_values cf F n -> Forall double_input (cf_input_population cf) ->
  vega fuel cf gray gens s = Ok (gd', cl) s' ->
  exists calls first, log s' = calls ++ first ++ log s /\ Forall (fun x => double_grid gens (fst x) /\ double_box gens (fst x)) calls /\
    match cf_conditions cf with
    | Some _ => first = []
    | None => first = [(map (fun _ => GInt 0) gens, OTuple (F (map (fun _ => GInt 0) gens)))]
    end.
Proof.
  intros fuel cf gray gens F n s gd' cl s' Lg [Sz D] Hin H. assert (Sy : steady (cf_objective cf) F) by (intros k pt v Hv; apply one_arg_answers_any in Hv; eapply D; eauto). unfold vega in H. bd H m s1 Rx.
  eapply double_domain in H; [|exact Lg| | |exact Sy|exact Sz|exact Hin]; [|reflexivity|exact I]. destruct H as (calls & El & Fc). exists calls.
  destruct (cf_conditions cf).
  - apply ret_ok in Rx. destruct Rx as [_ ->]. exists []. auto.
  - bd Rx v s2 R2. apply ret_ok in Rx. destruct Rx as [_ ->]. unfold call_list in R2. bd R2 w s3 R3. destruct w as [x|l]; [discriminate|]. apply ret_ok in R2. destruct R2 as [-> ->].
    set (zs := map (fun _ => GInt 0) gens) in *. exists [(zs, OTuple l)]. assert (K : log s3 = (zs, OTuple l) :: log s /\ l = F zs).
    { unfold call1 in R3. destruct (cf_objective cf) as [f|f|f f']; try discriminate; unfold call_logged in R3; destruct (f _ _) as [|v'] eqn:E; try discriminate; inversion R3; subst;
        (split; [reflexivity|]); apply (Sy (length (log s))); exact E. }
    destruct K as [K1 K2]. rewrite El, K1. split; auto. split; auto. rewrite <- K2. reflexivity.
Qed.

(** *** Examples *)
(** Two objectives, x and -x: no point dominates another one. *)
Definition sane (x : spec_float) : spec_float := if valid_binary fprec femax x && negb (is_nan_SF x) then x else S754_zero false.
Lemma sane_number : forall x, number (sane x).
Proof.
  intros x. unfold sane. destruct (valid_binary fprec femax x) eqn:V; cbn [andb]; [|split; [reflexivity|discriminate]].
  destruct x; cbn [is_nan_SF negb]; split; try exact V; try discriminate; try reflexivity.
Qed.
Definition opposite (genes : list (@gv Fops)) : list spec_float :=
  let x := match genes with GNum v :: _ => sane v | _ => S754_zero false end in [x; SFopp x].
Lemma opposite_numbers : forall pt, length (opposite pt) = 2%nat /\ Forall number (opposite pt).
Proof.
  intros pt. split; [reflexivity|]. unfold opposite. set (x := match pt with GNum v :: _ => sane v | _ => S754_zero false end).
  assert (Nx : number x). { unfold x. destruct pt as [|[]]; try (split; [reflexivity|discriminate]). apply sane_number. }
  constructor; auto. constructor; auto. destruct Nx as [D N]. destruct (double_bin x D) as (b & <-). split; [rewrite opp_same; apply bin_double|]. intros C. apply N. destruct b; try discriminate; reflexivity.
Qed.
Definition opposite_obj : objfun := Obj1 (fun _ genes => inr (OTuple (opposite genes : list (@num Fops)))).
Definition multi_cf (num : Z) (tg : obj_target) (tr : string) : config := mkCfg 3 num opposite_obj tg None PNone None (fq 6 10) None [[GNum (nofZ 0); GInt 3]] 2 (LStr "normal") tr true.
Lemma multi_shape_ok : forall num tg tr, 1 <= num -> double_shape (multi_cf num tg tr) two_genes.
Proof.
  intros num tg tr H. split; [apply C04_double_meets|]. split; [left; cbn; lia|]. split; [left; right; left; reflexivity|]. split; [|split; [cbn; lia|reflexivity]].
  constructor; [|constructor]. exists [nofZ 0; nofZ 3]. split.
  - constructor; [left; split; [reflexivity|vm_compute; reflexivity]|]. constructor; [right; exists 3; auto|constructor].
  - constructor; [is_between|constructor; [is_between|constructor]].
Qed.
Lemma multi_task_ok : forall num tg tr sp, double_task (multi_cf num tg tr) opposite 2 sp.
Proof.
  intros num tg tr sp. split; [exact opposite_numbers|]. split; [intros k pt v A; inversion A; subst; reflexivity|]. split; [intros k pt _; exact (answer_1 _ k pt)|].
  intros k pt _. exists (opposite pt). split; [exact (answer_1 _ k pt)|]. exact (opposite_numbers pt).
Qed.
Example C89_vega_example : forall fuel gray s e tr, tr = "best" \/ tr = "random" -> vega fuel (multi_cf 6 (TL [nofZ 0; fq 1 3]) tr) gray two_genes s <> Err e.
Proof.
  intros fuel gray s e tr Ht. apply (C89_vega_safe fuel _ gray two_genes opposite 2 s).
  - apply multi_shape_ok. lia.
  - apply multi_task_ok.
  - split; [cbn; lia|]. constructor; [split; vm_compute; reflexivity|]. constructor; [split; vm_compute; reflexivity|constructor].
  - intros k. eexists. exact (answer_1 _ k _).
  - exact Ht.
  - cbn. lia.
  - cbn. lia.
  - exists 1. split; [vm_cast_no_check (eq_refl (Some 1))|lia].
Qed.
Lemma ten_sizes : ffga_sizes (multi_cf 10 TNone "best").
Proof. split; [left; split; [reflexivity|cbn; lia]|]. exists 6. split; [vm_cast_no_check (eq_refl (Some 6))|lia]. Qed.
(** The hypotheses of C89_ffga_only hold, and the run raises IndexError: ten individuals of
    the same rank have shares of 0.1 each; their sum in doubles is 1 - 2^-53, and the largest
    draw, 1 - 2^-53, selects the eleventh individual. *)
Definition alternating (j : nat) : Z := if Nat.even j then 2 ^ 53 - 1 else 0.
Definition largest_draws : st := mkSt (fun _ => blank_individ) 0 alternating (fun _ => alternating) None (fun _ _ => 0) [].
Theorem C89_ffga_refuted : exists cf gens F n s, double_shape cf gens /\ double_task cf F n (double_box gens) /\ ffga_sizes cf /\ ffga 50 cf true gens s = Err IndexError.
Proof.
  exists (multi_cf 10 TNone "best"), two_genes, opposite, 2%nat, largest_draws. split; [apply multi_shape_ok; lia|]. split; [apply multi_task_ok|]. split; [apply ten_sizes|].
  vm_cast_no_check (@eq_refl (outcome (gadata * option (list string))) (Err IndexError)).
Qed.
Example C89_ffga_example : forall fuel gray s e, ffga fuel (multi_cf 10 TNone "best") gray two_genes s = Err e -> e = IndexError.
Proof. intros fuel gray s e. apply (C89_ffga_only fuel _ gray two_genes opposite 2); [apply multi_shape_ok; lia|apply multi_task_ok|apply ten_sizes]. Qed.
(** The roulette of ten equal scores: the last share, and the indices of the largest draws. *)
Definition halves (n : nat) : list spec_float := repeat (fq 1 2) n.
Lemma halves_ok : forall n, Forall share_weight (halves n).
Proof. intros n. apply Forall_forall. intros x Hx. apply repeat_spec in Hx. subst x. split; [split; vm_compute; reflexivity|]. split; vm_compute; discriminate. Qed.
Definition indices (ws : list spec_float) (ks : list Z) : option (list (exn + Z)) :=
  match @selection_scores Fops ws with inr sc => Some (map (fun k => index_for sc (nrand k)) ks) | inl _ => None end.
Example C89_roulette_case : indices (halves 10) [2 ^ 53 - 1; 2 ^ 53 - 2; 2 ^ 53 - 22; 0] = Some [inr 10; inr 9; inr 9; inr 0] /\
  indices (halves 8) [2 ^ 53 - 1] = Some [inr 7] /\ indices (fq 1 3 :: fq 1 3 :: halves 40) [2 ^ 53 - 1; 2 ^ 53 - 2; 2 ^ 53 - 3] = Some [inr 42; inr 42; inr 42].
Proof. repeat split; vm_compute; reflexivity. Qed.
Example C89_roulette_example : forall scores k, selection_scores (halves 10) = inr scores -> 0 <= k < 2 ^ 53 - 21 ->
  exists i, index_for scores (nrand k) = inr (Z.of_nat i) /\ (i < 10)%nat.
Proof. intros scores k E Hk. apply (C89_roulette (halves 10) scores k); [discriminate|apply halves_ok|exact E|exact Hk]. Qed.
(** Runs of VEGA and FFGA: generations, population, calls. *)
Definition obs (o : outcome (gadata * option (list string))) :=
  match o with Ok r s => inl (idx_generation (fst r), length (members (population (fst r))), length (log s)) | Err e => inr (Some e) | NoFuel => inr None end.
Definition spread (k j : nat) : Z := (Z.of_nat (17 * k + j) * 5871781006564002453 + 123456789) / 8.
Definition spread_world : st := mkSt (fun _ => blank_individ) 0 (spread 0) spread None (fun _ _ => 0) [].
Example C89_cases : (obs (vega 50 (multi_cf 6 (TL [nofZ 0; fq 1 3]) "best") true two_genes spread_world), obs (ffga 50 (multi_cf 10 TNone "best") true two_genes spread_world)) = (inl (3, 7%nat, 125%nat), inl (3, 22%nat, 814%nat)).
Proof. vm_compute. reflexivity. Qed.
Print Assumptions C89_roulette.
Print Assumptions C89_vega_safe.
Print Assumptions C89_ffga_only.
Print Assumptions C89_selection.
Print Assumptions C89_ffga_calls.
Print Assumptions C89_vega_calls.
Print Assumptions C89_ffga_refuted.
