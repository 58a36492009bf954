(** Rounding of IEEE doubles is monotone: facts about the operations of Float.v obtained
    through Flocq (which uses the axioms of the standard library's real numbers). *)
From Coq Require Import ZArith QArith Qreals Reals Bool List Lia Lra Floats.SpecFloat.
From Flocq Require Import Core IEEE754.BinarySingleNaN.
From Verif Require Import Num Laws Float.
Open Scope Z_scope.

Lemma prec_pos : Prec_gt_0 fprec.
Proof. reflexivity. Qed.
Lemma prec_emax : Prec_lt_emax fprec femax.
Proof. reflexivity. Qed.
Local Existing Instance prec_pos.
Local Existing Instance prec_emax.
Notation bin := (binary_float fprec femax).
Notation rnd := (round radix2 (fexp fprec femax) ZnearestE).
Notation top := (bpow radix2 femax).

(** A representable double: the constructor arguments of a finite one are canonical. *)
Definition double (x : spec_float) : Prop := valid_binary fprec femax x = true.
Lemma double_bin : forall x, double x -> exists b : bin, B2SF b = x.
Proof. intros x H. exists (SF2B x H). apply B2SF_SF2B. Qed.
Lemma bin_double : forall b : bin, double (B2SF b).
Proof. intros b. apply valid_binary_B2SF. Qed.

(** The two formulations of the operations agree (as in Flocq's PrimFloat, without primitive floats). *)
Lemma round_aux_same : forall sx mx ex lx,
  SpecFloat.binary_round_aux fprec femax sx mx ex lx = binary_round_aux fprec femax mode_NE sx mx ex lx.
Proof.
  intros. unfold SpecFloat.binary_round_aux, binary_round_aux. destruct (shr_fexp _ _ _ _ _) as [mrs' e'].
  assert (H : forall s m l, round_nearest_even m l = choice_mode mode_NE s m l).
  { intros s m [|[]]; try reflexivity. cbn. unfold Round.cond_incr. now destruct (Z.even m). }
  now rewrite (H sx).
Qed.
Lemma normalize_same : forall m e sz,
  SpecFloat.binary_normalize fprec femax m e sz = B2SF (binary_normalize fprec femax prec_pos prec_emax mode_NE m e sz).
Proof.
  assert (R : forall s m e, SpecFloat.binary_round fprec femax s m e = binary_round fprec femax mode_NE s m e).
  { intros. unfold SpecFloat.binary_round, binary_round, shl_align_fexp. destruct (shl_align _ _ _). apply round_aux_same. }
  intros [|p|p] e sz; cbn [SpecFloat.binary_normalize binary_normalize]; [reflexivity| |]; rewrite B2SF_SF2B; apply R.
Qed.
Lemma add_same : forall x y : bin, SFadd fprec femax (B2SF x) (B2SF y) = B2SF (Bplus mode_NE x y).
Proof.
  intros [sx|sx| |sx mx ex Bx] [sy|sy| |sy my ey By]; try reflexivity; try (cbn; now destruct (Bool.eqb sx sy)).
  apply normalize_same.
Qed.
Lemma sub_same : forall x y : bin, SFsub fprec femax (B2SF x) (B2SF y) = B2SF (Bminus mode_NE x y).
Proof.
  intros [sx|sx| |sx mx ex Bx] [sy|sy| |sy my ey By]; try reflexivity; try (cbn; now destruct (Bool.eqb sx (negb sy))).
  cbn [B2SF SFsub Bminus]. unfold Fplus_naive. rewrite cond_Zopp_negb. rewrite <- normalize_same. reflexivity.
Qed.
Lemma mul_same : forall x y : bin, SFmul fprec femax (B2SF x) (B2SF y) = B2SF (Bmult mode_NE x y).
Proof.
  intros [sx|sx| |sx mx ex Bx] [sy|sy| |sy my ey By]; try reflexivity.
  cbn [B2SF SFmul Bmult]. rewrite B2SF_SF2B. apply round_aux_same.
Qed.
Lemma div_same : forall x y : bin, SFdiv fprec femax (B2SF x) (B2SF y) = B2SF (Bdiv mode_NE x y).
Proof.
  intros [sx|sx| |sx mx ex Bx] [sy|sy| |sy my ey By]; try reflexivity.
  cbn [B2SF SFdiv Bdiv]. rewrite B2SF_SF2B. destruct (SFdiv_core_binary _ _ _ _ _ _) as [[mz ez] lz]. apply round_aux_same.
Qed.
Lemma abs_same : forall x : bin, SFabs (B2SF x) = B2SF (Babs x).
Proof. intros [sx|sx| |sx mx ex Bx]; reflexivity. Qed.
Lemma opp_same : forall x : bin, SFopp (B2SF x) = B2SF (Bopp x).
Proof. intros [sx|sx| |sx mx ex Bx]; reflexivity. Qed.

(** *** Results of an operation are the rounding of the exact result *)
Open Scope R_scope.
(** [b] is what rounding the real [r] gives, overflow included. *)
Definition near (b : bin) (r : R) : Prop :=
  (Rabs (rnd r) < top /\ is_finite b = true /\ B2R b = rnd r) \/
  (top <= rnd r /\ b = B754_infinity false) \/
  (rnd r <= - top /\ b = B754_infinity true).
Lemma top_pos : 0 < top.
Proof. apply bpow_gt_0. Qed.
Lemma near_of : forall (b : bin) r s,
  (if Rlt_bool (Rabs (rnd r)) top then B2R b = rnd r /\ is_finite b = true /\ s
   else B2SF b = binary_overflow fprec femax mode_NE (Rlt_bool r 0)) -> near b r.
Proof.
  intros b r s H. revert H. case Rlt_bool_spec; intros Hr H.
  - left. tauto.
  - right. change (binary_overflow fprec femax mode_NE (Rlt_bool r 0)) with (S754_infinity (Rlt_bool r 0)) in H.
    assert (E : b = B754_infinity (Rlt_bool r 0)).
    { apply B2SF_inj. rewrite H. reflexivity. }
    revert E. case Rlt_bool_spec; intros Sr E; [right|left]; split; auto.
    + assert (rnd r <= 0) by (apply round_le_generic; [apply fexp_correct; reflexivity|apply valid_rnd_N|apply generic_format_0|lra]).
      rewrite Rabs_left1 in Hr by auto. lra.
    + assert (0 <= rnd r) by (apply round_ge_generic; [apply fexp_correct; reflexivity|apply valid_rnd_N|apply generic_format_0|lra]).
      rewrite Rabs_pos_eq in Hr by auto. lra.
Qed.
Lemma rnd_le : forall x y, x <= y -> rnd x <= rnd y.
Proof. intros x y H. apply round_le; [apply fexp_correct; reflexivity|apply valid_rnd_N|exact H]. Qed.
Lemma rnd_abs : forall x, rnd (Rabs x) = Rabs (rnd x).
Proof. intros x. apply round_NE_abs. apply fexp_correct; reflexivity. Qed.
Lemma rnd_bin : forall b : bin, rnd (B2R b) = B2R b.
Proof. intros b. apply round_generic; [apply valid_rnd_N|apply generic_format_B2R]. Qed.

Lemma near_le : forall (b1 b2 : bin) r1 r2, near b1 r1 -> near b2 r2 -> r1 <= r2 -> Bleb b1 b2 = true.
Proof.
  intros b1 b2 r1 r2 H1 H2 L. apply rnd_le in L. pose proof top_pos as P.
  destruct H1 as [(A1 & F1 & E1)|[[A1 ->]|[A1 ->]]]; destruct H2 as [(A2 & F2 & E2)|[[A2 ->]|[A2 ->]]].
  - rewrite Bleb_correct by auto. rewrite E1, E2. now apply Rle_bool_true.
  - destruct b1 as [sx|sx| |[] mx ex Bx]; try discriminate; reflexivity.
  - apply Rabs_def2 in A1. lra.
  - apply Rabs_def2 in A2. lra.
  - reflexivity.
  - lra.
  - destruct b2 as [sx|sx| |[] mx ex Bx]; try discriminate; reflexivity.
  - reflexivity.
  - reflexivity.
Qed.
Lemma near_self : forall b : bin, is_finite b = true -> near b (B2R b).
Proof. intros b F. left. rewrite rnd_bin. split; [apply abs_B2R_lt_emax|auto]. Qed.
Lemma near_nan : forall (b : bin) r, near b r -> is_nan b = false.
Proof. intros b r [(_ & F & _)|[[_ ->]|[_ ->]]]; try reflexivity. destruct b; auto; discriminate. Qed.
Lemma near_abs : forall (b : bin) r, near b r -> near (Babs b) (Rabs r).
Proof.
  intros b r [(A & F & E)|[[A ->]|[A ->]]]; unfold near; rewrite rnd_abs; pose proof top_pos.
  - left. rewrite Rabs_Rabsolu, is_finite_Babs, B2R_Babs, E. auto.
  - right. left. split; [|reflexivity]. rewrite Rabs_pos_eq; lra.
  - right. left. split; [|reflexivity]. rewrite Rabs_left1; lra.
Qed.
Lemma near_opp : forall (b : bin) r, near b r -> near (Bopp b) (- r).
Proof.
  intros b r [(A & F & E)|[[A ->]|[A ->]]]; unfold near; rewrite round_NE_opp; pose proof top_pos.
  - left. rewrite Rabs_Ropp, is_finite_Bopp, B2R_Bopp, E. auto.
  - right. right. split; [lra|reflexivity].
  - right. left. split; [lra|reflexivity].
Qed.

Lemma near_plus : forall x y : bin, is_finite x = true -> is_finite y = true -> near (Bplus mode_NE x y) (B2R x + B2R y).
Proof.
  intros x y Fx Fy. pose proof (Bplus_correct _ _ _ _ mode_NE x y Fx Fy) as H.
  change (round_mode mode_NE) with ZnearestE in H. eapply near_of. revert H. case Rlt_bool_spec; intros L H; [exact H|].
  destruct H as [H Sg]. rewrite H. f_equal. symmetry.
  destruct (Bsign x) eqn:Sx.
  - assert (B2R x <= 0) by (destruct x as [s|s| |s m e ?]; try discriminate; cbn in *; subst; [lra|apply F2R_le_0; cbn; lia]).
    assert (B2R y <= 0) by (destruct y as [s|s| |s m e ?]; try discriminate; cbn in *; subst; [lra|apply F2R_le_0; cbn; lia]).
    apply Rlt_bool_true. destruct (Req_dec (B2R x + B2R y) 0) as [Z|Z]; [|lra].
    rewrite Z, round_0, Rabs_R0 in L by apply valid_rnd_N. pose proof top_pos. lra.
  - assert (0 <= B2R x) by (destruct x as [s|s| |s m e ?]; try discriminate; cbn in *; subst; [lra|apply F2R_ge_0; cbn; lia]).
    assert (0 <= B2R y) by (destruct y as [s|s| |s m e ?]; try discriminate; cbn in *; subst; [lra|apply F2R_ge_0; cbn; lia]).
    apply Rlt_bool_false. lra.
Qed.
Lemma minus_plus : forall x y : bin, is_finite x = true -> is_finite y = true -> Bminus mode_NE x y = Bplus mode_NE x (Bopp y).
Proof.
  intros x y Fx Fy. apply B2SF_inj. rewrite <- sub_same, <- add_same, <- opp_same.
  destruct x as [sx|sx| |sx mx ex Bx]; destruct y as [sy|sy| |sy my ey By]; try discriminate; cbn; try reflexivity.
  all: try (destruct sx, sy; reflexivity); f_equal; destruct sy; cbn; lia.
Qed.
Lemma near_minus : forall x y : bin, is_finite x = true -> is_finite y = true -> near (Bminus mode_NE x y) (B2R x - B2R y).
Proof.
  intros x y Fx Fy. rewrite minus_plus by auto. replace (B2R x - B2R y) with (B2R x + B2R (Bopp y)) by (rewrite B2R_Bopp; ring).
  apply near_plus; auto. now rewrite is_finite_Bopp.
Qed.
(** Multiplication and division of finite numbers that are not negative. *)
Lemma sign_nonneg : forall x : bin, 0 < B2R x -> Bsign x = false.
Proof. intros [s|s| |[] m e ?] H; cbn in *; try lra; auto. assert (F2R (Float radix2 (Zneg m) e) <= 0) by (apply F2R_le_0; cbn; lia). lra. Qed.
Lemma near_mult : forall x y : bin, is_finite x = true -> is_finite y = true -> 0 <= B2R x -> 0 <= B2R y -> near (Bmult mode_NE x y) (B2R x * B2R y).
Proof.
  intros x y Fx Fy Px Py. pose proof (Bmult_correct _ _ _ _ mode_NE x y) as H.
  change (round_mode mode_NE) with ZnearestE in H. rewrite Fx, Fy in H. eapply near_of. revert H. case Rlt_bool_spec; intros L H; [exact H|].
  rewrite H. f_equal.
  assert (Q : 0 <= B2R x * B2R y) by now apply Rmult_le_pos.
  assert (N : B2R x * B2R y <> 0).
  { intros Z. rewrite Z, round_0, Rabs_R0 in L by apply valid_rnd_N. pose proof top_pos. lra. }
  assert (B2R x <> 0) by (intros C; rewrite C in N; lra). assert (B2R y <> 0) by (intros C; rewrite C in N; lra).
  rewrite (sign_nonneg x), (sign_nonneg y) by lra. cbn. symmetry. apply Rlt_bool_false. lra.
Qed.
Lemma near_div : forall x y : bin, is_finite x = true -> is_finite y = true -> 0 <= B2R x -> 0 < B2R y -> near (Bdiv mode_NE x y) (B2R x / B2R y).
Proof.
  intros x y Fx Fy Px Py. pose proof (Bdiv_correct _ _ _ _ mode_NE x y (Rgt_not_eq _ _ Py)) as H.
  change (round_mode mode_NE) with ZnearestE in H. rewrite Fx in H. eapply near_of. revert H. case Rlt_bool_spec; intros L H; [exact H|].
  rewrite H. f_equal.
  assert (Q : 0 <= B2R x / B2R y) by (apply Rmult_le_pos; [lra|left; now apply Rinv_0_lt_compat]).
  assert (N : B2R x / B2R y <> 0).
  { intros Z. rewrite Z, round_0, Rabs_R0 in L by apply valid_rnd_N. pose proof top_pos. lra. }
  assert (B2R x <> 0) by (intros C; rewrite C in N; unfold Rdiv in N; lra).
  rewrite (sign_nonneg x), (sign_nonneg y) by lra. cbn. symmetry. apply Rlt_bool_false. lra.
Qed.

(** *** Doubles that are not negative *)
Definition above (r : R) (b : bin) : Prop := b = B754_infinity false \/ (is_finite b = true /\ r <= B2R b).
Lemma above_weak : forall r r' b, r' <= r -> above r b -> above r' b.
Proof. intros r r' b L [H|[F H]]; [now left|right; split; auto; lra]. Qed.
Lemma near_above : forall b x r, near b x -> rnd r = r -> - top < r -> r <= x -> above r b.
Proof.
  intros b x r N E T L. apply rnd_le in L. rewrite E in L.
  destruct N as [(A & F & Eb)|[[A ->]|[A ->]]]; [right; split; auto; lra|now left|lra].
Qed.
Lemma above_le : forall x y : bin, above 0 x -> above 0 y ->
  Bleb x y = true <-> y = B754_infinity false \/ (is_finite x = true /\ is_finite y = true /\ B2R x <= B2R y).
Proof.
  intros x y [->|[Fx Px]] [->|[Fy Py]].
  - split; [now left|reflexivity].
  - split; [|intros [->|[C _]]; discriminate]. intros H. exfalso. destruct y as [s|s| |[] m e ?]; try discriminate.
  - split; [now left|]. intros _. destruct x as [s|s| |[] m e ?]; try discriminate; reflexivity.
  - rewrite Bleb_correct by auto. case Rle_bool_spec; intros L; split; try discriminate; auto.
    intros [->|(_ & _ & C)]; [discriminate|lra].
Qed.
Lemma plus_above : forall x y : bin, forall r, rnd r = r -> 0 <= r -> above r x -> above 0 y -> above r (Bplus mode_NE x y).
Proof.
  intros x y r E P [->|[Fx Px]] [->|[Fy Py]].
  - now left.
  - left. destruct y as [s|s| |s m e ?]; try discriminate; reflexivity.
  - left. destruct x as [s|s| |s m e ?]; try discriminate; reflexivity.
  - apply near_above with (x := B2R x + B2R y); auto; [now apply near_plus|pose proof top_pos; lra|lra].
Qed.
Lemma plus_inf_l : forall y : bin, above 0 y -> Bplus mode_NE (B754_infinity false) y = B754_infinity false.
Proof. intros y [->|[F _]]; [reflexivity|]. destruct y as [s|s| |s m e ?]; try discriminate; reflexivity. Qed.
Lemma plus_inf_r : forall x : bin, above 0 x -> Bplus mode_NE x (B754_infinity false) = B754_infinity false.
Proof. intros x [->|[F _]]; [reflexivity|]. destruct x as [s|s| |s m e ?]; try discriminate; reflexivity. Qed.
Lemma rnd_0 : rnd 0 = 0.
Proof. apply round_0. apply valid_rnd_N. Qed.
Lemma plus_mono : forall x1 x2 y1 y2 : bin, above 0 x1 -> above 0 x2 -> above 0 y1 -> above 0 y2 ->
  Bleb x1 x2 = true -> Bleb y1 y2 = true -> Bleb (Bplus mode_NE x1 y1) (Bplus mode_NE x2 y2) = true.
Proof.
  intros x1 x2 y1 y2 A1 A2 B1 B2 Lx Ly.
  pose proof (plus_above x1 y1 0 rnd_0 (Rle_refl 0) A1 B1) as P1. pose proof (plus_above x2 y2 0 rnd_0 (Rle_refl 0) A2 B2) as P2.
  apply above_le in Lx; auto. apply above_le in Ly; auto.
  destruct Lx as [->|(F1 & F2 & Lx)]; [rewrite plus_inf_l in * by auto; apply above_le; auto|].
  destruct Ly as [->|(G1 & G2 & Ly)]; [rewrite plus_inf_r in * by auto; apply above_le; auto|].
  apply near_le with (r1 := B2R x1 + B2R y1) (r2 := B2R x2 + B2R y2); [now apply near_plus|now apply near_plus|lra].
Qed.

(** The double 1. *)
Definition one : bin := binary_normalize fprec femax prec_pos prec_emax mode_NE 1 0 false.
Lemma one_same : @none_ Fops = B2SF one.
Proof. apply normalize_same. Qed.
Lemma one_eq : B2SF one = S754_finite false 4503599627370496 (-52).
Proof. vm_compute. reflexivity. Qed.
Lemma one_val : B2R one = 1 /\ is_finite one = true.
Proof.
  pose proof one_eq as E. split.
  - rewrite <- SF2R_B2SF, E. cbn. unfold F2R. cbn. lra.
  - rewrite <- is_finite_SF_B2SF, E. reflexivity.
Qed.
Lemma rnd_1 : rnd 1 = 1.
Proof. rewrite <- (proj1 one_val). apply rnd_bin. Qed.
Lemma above_one : above 1 one.
Proof. right. destruct one_val as [-> ->]. split; [auto|lra]. Qed.
Lemma inv_near : forall v : bin, above 1 v ->
  (v = B754_infinity false /\ Bdiv mode_NE one v = B754_zero false) \/ (is_finite v = true /\ near (Bdiv mode_NE one v) (1 / B2R v)).
Proof.
  intros v [->|[F L]].
  - left. split; auto.
  - right. split; auto. pose proof one_val as [E1 F1]. rewrite <- E1. apply near_div; auto; lra.
Qed.
Lemma inv_range : forall v : bin, above 1 v -> above 0 (Bdiv mode_NE one v) /\ Bleb (Bdiv mode_NE one v) one = true.
Proof.
  intros v H. pose proof one_val as [E1 F1]. destruct (inv_near v H) as [[-> ->]|[F N]].
  - split; [right; split; [reflexivity|cbn; lra]|]. unfold Bleb. rewrite one_eq. reflexivity.
  - destruct H as [->|[_ L]]; [discriminate|]. split.
    + apply near_above with (x := 1 / B2R v); [exact N|apply rnd_0|pose proof top_pos; lra|]. apply Rmult_le_pos; [lra|]. left. apply Rinv_0_lt_compat. lra.
    + apply near_le with (r1 := 1 / B2R v) (r2 := B2R one); [exact N|now apply near_self|]. rewrite E1. unfold Rdiv. rewrite Rmult_1_l, <- Rinv_1. apply Rinv_le; lra.
Qed.
Lemma inv_anti : forall v w : bin, above 1 v -> above 1 w -> Bleb v w = true -> Bleb (Bdiv mode_NE one w) (Bdiv mode_NE one v) = true.
Proof.
  intros v w Hv Hw L. apply above_le in L; try (eapply above_weak; [|eassumption]; lra).
  destruct (inv_near w Hw) as [[-> ->]|[Fw Nw]].
  - destruct (inv_range v Hv) as [R _]. apply above_le; auto; [right; split; [reflexivity|cbn; lra]|].
    destruct R as [->|[Fd Ld]]; [now left|right; repeat split; auto].
  - destruct L as [->|(Fv & _ & L)]; [discriminate|]. destruct (inv_near v Hv) as [[-> _]|[_ Nv]]; [discriminate|].
    apply near_le with (r1 := 1 / B2R w) (r2 := 1 / B2R v); auto. destruct Hv as [->|[_ Lv]]; [discriminate|].
    unfold Rdiv. rewrite !Rmult_1_l. apply Rinv_le; lra.
Qed.

(** *** Exact values *)
Definition finite (x : spec_float) : Prop := double x /\ is_finite_SF x = true.
Lemma finite_bin : forall x, finite x -> exists b : bin, B2SF b = x /\ is_finite b = true.
Proof. intros x [D F]. destruct (double_bin x D) as [b E]. exists b. split; auto. now rewrite <- is_finite_SF_B2SF, E. Qed.
Lemma val_real : forall b : bin, B2R b = Q2R (f_val (B2SF b)).
Proof.
  assert (Z0 : Q2R 0 = 0) by (unfold Q2R; cbn; lra).
  intros [s|s| |s m e H]; cbn [B2R B2SF f_val]; try (symmetry; exact Z0).
  assert (P : F2R (Float radix2 (Zpos m) e) = Q2R (if (0 <=? e)%Z then inject_Z (Zpos m * 2 ^ e) else Zpos m # Z.to_pos (2 ^ (- e)))).
  { unfold F2R. cbn [Fnum Fexp]. destruct (Z.leb_spec 0 e) as [L|L].
    - unfold Q2R. cbn [inject_Z Qnum Qden]. rewrite mult_IZR, Rinv_1, Rmult_1_r. f_equal. symmetry. apply (IZR_Zpower radix2). exact L.
    - unfold Q2R. cbn [Qnum Qden]. f_equal. rewrite Z2Pos.id by (apply Z.pow_pos_nonneg; lia).
      rewrite <- (Z.opp_involutive e) at 1. rewrite bpow_opp. f_equal. symmetry. apply (IZR_Zpower radix2). lia. }
  destruct s; cbn [cond_Zopp].
  - change (Zneg m) with (- Zpos m)%Z. rewrite F2R_Zopp, P, Q2R_opp. reflexivity.
  - exact P.
Qed.
