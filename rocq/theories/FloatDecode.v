(** Decoding of one gene in IEEE doubles: the result is the exact grid point up to rounding. *)
From Coq Require Import ZArith QArith Qabs Qreals Reals Bool List Lia Lra Floats.SpecFloat.
From Flocq Require Import Core Relative IEEE754.BinarySingleNaN.
From Verif Require Import Num Laws Float FloatProofs.
Local Existing Instance prec_pos.
Local Existing Instance prec_emax.
Open Scope R_scope.

Notation ulp1 := (bpow radix2 (-53)).
Notation tiny := (bpow radix2 (-1075)).
Lemma rnd_err : forall x, Rabs (rnd x - x) <= ulp1 * Rabs x + tiny.
Proof.
  intros x. destruct (error_N_FLT radix2 (-1074) 53 eq_refl (fun t => negb (Z.even t)) x) as (eps & eta & He & Ht & _ & E).
  assert (B1 : / 2 * bpow radix2 (- (53) + 1) = ulp1) by (change (/ 2) with (bpow radix2 (-1)); rewrite <- bpow_plus; reflexivity).
  assert (B2 : / 2 * bpow radix2 (-1074) = tiny) by (change (/ 2) with (bpow radix2 (-1)); rewrite <- bpow_plus; reflexivity).
  rewrite B1 in He. rewrite B2 in Ht.
  change (rnd x) with (round radix2 (FLT_exp (-1074) 53) (Znearest (fun t => negb (Z.even t))) x). rewrite E.
  replace (x * (1 + eps) + eta - x) with (eps * x + eta) by ring.
  eapply Rle_trans; [apply Rabs_triang|]. rewrite Rabs_mult. apply Rplus_le_compat; auto. apply Rmult_le_compat_r; auto. apply Rabs_pos.
Qed.
Lemma rnd_bpow : forall k, (-1074 <= k <= 1023)%Z -> rnd (bpow radix2 k) = bpow radix2 k.
Proof.
  intros k Hk. apply round_generic; [apply valid_rnd_N|]. apply generic_format_bpow.
  change (Z.max (k + 1 - 53) (-1074) <= k)%Z. lia.
Qed.
Lemma rnd_bound : forall x k, (-1074 <= k <= 1023)%Z -> Rabs x <= bpow radix2 k -> Rabs (rnd x) <= bpow radix2 k.
Proof. intros x k Hk H. rewrite <- rnd_abs, <- (rnd_bpow k Hk). now apply rnd_le. Qed.
Lemma near_finite : forall (b : bin) r k, (-1074 <= k <= 1023)%Z -> near b r -> Rabs r <= bpow radix2 k -> is_finite b = true /\ B2R b = rnd r.
Proof.
  intros b r k Hk N H. pose proof (rnd_bound r k Hk H) as Hr. assert (T : bpow radix2 k < top) by (apply bpow_lt; unfold femax; lia).
  apply Rabs_le_inv in Hr. destruct N as [(_ & F & E)|[[C _]|[C _]]]; [auto|lra|lra].
Qed.
(** Integers below 2^53 are exact. *)
Lemma int_exact : forall z, (0 <= z <= 2 ^ 53)%Z -> exists b : bin, nofZ (NumOps := Fops) z = B2SF b /\ is_finite b = true /\ B2R b = IZR z.
Proof.
  intros z Hz. exists (binary_normalize fprec femax prec_pos prec_emax mode_NE z 0 false). split; [apply normalize_same|].
  pose proof (binary_normalize_correct fprec femax prec_pos prec_emax mode_NE z 0 false) as H. cbv zeta in H.
  change (round_mode mode_NE) with ZnearestE in H.
  assert (V : F2R (Float radix2 z 0) = IZR z) by (unfold F2R; cbn; ring). rewrite V in H.
  assert (P : 0 <= IZR z) by (apply IZR_le; lia).
  assert (E : rnd (IZR z) = IZR z).
  { apply round_generic; [apply valid_rnd_N|]. change (generic_format radix2 (FLT_exp (-1074) 53) (IZR z)).
    destruct (Z.eq_dec z (2 ^ 53)) as [->|N].
    - change (IZR (2 ^ 53)) with (IZR (radix2 ^ 53)). rewrite IZR_Zpower by lia. apply generic_format_bpow. unfold FLT_exp. lia.
    - apply generic_format_FLT. exists (Float radix2 z 0); [now rewrite V|cbn; lia|cbn; lia]. }
  rewrite E in H. revert H. case Rlt_bool_spec; intros L H; [tauto|exfalso]. rewrite Rabs_pos_eq in L by auto.
  assert (IZR z <= bpow radix2 53) by (rewrite <- IZR_Zpower by lia; apply IZR_le; exact (proj2 Hz)).
  assert (bpow radix2 53 < top) by (apply bpow_lt; reflexivity). lra.
Qed.

(** The decoded value for index i of N intervals: at least lo, and within rounding of the exact point. *)
Lemma decode_real : forall (lo hi nb ib : bin) N i,
  is_finite lo = true -> is_finite hi = true -> is_finite nb = true -> is_finite ib = true ->
  Rabs (B2R lo) <= bpow radix2 1000 -> Rabs (B2R hi) <= bpow radix2 1000 -> B2R lo <= B2R hi ->
  B2R nb = N -> B2R ib = i -> 1 <= N <= bpow radix2 53 -> 0 <= i <= N ->
  let y := Bplus mode_NE lo (Bmult mode_NE ib (Bdiv mode_NE (Babs (Bminus mode_NE hi lo)) nb)) in
  is_finite y = true /\ B2R lo <= B2R y /\
  Rabs (B2R y - (B2R lo + i * ((B2R hi - B2R lo) / N))) <= bpow radix2 (-49) * (Rabs (B2R lo) + Rabs (B2R hi) + bpow radix2 (-900)).
Proof.
  intros lo hi nb ib N i Flo Fhi Fn Fi Blo Bhi L EN Ei HN Hi y.
  set (l := B2R lo) in *. set (h := B2R hi) in *. set (D := h - l) in *.
  assert (P1000 : bpow radix2 1001 = 2 * bpow radix2 1000) by (change 2 with (bpow radix2 1); rewrite <- bpow_plus; reflexivity).
  assert (P1002 : bpow radix2 1002 = 2 * bpow radix2 1001) by (change 2 with (bpow radix2 1); rewrite <- bpow_plus; reflexivity).
  assert (P1003 : bpow radix2 1003 = 2 * bpow radix2 1002) by (change 2 with (bpow radix2 1); rewrite <- bpow_plus; reflexivity).
  set (big := bpow radix2 1000) in *. assert (Hbig : 16 <= big) by (change 16 with (bpow radix2 4); apply bpow_le; lia).
  assert (HD : 0 <= D <= 2 * big) by (apply Rabs_le_inv in Blo; apply Rabs_le_inv in Bhi; unfold D; lra).
  assert (HM : D <= Rabs l + Rabs h) by (unfold D; pose proof (Rle_abs h); pose proof (Rle_abs (- l)) as Q; rewrite Rabs_Ropp in Q; lra).
  (* the constants *)
  assert (U : ulp1 = / 9007199254740992) by reflexivity.
  assert (U49 : bpow radix2 (-49) = 16 * ulp1) by (change 16 with (bpow radix2 4); rewrite <- bpow_plus; reflexivity).
  assert (T0 : 0 < tiny) by apply bpow_gt_0.
  assert (TN : bpow radix2 53 * tiny = bpow radix2 (-1022)) by (rewrite <- bpow_plus; reflexivity).
  assert (T900 : bpow radix2 (-49) * bpow radix2 (-900) = bpow radix2 (-949)) by (rewrite <- bpow_plus; reflexivity).
  assert (T949 : bpow radix2 73 * bpow radix2 (-1022) = bpow radix2 (-949)) by (rewrite <- bpow_plus; reflexivity).
  assert (T73 : 1000 <= bpow radix2 73) by (change (bpow radix2 73) with 9444732965739290427392; lra).
  assert (Tl : tiny <= bpow radix2 (-1022)) by (apply bpow_le; lia).
  assert (Tb : bpow radix2 (-1022) <= 1) by (change 1 with (bpow radix2 0); apply bpow_le; lia).
  set (small := bpow radix2 (-1022)) in *.
  assert (TN' : N * tiny <= small) by (rewrite <- TN; apply Rmult_le_compat_r; lra).
  (* the range *)
  destruct (near_finite (Babs (Bminus mode_NE hi lo)) (Rabs D) 1001) as [FR ER].
  { lia. } { apply near_abs. now apply near_minus. } { rewrite Rabs_Rabsolu, Rabs_pos_eq, P1000 by lra. lra. }
  rewrite (Rabs_pos_eq D) in ER by lra. pose proof (rnd_err D) as E1. rewrite (Rabs_pos_eq D) in E1 by lra.
  set (Rg := Babs (Bminus mode_NE hi lo)) in *. set (r := B2R Rg) in *. rewrite <- ER in E1.
  assert (r0 : 0 <= r) by (rewrite ER, <- rnd_0; apply rnd_le; lra).
  apply Rabs_le_inv in E1.
  (* the step *)
  assert (q0 : 0 <= r / N <= r).
  { split; [apply Rmult_le_pos; [auto|left; apply Rinv_0_lt_compat; lra]|]. rewrite <- (Rmult_1_r r) at 2. unfold Rdiv. apply Rmult_le_compat_l; auto.
    rewrite <- Rinv_1. apply Rinv_le; lra. }
  destruct (near_finite (Bdiv mode_NE Rg nb) (r / N) 1002) as [FS ES].
  { lia. } { rewrite <- EN. apply near_div; auto; rewrite ?EN; lra. } { rewrite Rabs_pos_eq by lra. rewrite P1002, P1000, U in *. lra. }
  pose proof (rnd_err (r / N)) as E2. rewrite (Rabs_pos_eq (r / N)) in E2 by lra.
  set (Sp := Bdiv mode_NE Rg nb) in *. set (st := B2R Sp) in *. rewrite <- ES in E2.
  assert (s0 : 0 <= st) by (rewrite ES, <- rnd_0; apply rnd_le; lra).
  (* index times step *)
  set (f := i / N). assert (Hf : 0 <= f <= 1).
  { unfold f. split; [apply Rmult_le_pos; [lra|left; apply Rinv_0_lt_compat; lra]|]. apply Rmult_le_reg_r with N; [lra|]. unfold Rdiv. rewrite Rmult_assoc, Rinv_l by lra. lra. }
  assert (Ei' : i = f * N) by (unfold f; field; lra).
  assert (A1 : Rabs (i * st - f * r) <= ulp1 * r + small).
  { replace (i * st - f * r) with (i * (st - r / N)) by (rewrite Ei'; field; lra). rewrite Rabs_mult, (Rabs_pos_eq i) by lra.
    apply Rle_trans with (N * (ulp1 * (r / N) + tiny)).
    - apply Rmult_le_compat; try lra. apply Rabs_pos.
    - replace (N * (ulp1 * (r / N) + tiny)) with (ulp1 * r + N * tiny) by (field; lra). lra. }
  apply Rabs_le_inv in A1. assert (fr : 0 <= f * r <= r).
  { split; [apply Rmult_le_pos; lra|]. rewrite <- (Rmult_1_l r) at 2. apply Rmult_le_compat_r; lra. }
  assert (is0 : 0 <= i * st) by (apply Rmult_le_pos; lra).
  assert (r1 : r <= 2 * big + big / 4) by (rewrite U in *; lra).
  destruct (near_finite (Bmult mode_NE ib Sp) (i * st) 1002) as [FP EP].
  { lia. } { rewrite <- Ei. apply near_mult; auto. rewrite Ei; lra. } { rewrite Rabs_pos_eq by lra. rewrite P1002, P1000, U in *. lra. }
  pose proof (rnd_err (i * st)) as E3. rewrite (Rabs_pos_eq (i * st)) in E3 by lra.
  set (Pb := Bmult mode_NE ib Sp) in *. set (p := B2R Pb) in *. rewrite <- EP in E3.
  assert (p0 : 0 <= p) by (rewrite EP, <- rnd_0; apply rnd_le; lra).
  apply Rabs_le_inv in E3.
  (* the sum *)
  assert (pb : p <= 3 * big) by (rewrite U in *; lra).
  assert (Alp : Rabs (l + p) <= Rabs l + p) by (eapply Rle_trans; [apply Rabs_triang|]; rewrite (Rabs_pos_eq p) by lra; lra).
  destruct (near_finite y (l + p) 1003) as [FY EY].
  { lia. } { apply near_plus; auto. } { rewrite P1003, P1002, P1000. lra. }
  split; [exact FY|]. split.
  - rewrite EY. unfold l at 1. rewrite <- rnd_bin. apply rnd_le. fold l. lra.
  - pose proof (rnd_err (l + p)) as E4. rewrite <- EY in E4. apply Rabs_le_inv in E4.
    assert (fd : Rabs (f * r - f * D) <= ulp1 * D + tiny).
    { replace (f * r - f * D) with (f * (r - D)) by ring. rewrite Rabs_mult, (Rabs_pos_eq f) by lra.
      rewrite <- (Rmult_1_l (ulp1 * D + tiny)). apply Rmult_le_compat; try lra; [apply Rabs_pos|]. apply Rabs_le. lra. }
    apply Rabs_le_inv in fd.
    replace (i * (D / N)) with (f * D) by (rewrite Ei'; field; lra).
    rewrite !Rmult_plus_distr_l, T900, <- T949.
    assert (S73 : 1000 * small <= bpow radix2 73 * small) by (apply Rmult_le_compat_r; [lra|exact T73]).
    pose proof (Rabs_pos l). pose proof (Rabs_pos h). rewrite U49, U in *. apply Rabs_le. 
    set (al := Rabs l) in *. set (ah := Rabs h) in *. set (alp := Rabs (l + p)) in *. set (b73 := bpow radix2 73 * small) in *.
    clear - HD HM T0 Tl E1 r0 A1 fr E3 p0 Alp E4 fd S73 H H0. split; lra.
Qed.
