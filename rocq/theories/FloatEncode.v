(** Coding in IEEE doubles: the parameters of a gene, and the index of a value. *)
From Coq Require Import ZArith QArith Qabs Qreals Reals Bool List Lia Lra Floats.SpecFloat.
From Flocq Require Import Core Relative IEEE754.BinarySingleNaN.
From Verif Require Import Num Laws Float FloatProofs FloatDecode CodingProofs.
Local Existing Instance prec_pos.
Local Existing Instance prec_emax.
Open Scope R_scope.

(** *** int() and round() of doubles *)
Lemma trunc_real : forall b : bin, is_finite b = true -> 0 <= B2R b -> exists k, f_trunc (B2SF b) = Some k /\ IZR k <= B2R b < IZR k + 1.
Proof.
  intros b F P. destruct b as [s|s| |s m e H]; try discriminate F.
  - exists 0%Z. cbn. split; auto. lra.
  - destruct s.
    { exfalso. cbn in P. assert (C : F2R (Float radix2 (Z.neg m) e) < 0) by (apply F2R_lt_0; reflexivity). lra. }
    cbn [f_trunc B2SF B2R cond_Zopp]. eexists. split; [reflexivity|]. unfold F2R. cbn [Fnum Fexp]. destruct (Z.leb_spec 0 e) as [L|L].
    + rewrite mult_IZR. change (2 ^ e)%Z with (radix2 ^ e)%Z. rewrite (IZR_Zpower radix2 e L). lra.
    + assert (E : bpow radix2 e = / IZR (2 ^ (- e))).
      { rewrite <- (Z.opp_involutive e) at 1. rewrite bpow_opp. f_equal. change (2 ^ (- e))%Z with (radix2 ^ (- e))%Z. rewrite IZR_Zpower by lia. reflexivity. }
      rewrite E. assert (D : (0 < 2 ^ (- e))%Z) by (apply Z.pow_pos_nonneg; lia). assert (D' : 0 < IZR (2 ^ (- e))) by now apply IZR_lt.
      pose proof (Z_div_mod_eq_full (Z.pos m) (2 ^ (- e))) as M. pose proof (Z.mod_pos_bound (Z.pos m) _ D) as B.
      set (q := (Z.pos m / 2 ^ (- e))%Z) in *. set (w := IZR (2 ^ (- e))) in *. apply (f_equal IZR) in M. rewrite plus_IZR, mult_IZR in M. fold w in M.
      assert (B1 : 0 <= IZR (Z.pos m mod 2 ^ (- e)) < w) by (split; [apply IZR_le|apply IZR_lt]; lia).
      assert (Ew : IZR (Z.pos m) * / w = IZR q + IZR (Z.pos m mod 2 ^ (- e)) * / w) by (rewrite M; field; lra).
      rewrite Ew. assert (I : 0 < / w) by now apply Rinv_0_lt_compat.
      assert (I2 : IZR (Z.pos m mod 2 ^ (- e)) * / w < 1). { rewrite <- (Rinv_r w) by lra. apply Rmult_lt_compat_r; lra. }
      assert (I3 : 0 <= IZR (Z.pos m mod 2 ^ (- e)) * / w) by (apply Rmult_le_pos; lra). lra.
Qed.
Lemma round_real : forall b : bin, is_finite b = true -> exists i, f_round (B2SF b) = Some i /\ Rabs (B2R b - IZR i) <= / 2.
Proof.
  assert (H2 : Q2R (1 # 2) = / 2) by (unfold Q2R; cbn; lra).
  assert (A : forall q z, (Qabs (q - inject_Z z) <= 1 # 2)%Q -> Rabs (Q2R q - IZR z) <= / 2).
  { intros q z H. apply Qle_Rle in H. rewrite H2 in H. assert (E : Q2R (inject_Z z) = IZR z) by (unfold Q2R; cbn; lra). rewrite <- E, <- Q2R_minus.
    destruct (Qlt_le_dec (q - inject_Z z) 0) as [L|L].
    - rewrite (Qeq_eqR _ _ (Qabs_neg _ (Qlt_le_weak _ _ L))), Q2R_opp in H. apply Qlt_Rlt in L. rewrite RMicromega.Q2R_0 in L. rewrite Rabs_left; lra.
    - rewrite (Qeq_eqR _ _ (Qabs_pos _ L)) in H. apply Qle_Rle in L. rewrite RMicromega.Q2R_0 in L. rewrite Rabs_pos_eq; lra. }
  intros b F. destruct b as [s|s| |s m e H]; try discriminate F.
  - exists 0%Z. cbn. split; auto. rewrite Rminus_0_r, Rabs_R0. lra.
  - rewrite val_real. cbn [B2SF f_round f_val]. eexists. split; [reflexivity|].
    set (q := if (0 <=? e)%Z then inject_Z (Z.pos m * 2 ^ e) else Z.pos m # Z.to_pos (2 ^ (- e))).
    set (a := if (0 <=? e)%Z then (Z.pos m * 2 ^ e)%Z else Qround_he (Z.pos m # Z.to_pos (2 ^ (- e)))).
    assert (K : Rabs (Q2R q - IZR a) <= / 2).
    { apply A. unfold q, a. destruct (0 <=? e)%Z; [|apply round_he_err]. setoid_replace (inject_Z (Z.pos m * 2 ^ e) - inject_Z (Z.pos m * 2 ^ e))%Q with 0%Q by ring. discriminate. }
    destruct s; [|exact K]. rewrite Q2R_opp, opp_IZR. replace (- Q2R q - - IZR a) with (- (Q2R q - IZR a)) by ring. rewrite Rabs_Ropp. exact K.
Qed.

(** *** The number of requested intervals *)
Lemma points_real : forall lo hi sp : bin, is_finite lo = true -> is_finite hi = true -> is_finite sp = true ->
  Rabs (B2R lo) <= bpow radix2 1000 -> Rabs (B2R hi) <= bpow radix2 1000 ->
  bpow radix2 (-900) <= B2R sp -> B2R sp <= B2R hi - B2R lo <= bpow radix2 48 * B2R sp ->
  let q := Bdiv mode_NE (Babs (Bminus mode_NE hi lo)) sp in
  is_finite q = true /\ 1 <= B2R q <= bpow radix2 48 + / 2.
Proof.
  intros lo hi sp Flo Fhi Fs Blo Bhi Ps [L1 L2] q.
  assert (T0 : 0 < tiny) by apply bpow_gt_0. assert (Tp : tiny <= ulp1 * bpow radix2 (-900)) by (rewrite <- bpow_plus; apply bpow_le; lia).
  assert (U : ulp1 = / 9007199254740992) by reflexivity.
  assert (B48 : bpow radix2 48 = 281474976710656) by reflexivity.
  assert (P9 : 0 < bpow radix2 (-900)) by apply bpow_gt_0.
  set (l := B2R lo) in *. set (h := B2R hi) in *. set (s := B2R sp) in *. set (D := h - l) in *. set (P := bpow radix2 (-900)) in *.
  assert (P1000 : bpow radix2 1001 = 2 * bpow radix2 1000) by (change 2 with (bpow radix2 1); rewrite <- bpow_plus; reflexivity).
  destruct (near_finite (Babs (Bminus mode_NE hi lo)) (Rabs D) 1001) as [FR ER].
  { lia. } { apply near_abs. now apply near_minus. } { apply Rabs_le_inv in Blo, Bhi. rewrite Rabs_Rabsolu, Rabs_pos_eq, P1000 by lra. unfold D. lra. }
  rewrite (Rabs_pos_eq D) in ER by lra. pose proof (rnd_err D) as E1. rewrite (Rabs_pos_eq D) in E1 by lra.
  set (Rg := Babs (Bminus mode_NE hi lo)) in *. set (r := B2R Rg) in *. rewrite <- ER in E1. apply Rabs_le_inv in E1.
  assert (rs : s <= r). { rewrite ER. unfold s. rewrite <- (rnd_bin sp). apply rnd_le. exact L1. }
  assert (s0 : 0 < s) by lra.
  assert (r0 : 0 <= r) by lra.
  assert (q1 : 1 <= r / s). { apply Rmult_le_reg_r with s; auto. unfold Rdiv. rewrite Rmult_assoc, Rinv_l by lra. lra. }
  assert (q2 : r / s <= bpow radix2 48 + / 4).
  { apply Rmult_le_reg_r with s; auto. unfold Rdiv. rewrite Rmult_assoc, Rinv_l by lra. rewrite B48, U in *. lra. }
  assert (N : near q (r / s)) by (apply near_div; auto).
  destruct (near_finite q (r / s) 49) as [FQ EQ]; auto; [lia|rewrite Rabs_pos_eq by lra; change (bpow radix2 49) with 562949953421312; rewrite B48 in q2; lra|].
  split; auto. rewrite EQ. split; [rewrite <- rnd_1; now apply rnd_le|].
  pose proof (rnd_err (r / s)) as E2. rewrite (Rabs_pos_eq (r / s)) in E2 by lra. apply Rabs_le_inv in E2.
  assert (Tq : tiny <= / 100) by (eapply Rle_trans; [apply (bpow_le radix2 (-1075) (-7)); lia|change (bpow radix2 (-7)) with (/ 128); lra]).
  rewrite B48, U in *. lra.
Qed.

(** *** The index of a value between the bounds *)
Lemma index_real : forall (lo hi v nb : bin) N,
  is_finite lo = true -> is_finite hi = true -> is_finite v = true -> is_finite nb = true ->
  Rabs (B2R lo) <= bpow radix2 1000 -> Rabs (B2R hi) <= bpow radix2 1000 -> bpow radix2 (-900) <= B2R hi - B2R lo ->
  B2R nb = N -> 1 <= N <= bpow radix2 49 -> B2R lo <= B2R v <= B2R hi ->
  let stp := Bdiv mode_NE (Babs (Bminus mode_NE hi lo)) nb in
  let q := Bdiv mode_NE (Bminus mode_NE v lo) stp in
  is_finite stp = true /\ 0 < B2R stp /\ is_finite q = true /\ 0 <= B2R q < N + / 2 /\
  Rabs (B2R q - (B2R v - B2R lo) / (B2R hi - B2R lo) * N) <= bpow radix2 (-49) * N.
Proof.
  intros lo hi v nb N Flo Fhi Fv Fn Blo Bhi PD EN HN Hv stp q.
  assert (T0 : 0 < tiny) by apply bpow_gt_0. assert (P9 : 0 < bpow radix2 (-900)) by apply bpow_gt_0.
  assert (Tp : tiny <= ulp1 * (bpow radix2 (-100) * bpow radix2 (-900))) by (rewrite <- !bpow_plus; apply bpow_le; lia).
  assert (U : ulp1 = / 9007199254740992) by reflexivity. set (u := ulp1) in *.
  assert (B49 : bpow radix2 49 = 562949953421312) by reflexivity.
  assert (B49' : bpow radix2 (-49) = 16 * u) by (change 16 with (bpow radix2 4); unfold u; rewrite <- bpow_plus; reflexivity).
  assert (B100 : bpow radix2 (-100) * bpow radix2 49 <= / 16) by (rewrite <- bpow_plus; change (/ 16) with (bpow radix2 (-4)); apply bpow_le; lia).
  assert (Bp : 0 < bpow radix2 (-100)) by apply bpow_gt_0.
  assert (B100u : bpow radix2 (-100) <= / 16) by (change (/ 16) with (bpow radix2 (-4)); apply bpow_le; lia).
  assert (P1000 : bpow radix2 1001 = 2 * bpow radix2 1000) by (change 2 with (bpow radix2 1); rewrite <- bpow_plus; reflexivity).
  assert (P1001 : bpow radix2 1002 = 2 * bpow radix2 1001) by (change 2 with (bpow radix2 1); rewrite <- bpow_plus; reflexivity).
  assert (Pbig : 1 <= bpow radix2 1000) by (change 1 with (bpow radix2 0); apply bpow_le; lia).
  set (l := B2R lo) in *. set (h := B2R hi) in *. set (x := B2R v) in *. set (D := h - l) in *. set (P := bpow radix2 (-900)) in *. set (c := bpow radix2 (-100)) in *.
  set (big := bpow radix2 1000) in *. apply Rabs_le_inv in Blo, Bhi.
  (* the range *)
  destruct (near_finite (Babs (Bminus mode_NE hi lo)) (Rabs D) 1001) as [FR ER].
  { lia. } { apply near_abs. now apply near_minus. } { rewrite Rabs_Rabsolu, Rabs_pos_eq, P1000 by lra. unfold D. lra. }
  rewrite (Rabs_pos_eq D) in ER by lra. pose proof (rnd_err D) as E1. rewrite (Rabs_pos_eq D) in E1 by lra.
  set (Rg := Babs (Bminus mode_NE hi lo)) in *. set (r := B2R Rg) in *. rewrite <- ER in E1. apply Rabs_le_inv in E1. fold u in E1.
  assert (tD : tiny <= u * c * D). { eapply Rle_trans; [exact Tp|]. rewrite Rmult_assoc. apply Rmult_le_compat_l; [lra|]. apply Rmult_le_compat_l; lra. }
  assert (ucD : u * c * D <= / 16 * (u * D)). { replace (u * c * D) with (c * (u * D)) by ring. apply Rmult_le_compat_r; [apply Rmult_le_pos; lra|lra]. }
  assert (uD : 0 <= u * D <= D / 1000) by (rewrite U; lra).
  assert (r1 : Rabs (r - D) <= 2 * u * D) by (apply Rabs_le; lra). apply Rabs_le_inv in r1.
  assert (r0 : 0 < r) by lra.
  assert (N0 : 0 < N) by lra. assert (iN : 0 < / N) by now apply Rinv_0_lt_compat.
  (* the step *)
  assert (q0 : 0 < r / N <= r).
  { split; [now apply Rdiv_lt_0_compat|]. apply Rmult_le_reg_r with N; auto. unfold Rdiv. rewrite Rmult_assoc, Rinv_l by lra. 
    rewrite Rmult_1_r. rewrite <- (Rmult_1_r r) at 1. apply Rmult_le_compat_l; lra. }
  destruct (near_finite stp (r / N) 1002) as [FS ES].
  { lia. } { unfold stp. rewrite <- EN. apply near_div; auto; [fold r; lra|rewrite EN; lra]. } { rewrite Rabs_pos_eq by lra. rewrite P1001, P1000. unfold D in *. lra. }
  pose proof (rnd_err (r / N)) as E2. rewrite (Rabs_pos_eq (r / N)) in E2 by lra. set (st := B2R stp) in *. rewrite <- ES in E2. apply Rabs_le_inv in E2. fold u in E2.
  (* N times the step is near the range *)
  assert (Nst : Rabs (N * st - r) <= u * r + / 8 * (u * D)).
  { replace (N * st - r) with (N * (st - r / N)) by (field; lra). rewrite Rabs_mult, (Rabs_pos_eq N) by lra.
    apply Rle_trans with (N * (u * (r / N) + tiny)); [apply Rmult_le_compat_l; [lra|apply Rabs_le; lra]|].
    replace (N * (u * (r / N) + tiny)) with (u * r + N * tiny) by (field; lra). apply Rplus_le_compat_l.
    apply Rle_trans with (bpow radix2 49 * (u * c * D)); [apply Rmult_le_compat; lra|].
    replace (bpow radix2 49 * (u * c * D)) with ((c * bpow radix2 49) * (u * D)) by ring. apply Rmult_le_compat_r; [lra|]. lra. }
  apply Rabs_le_inv in Nst.
  assert (ur : u * r <= u * D + / 100 * (u * D)). { replace (u * D + / 100 * (u * D)) with (u * (D + D / 100)) by field. apply Rmult_le_compat_l; [rewrite U; lra|]. lra. }
  assert (Nst1 : Rabs (N * st - D) <= 3.2 * (u * D)) by (apply Rabs_le; lra). apply Rabs_le_inv in Nst1.
  assert (Nst0 : 0 < N * st) by lra.
  assert (s0 : 0 < st). { apply Rmult_lt_reg_l with N; auto. rewrite Rmult_0_r. exact Nst0. }
  (* the distance *)
  assert (Hd : 0 <= x - l <= D) by (unfold D; lra).
  destruct (near_finite (Bminus mode_NE v lo) (x - l) 1001) as [FA EA].
  { lia. } { now apply near_minus. } { rewrite Rabs_pos_eq, P1000 by lra. unfold D in *. lra. }
  pose proof (rnd_err (x - l)) as E3. rewrite (Rabs_pos_eq (x - l)) in E3 by lra. set (A := Bminus mode_NE v lo) in *. set (a := B2R A) in *.
  rewrite <- EA in E3. apply Rabs_le_inv in E3. fold u in E3.
  assert (a0 : 0 <= a) by (rewrite EA, <- rnd_0; apply rnd_le; lra). assert (ar : a <= r) by (rewrite EA, ER; apply rnd_le; lra).
  assert (ux : u * (x - l) <= u * D) by (apply Rmult_le_compat_l; [rewrite U; lra|lra]).
  assert (a1 : Rabs (a - (x - l)) <= 1.1 * (u * D)) by (apply Rabs_le; lra). apply Rabs_le_inv in a1.
  (* the quotient *)
  set (w := (x - l) / D). assert (D0 : 0 < D) by lra.
  assert (Ew : x - l = w * D) by (unfold w; field; lra). assert (Hw : 0 <= w <= 1).
  { unfold w. split; [apply Rmult_le_pos; [lra|left; now apply Rinv_0_lt_compat]|]. apply Rmult_le_reg_r with D; auto. unfold Rdiv. rewrite Rmult_assoc, Rinv_l by lra. lra. }
  assert (Q : Rabs (a / st - w * N) <= 8 * (u * N)).
  { apply Rmult_le_reg_r with (st / N); [now apply Rdiv_lt_0_compat|]. rewrite <- (Rabs_pos_eq (st / N)) at 1 by (left; now apply Rdiv_lt_0_compat). rewrite <- Rabs_mult.
    replace ((a / st - w * N) * (st / N)) with (/ N * (a - w * (N * st))) by (field; split; lra).
    replace (8 * (u * N) * (st / N)) with (/ N * (8 * u * (N * st))) by (field; lra). rewrite Rabs_mult, (Rabs_pos_eq (/ N)) by lra. apply Rmult_le_compat_l; [lra|].
    assert (W : Rabs (w * (N * st - D)) <= 3.2 * (u * D)).
    { rewrite Rabs_mult, (Rabs_pos_eq w) by lra. rewrite <- (Rmult_1_l (3.2 * (u * D))). apply Rmult_le_compat; try lra; [apply Rabs_pos|]. apply Rabs_le. lra. }
    apply Rabs_le_inv in W. rewrite Rmult_minus_distr_l in W.
    assert (V : u * (N * st) >= u * D - / 100 * (u * D)).
    { apply Rle_ge. replace (u * D - / 100 * (u * D)) with (u * (D - D / 100)) by field. apply Rmult_le_compat_l; [rewrite U; lra|]. lra. }
    apply Rabs_le. lra. }
  apply Rabs_le_inv in Q.
  assert (uN : 0 <= u * N <= / 16) by (rewrite U, B49 in *; lra).
  assert (wN : 0 <= w * N <= N). { split; [apply Rmult_le_pos; lra|]. rewrite <- (Rmult_1_l N) at 2. apply Rmult_le_compat_r; lra. }
  assert (as0 : 0 <= a / st) by (apply Rmult_le_pos; [lra|left; now apply Rinv_0_lt_compat]).
  assert (as1 : a / st <= N + 3.3 * (u * N)).
  { apply Rmult_le_reg_r with st; auto. unfold Rdiv. rewrite Rmult_assoc, Rinv_l, Rmult_1_r by lra.
    replace ((N + 3.3 * (u * N)) * st) with (N * st + 3.3 * (u * (N * st))) by ring.
    assert (V : u * (N * st) >= u * D - / 100 * (u * D)).
    { apply Rle_ge. replace (u * D - / 100 * (u * D)) with (u * (D - D / 100)) by field. apply Rmult_le_compat_l; [rewrite U; lra|]. lra. }
    lra. }
  destruct (near_finite q (a / st) 50) as [FQ EQ].
  { lia. } { apply near_div; auto. } { rewrite Rabs_pos_eq by lra. change (bpow radix2 50) with 1125899906842624. rewrite B49 in HN. lra. }
  pose proof (rnd_err (a / st)) as E4. rewrite (Rabs_pos_eq (a / st)) in E4 by lra. rewrite <- EQ in E4. apply Rabs_le_inv in E4. fold u in E4.
  assert (uas : u * (a / st) <= u * N + / 100 * (u * N)).
  { replace (u * N + / 100 * (u * N)) with (u * (N + N / 100)) by field. apply Rmult_le_compat_l; [rewrite U; lra|]. rewrite U in as1. lra. }
  assert (tN : tiny <= / 100 * (u * N)).
  { apply Rle_trans with (/ 100 * u); [|assert (u <= u * N); [rewrite <- (Rmult_1_r u) at 1; apply Rmult_le_compat_l; [rewrite U; lra|lra]|lra]].
    eapply Rle_trans; [apply (bpow_le radix2 (-1075) (-60)); lia|]. change (bpow radix2 (-60)) with (/ 1152921504606846976). rewrite U. lra. }
  split; auto. split; auto. split; auto. split.
  - split; [rewrite EQ, <- rnd_0; apply rnd_le; auto|]. lra.
  - rewrite B49'. apply Rabs_le. lra.
Qed.
