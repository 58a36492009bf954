(** Coding of input individuals in IEEE doubles: C04 and C06 with rounding. *)
From Coq Require Import String.
From Coq Require Import ZArith QArith Qabs Qreals Reals Bool List Lia Lra Floats.SpecFloat.
From Flocq Require Import Core IEEE754.BinarySingleNaN.
From Verif Require Import Spec Num State Binary Population ListLemmas Laws Float BinaryProofs CodingProofs PopulationProofs FloatProofs FloatDecode FloatEncode PropFloat.
Import ListNotations.
Open Scope Z_scope.
Local Existing Instance Fops.
Local Existing Instance prec_pos.
Local Existing Instance prec_emax.

(** A usable gene: moderate bounds, a positive step that is not tiny, at least one and at
    most 2^48 steps in the range. *)
Definition fine (g : @bgene Fops) : Prop :=
  moderate g /\ finite (gstep g) /\ (/ inject_Z (2 ^ 900) <= f_val (gstep g))%Q /\
  (f_val (gstep g) <= f_val (ghi g) - f_val (glo g))%Q /\
  (f_val (ghi g) - f_val (glo g) <= inject_Z (2 ^ 48) * f_val (gstep g))%Q.
(** x lies between the bounds. *)
Definition between (g : @bgene Fops) (x : spec_float) : Prop :=
  finite x /\ (f_val (glo g) <= f_val x)%Q /\ (f_val x <= f_val (ghi g))%Q.
(** y is a decoded value at most half a grid step from x, up to rounding. *)
Definition decoded_near (g : @bgene Fops) (n : Z) (x y : spec_float) : Prop :=
  decoded g n y /\ (Qabs (f_val y - f_val x) <= spacing (f_val (glo g), f_val (ghi g), 0%Q) n / 2 + (2 # 1) * slack g)%Q.

Lemma ltb_val : forall x y, finite x -> finite y -> SFltb x y = true <-> (f_val x < f_val y)%Q.
Proof.
  intros x y Hx Hy. destruct (finite_bin x Hx) as (xb & <- & Fx). destruct (finite_bin y Hy) as (yb & <- & Fy).
  change (Bltb xb yb = true <-> (f_val (B2SF xb) < f_val (B2SF yb))%Q). rewrite Bltb_correct by auto. rewrite !val_real. split.
  - case Rlt_bool_spec; [|discriminate]. intros L _. now apply Rlt_Qlt.
  - intros L. apply Rlt_bool_true. now apply Qlt_Rlt.
Qed.
Lemma ltb_val_false : forall x y, finite x -> finite y -> SFltb x y = false <-> (f_val y <= f_val x)%Q.
Proof.
  intros x y Hx Hy. pose proof (ltb_val x y Hx Hy) as H. destruct (SFltb x y).
  - split; [discriminate|]. intros L. assert (f_val x < f_val y)%Q by now apply H. exfalso. apply (Qlt_not_le _ _ H0 L).
  - split; auto. intros _. destruct (Qlt_le_dec (f_val x) (f_val y)) as [C|C]; auto. apply H in C. discriminate.
Qed.

(** *** The parameters of a usable gene *)
Lemma fine_params : forall g, fine g -> exists n stp, gene_params g = inr (n, stp) /\ 1 <= n <= 49.
Proof.
  intros g ((Flo & Fhi & Blo & Bhi & L) & Fs & Ps & L1 & L2).
  destruct (finite_bin _ Flo) as (lo & Elo & Flo'). destruct (finite_bin _ Fhi) as (hi & Ehi & Fhi'). destruct (finite_bin _ Fs) as (sp & Esp & Fs').
  assert (Vlo : B2R lo = Q2R (f_val (glo g))) by (rewrite <- Elo; apply val_real). assert (Vhi : B2R hi = Q2R (f_val (ghi g))) by (rewrite <- Ehi; apply val_real).
  assert (Vs : B2R sp = Q2R (f_val (gstep g))) by (rewrite <- Esp; apply val_real).
  apply Qle_Rle in Blo, Bhi, Ps, L1, L2. rewrite Q2R_abs, Q2R_pow2 in Blo, Bhi by lia. rewrite Q2R_ipow2 in Ps by lia. change (- (900))%Z with (-900)%Z in Ps. rewrite Q2R_minus in L1. rewrite Q2R_minus, Q2R_mult, Q2R_pow2 in L2 by lia.
  rewrite <- Vlo, <- Vhi, <- Vs in *. 
  destruct (points_real lo hi sp Flo' Fhi' Fs' Blo Bhi Ps (conj L1 L2)) as (Fq & Hq). set (q := Bdiv mode_NE (Babs (Bminus mode_NE hi lo)) sp) in *.
  destruct (trunc_real q Fq) as (k & Ek & Hk); [lra|].
  assert (K : 1 <= k <= 2 ^ 48).
  { change (bpow radix2 48) with 281474976710656%R in Hq. change (2 ^ 48) with 281474976710656. split.
    - assert (0 < k); [apply lt_IZR; lra|lia].
    - assert (k < 281474976710657); [apply lt_IZR; destruct Hq as [_ Hq]; destruct Hk as [Hk _]; apply Rle_lt_trans with (1 := Hk), Rle_lt_trans with (1 := Hq); lra|lia]. }
  assert (P900 : (0 < bpow radix2 (-900))%R) by apply bpow_gt_0.
  assert (Nz : neqb (gstep g) nzero = false).
  { rewrite <- Esp. cbn [neqb Fops]. change (@nzero Fops) with (S754_zero false). destruct sp as [s|s| |s m e B]; try discriminate Fs'; [|destruct s; reflexivity].
    exfalso. change (bpow radix2 (-900) <= 0)%R in Ps. lra. }
  unfold gene_params. unfold py_div at 1. rewrite Nz. cbn [ntrunc nabs nsub ndiv_raw Fops]. rewrite <- Elo, <- Ehi, <- Esp, sub_same, abs_same, div_same. fold q. rewrite Ek.
  destruct (real_number_spec k) as (n & -> & Hn & Hn1 & Hn2).
  assert (n1 : 1 <= n). { destruct (Z.eq_dec n 0) as [E|E]; [|lia]. exfalso. rewrite E in Hn1. change (2 ^ 0 - 1) with 0 in Hn1. lia. }
  assert (n49 : n <= 49). { destruct (Z.le_gt_cases n 49) as [H|H]; auto. exfalso. specialize (Hn2 49). assert (2 ^ 49 - 1 < k) by (apply Hn2; lia). change (2 ^ 49) with 562949953421312 in *. change (2 ^ 48) with 281474976710656 in K. lia. }
  assert (N1 : 2 <= 2 ^ n) by (change 2 with (2 ^ 1) at 1; apply Z.pow_le_mono_r; lia). assert (N49 : 2 ^ n <= 2 ^ 49) by (apply Z.pow_le_mono_r; lia).
  destruct (int_exact (2 ^ n - 1)) as (nb & En & Fn & Vn); [change (2 ^ 49) with 562949953421312 in N49; change (2 ^ 53) with 9007199254740992; lia|].
  unfold py_div. assert (Nz2 : neqb (nofZ (2 ^ n - 1)) nzero = false).
  { rewrite En. cbn [neqb Fops]. change (@nzero Fops) with (S754_zero false). destruct nb as [s|s| |s m e B]; try discriminate Fn; [|destruct s; reflexivity].
    exfalso. change (B2R (B754_zero s : bin)) with 0%R in Vn. assert (0 < IZR (2 ^ n - 1))%R by (apply IZR_lt; lia). lra. }
  rewrite Nz2. eexists. eexists. split; [reflexivity|lia].
Qed.

(** *** One value *)
Lemma encode_gene_double : forall gray g n stp v, fine g -> gene_params g = inr (n, stp) -> between g v ->
  (nltb v (glo g) || nltb (ghi g) v) = false /\
  exists q i c y, py_div (nsub v (glo g)) stp = inr q /\ nround q = Some i /\ pop_index_to_binary gray i n = inr c /\
    Z.of_nat (List.length c) = n /\ decode_gene gray g stp c = inr y /\ decoded_near g n v y.
Proof.
  intros gray g n stp v F G (Fv & Lv & Hv). split.
  { destruct F as ((Flo & Fhi & _) & _). apply orb_false_iff. cbn [nltb Fops]. split; apply ltb_val_false; auto. }
  destruct (fine_params g F) as (n' & stp' & G' & Hn). rewrite G in G'. injection G' as <- <-.
  pose proof F as (M & Fs & Ps & L1 & L2). pose proof M as (Flo & Fhi & Blo & Bhi & L).
  destruct (finite_bin _ Flo) as (lo & Elo & Flo'). destruct (finite_bin _ Fhi) as (hi & Ehi & Fhi'). destruct (finite_bin _ Fv) as (x & Ex & Fx).
  assert (Vlo : B2R lo = Q2R (f_val (glo g))) by (rewrite <- Elo; apply val_real). assert (Vhi : B2R hi = Q2R (f_val (ghi g))) by (rewrite <- Ehi; apply val_real).
  assert (Vx : B2R x = Q2R (f_val v)) by (rewrite <- Ex; apply val_real).
  pose proof (decode_index_double g n stp) as DI.
  assert (Es : stp = ndiv_raw (nabs (nsub (ghi g) (glo g))) (nofZ (2 ^ n - 1))).
  { unfold gene_params in G. destruct (py_div _ (gstep g)) as [e|q]; [discriminate G|]. destruct (ntrunc q) as [k|]; [|discriminate G].
    destruct (real_number_spec k) as (m & Em & _). rewrite Em in G. destruct (py_div _ (nofZ (2 ^ m - 1))) as [e|st] eqn:Ed; [discriminate G|]. injection G as -> ->.
    unfold py_div in Ed. destruct (neqb _ _) in Ed; [discriminate Ed|]. congruence. }
  assert (N1 : 2 <= 2 ^ n) by (change 2 with (2 ^ 1) at 1; apply Z.pow_le_mono_r; lia). assert (N49 : 2 ^ n <= 2 ^ 49) by (apply Z.pow_le_mono_r; lia).
  assert (B49 : (IZR (2 ^ n - 1) <= bpow radix2 49)%R) by (rewrite <- (IZR_Zpower radix2 49) by lia; apply IZR_le; change (radix2 ^ 49)%Z with (2 ^ 49); lia).
  assert (I1 : (1 <= IZR (2 ^ n - 1))%R) by (apply IZR_le; lia).
  destruct (int_exact (2 ^ n - 1)) as (nb & En & Fn & Vn); [change (2 ^ 49) with 562949953421312 in N49; change (2 ^ 53) with 9007199254740992; lia|].
  apply Qle_Rle in Blo, Bhi, Ps, L1, Lv, Hv. rewrite Q2R_abs, Q2R_pow2 in Blo, Bhi by lia. rewrite Q2R_ipow2 in Ps by lia. change (- (900))%Z with (-900)%Z in Ps. rewrite Q2R_minus in L1. rewrite <- Vlo, <- Vhi, <- Vx in *.
  assert (PD : (bpow radix2 (-900) <= B2R hi - B2R lo)%R) by lra.
  destruct (index_real lo hi x nb _ Flo' Fhi' Fx Fn Blo Bhi PD Vn (conj I1 B49) (conj Lv Hv)) as (FS & S0 & FQ & Hq & Eq).
  assert (Es' : stp = B2SF (Bdiv mode_NE (Babs (Bminus mode_NE hi lo)) nb)) by (rewrite Es, En; cbn [ndiv_raw nabs nsub Fops]; rewrite <- Elo, <- Ehi, sub_same, abs_same, div_same; reflexivity).
  set (stb := Bdiv mode_NE (Babs (Bminus mode_NE hi lo)) nb) in *. set (q := Bdiv mode_NE (Bminus mode_NE x lo) stb) in *.
  destruct (round_real q FQ) as (i & Ei & Hi). apply Rabs_le_inv in Hi.
  assert (Ri : 0 <= i <= 2 ^ n - 1).
  { split; [assert (-1 < i); [apply lt_IZR; lra|lia]|]. assert (i < 2 ^ n - 1 + 1); [apply lt_IZR; rewrite plus_IZR; lra|lia]. }
  destruct (code_ok gray i n) as (c & Ec & Lc & Dc); [lia|lia|].
  destruct (DI i M G) as (Fy & Ly & Ey); [lia|lia|].
  exists (B2SF q), i, c, (nadd (glo g) (nmul (nofZ i) stp)). split; [|split; [|split; [|split; [|split; [apply Dc|]]]]]; auto.
  - unfold py_div. rewrite Es'. cbn [neqb ndiv_raw nsub Fops]. change (@nzero Fops) with (S754_zero false). replace (SFeqb _ _) with false.
    + rewrite <- Elo, <- Ex, sub_same, div_same. reflexivity.
    + symmetry. destruct stb as [s|s| |s m e B]; try discriminate FS; [|destruct s; reflexivity]. exfalso. change (B2R (B754_zero s : bin)) with 0%R in S0. lra.
  - split; [split; auto; split; auto; exists i; auto|]. set (y := nadd _ _) in *.
    apply Qle_Rle in Ey. rewrite Q2R_abs in Ey. apply Rle_Qle. rewrite Q2R_abs.
    assert (NZ : ~ (inject_Z (2 ^ n - 1) == 0)%Q) by (intros C; unfold Qeq in C; cbn [Qnum Qden inject_Z] in C; lia).
    assert (Gi : Q2R (grid (f_val (glo g), f_val (ghi g), 0%Q) n i) = (B2R lo + IZR i * ((B2R hi - B2R lo) / IZR (2 ^ n - 1)))%R).
    { unfold grid, Qdiv. rewrite Q2R_plus, !Q2R_mult, Q2R_minus, (Q2R_inv _ NZ), !Q2R_Z, <- Vlo, <- Vhi. reflexivity. }
    assert (Sp : Q2R (spacing (f_val (glo g), f_val (ghi g), 0%Q) n / 2 + (2 # 1) * slack g) = ((B2R hi - B2R lo) / IZR (2 ^ n - 1) / 2 + 2 * Q2R (slack g))%R).
    { unfold spacing, Qdiv. rewrite Q2R_plus, !Q2R_mult, Q2R_minus, (Q2R_inv _ NZ), Q2R_Z, <- Vlo, <- Vhi. replace (Q2R (/ 2)) with (/ 2)%R by (unfold Q2R; cbn; lra).
      replace (Q2R (2 # 1)) with 2%R by (unfold Q2R; cbn; lra). reflexivity. }
    assert (Sl : (bpow radix2 (-49) * (B2R hi - B2R lo) <= Q2R (slack g))%R).
    { unfold slack. rewrite Q2R_mult, !Q2R_plus, !Q2R_abs, !Q2R_ipow2, <- Vlo, <- Vhi by lia. apply Rmult_le_compat_l; [apply bpow_ge_0|].
      pose proof (bpow_gt_0 radix2 (-900)). pose proof (Rle_abs (B2R hi)). pose proof (Rle_abs (- B2R lo)). rewrite Rabs_Ropp in *. change (-(900))%Z with (-900)%Z. lra. }
    rewrite Sp. rewrite Q2R_minus, Gi in Ey. rewrite Q2R_minus, <- Vx. set (l := B2R lo) in *. set (h := B2R hi) in *. set (w := B2R x) in *. set (N := IZR (2 ^ n - 1)) in *.
    set (D := (h - l)%R) in *. assert (P9 : (0 < bpow radix2 (-900))%R) by apply bpow_gt_0. assert (D0 : (0 < D)%R) by lra.
    set (e := bpow radix2 (-49)) in *. set (t := ((w - l) / D * N)%R) in *.
    assert (Ei2 : (Rabs (IZR i - t) <= / 2 + e * N)%R). { apply Rabs_le. apply Rabs_le_inv in Eq. lra. }
    assert (K : (Rabs (l + IZR i * (D / N) - w) <= D / N / 2 + e * D)%R).
    { replace (l + IZR i * (D / N) - w)%R with ((IZR i - t) * (D / N))%R by (unfold t; field; lra).
      assert (DN : (0 < D / N)%R) by (apply Rdiv_lt_0_compat; lra). rewrite Rabs_mult, (Rabs_pos_eq (D / N)) by lra.
      apply Rle_trans with ((/ 2 + e * N) * (D / N))%R; [apply Rmult_le_compat_r; lra|]. right. field. lra. }
    apply Rabs_le_inv in K, Ey. apply Rabs_le. lra.
Qed.

(** *** Input individuals *)
Lemma fine_gens : forall gens, Forall fine gens -> exists bp, get_gens_params gens = inr bp /\ Forall (fun n => 1 <= n <= 49) (num_bits bp) /\
  List.length (num_bits bp) = List.length gens.
Proof.
  intros gens H. assert (K : exists ps, Forall2 (fun g p => gene_params g = inr p) gens ps /\ Forall (fun p => 1 <= fst p <= 49) ps).
  { induction H as [|g gens Hg H (ps & F & B)]; [exists []; split; constructor|]. destruct (fine_params g Hg) as (n & stp & G & Hn). exists ((n, stp) :: ps). split; constructor; auto. }
  destruct K as (ps & F & B). exists (params_of ps). split; [apply get_gens_params_ok; auto|]. unfold params_of. cbn [num_bits]. split.
  - clear - B. induction B; cbn [map]; constructor; auto.
  - rewrite map_length. symmetry. eapply Forall2_length; eauto.
Qed.
Lemma encode_chunks_double : forall gray gens ps xs, Forall fine gens -> Forall2 (fun g p => gene_params g = inr p) gens ps -> Forall2 between gens xs ->
  exists cs ys, encode_loop gray gens (map snd ps) (map fst ps) xs = inr (concat cs) /\ Forall2 (fun n c => Z.of_nat (List.length c) = n) (map fst ps) cs /\
    decode_chunks gray gens (map snd ps) cs = inr ys /\ Forall4 decoded_near gens (map fst ps) xs ys.
Proof.
  intros gray gens ps xs H P. revert xs. induction P as [|g [n stp] gens ps G P IH]; intros xs B; inversion B as [|? x ? xs' Bx B']; subst.
  - exists [], []. repeat split; constructor.
  - inversion H; subst. destruct (IH H3 xs' B') as (cs & ys & E & C & D & F). destruct (encode_gene_double gray g n stp x H2 G Bx) as (Eb & q & i & c & y & Eq & Er & Ec & Lc & Dy & Ny).
    exists (c :: cs), (y :: ys). cbn [map fst snd encode_loop decode_chunks concat]. rewrite Eb, Eq, Er, Ec, E, Dy, D. repeat split; constructor; auto.
Qed.
(** C04 in doubles: a vector between the bounds is encoded, with the right number of bits, and
    decodes to a vector whose coordinates are within half a grid step, up to rounding. *)
Theorem C04_double : forall gray gens xs, Forall fine gens -> Forall2 between gens xs ->
  exists bp bs ys, get_gens_params gens = inr bp /\ Forall (fun n => 1 <= n <= 49) (num_bits bp) /\
    float_individ_to_binary gray gens bp xs = inr bs /\ Z.of_nat (List.length bs) = zsum (num_bits bp) /\
    binary_individ_to_float gray gens bp bs = inr ys /\ Forall4 decoded_near gens (num_bits bp) xs ys.
Proof.
  intros gray gens xs H B. destruct (fine_gens gens H) as (bp & P & Hn & Ln). destruct (get_gens_params_inv gens bp P) as (ps & G & ->).
  destruct (encode_chunks_double gray gens ps xs H G B) as (cs & ys & E & C & D & F). exists (params_of ps), (concat cs), ys. unfold params_of in *. cbn [num_bits] in *.
  split; auto. split; auto. split.
  - rewrite float_individ_len by (apply Forall2_length in B; auto). exact E.
  - split; [rewrite (concat_length_sum _ _ C), zsum_fold; lia|]. split; auto. unfold binary_individ_to_float. cbn [real_step idx_bits]. rewrite <- D.
    rewrite <- (app_nil_r (concat cs)). apply (decode_loop_chunks gray gens (map snd ps) (map fst ps) cs [] []); auto; rewrite ?map_length in *; auto.
Qed.
(** Outside the bounds, infinite or NaN: an exception. *)
Lemma encode_gene_bad : forall g v, moderate g -> double v -> ~ between g v -> v <> S754_nan -> (nltb v (glo g) || nltb (ghi g) v) = true.
Proof.
  intros g v (Flo & Fhi & _ & _ & _) Dv N Nn. destruct v as [s|s| |s m e] eqn:E; try congruence.
  - apply orb_true_iff. destruct (SFltb (S754_zero s) (glo g)) eqn:E1; [auto|]. destruct (SFltb (ghi g) (S754_zero s)) eqn:E2; [auto|]. exfalso. apply N.
    assert (Fv : finite (S754_zero s)) by (split; auto). apply ltb_val_false in E1, E2; auto. repeat split; auto.
  - apply orb_true_iff. destruct Flo as [_ Flo], Fhi as [_ Fhi]. destruct s; [left; destruct (glo g) as [a|a| |a m e]; try discriminate Flo; try (destruct a); reflexivity|right].
    destruct (ghi g) as [a|a| |a m e]; try discriminate Fhi; try (destruct a); reflexivity.
  - apply orb_true_iff. destruct (SFltb (S754_finite s m e) (glo g)) eqn:E1; [auto|]. destruct (SFltb (ghi g) (S754_finite s m e)) eqn:E2; [auto|]. exfalso. apply N.
    assert (Fv : finite (S754_finite s m e)) by (split; auto). apply ltb_val_false in E1, E2; auto. repeat split; auto; apply Fv.
Qed.
Lemma encode_chunks_bad : forall gray gens ps xs, Forall fine gens -> Forall2 (fun g p => gene_params g = inr p) gens ps -> List.length xs = List.length gens ->
  Forall double xs -> ~ Forall2 between gens xs -> exists e, encode_loop gray gens (map snd ps) (map fst ps) xs = inl e /\
    ((exists tag, e = PyException tag) \/ e = ValueError /\ In S754_nan xs).
Proof.
  intros gray gens ps xs H P. revert xs. induction P as [|g [n stp] gens ps G P IH]; intros xs L Dx N.
  - destruct xs; [|discriminate L]. elim N. constructor.
  - destruct xs as [|x xs]; [discriminate L|]. injection L as L. inversion H; subst. inversion Dx; subst. cbn [map fst snd encode_loop].
    assert (Cs : between g x \/ ~ between g x).
    { unfold between, finite. destruct (Qlt_le_dec (f_val x) (f_val (glo g))) as [C|C]; [right; intros (_ & C' & _); apply (Qlt_not_le _ _ C C')|].
      destruct (Qlt_le_dec (f_val (ghi g)) (f_val x)) as [C1|C1]; [right; intros (_ & _ & C'); apply (Qlt_not_le _ _ C1 C')|].
      destruct (is_finite_SF x) eqn:Ef; [left; repeat split; auto|right; intros ((_ & C') & _); discriminate]. }
    destruct Cs as [Bx|Bx].
    + destruct (encode_gene_double gray g n stp x H2 G Bx) as (Eb & q & i & c & y & Eq & Er & Ec & Lc & Dy & Ny).
      destruct (IH H3 xs L H5) as (e & E & Ee); [intros C; apply N; constructor; auto|]. exists e. rewrite Eb, Eq, Er, Ec, E. split; auto. destruct Ee as [Ee|[Ee I]]; auto. right. split; auto. right. auto.
    + assert (D : x = S754_nan \/ x <> S754_nan) by (destruct x; auto; right; discriminate). destruct D as [->|Nx].
      * destruct (@nltb Fops S754_nan (glo g) || @nltb Fops (ghi g) S754_nan) eqn:Eb; [eexists; split; [reflexivity|left; eauto]|].
        exists ValueError. split; [|right; split; [auto|left; auto]]. unfold py_div.
        assert (Es : neqb stp nzero = false).
        { destruct (encode_gene_double gray g n stp (glo g) H2 G) as (_ & q & i & c & y & Eq & _).
          - pose proof H2 as ((F1 & F2 & _ & _ & L') & _). split; auto. split; [apply Qle_refl|exact L'].
          - unfold py_div in Eq. destruct (neqb stp nzero); [discriminate Eq|reflexivity]. }
        rewrite Es. cbn [nround ndiv_raw nsub Fops]. destruct (glo g); reflexivity.
      * rewrite (encode_gene_bad g x); auto; [|apply H2]. eexists. split; [reflexivity|left; eauto].
Qed.
(** C06 in doubles: an input individual is rejected exactly when its length or a coordinate is
    wrong, by one of the checks; a NaN passes the range check, and its conversion to an integer
    raises ValueError. *)
Theorem C06_double : forall gray gens bp xs, Forall fine gens -> get_gens_params gens = inr bp -> Forall double xs ->
  (Forall2 between gens xs -> exists bs, float_individ_to_binary gray gens bp xs = inr bs /\ Z.of_nat (List.length bs) = zsum (num_bits bp)) /\
  (~ Forall2 between gens xs -> exists e, float_individ_to_binary gray gens bp xs = inl e /\ ((exists tag, e = PyException tag) \/ e = ValueError /\ In S754_nan xs)).
Proof.
  intros gray gens bp xs H P Dx. split.
  - intros B. destruct (C04_double gray gens xs H B) as (bp' & bs & ys & P' & _ & E & L & _). rewrite P in P'. injection P' as <-. eauto.
  - intros N. destruct (Nat.eq_dec (List.length xs) (List.length gens)) as [L|L].
    + destruct (get_gens_params_inv gens bp P) as (ps & G & ->). rewrite float_individ_len by auto. unfold params_of. cbn [real_step num_bits].
      destruct (encode_chunks_bad gray gens ps xs H G L Dx N) as (e & E & Ee). exists e. auto.
    + rewrite float_individ_len_ne by auto. eexists. split; [reflexivity|left; eauto].
Qed.

Ltac is_fine := split; [is_moderate|split; [split; vm_compute; reflexivity|split; [|split]; apply Qle_bool_imp_le; vm_compute; reflexivity]].
Ltac is_between := split; [split; vm_compute; reflexivity|split; apply Qle_bool_imp_le; vm_compute; reflexivity].
(** C08 in doubles, bounds and steps that are not finite.  The first such gene after
    usable ones decides: OverflowError when the range is infinite (bounds infinite, but not the
    same infinity, and a finite step), ValueError when a bound or the step is NaN or both bounds
    are the same infinity; a zero step raises ZeroDivisionError before that. *)
Definition infinite (x : spec_float) : Prop := exists s, x = S754_infinity s.
Definition is_zero (x : spec_float) : Prop := exists s, x = S754_zero s.
Definition endless (g : @bgene Fops) : Prop :=
  finite (gstep g) /\ ~ is_zero (gstep g) /\ (infinite (glo g) /\ finite (ghi g) \/ finite (glo g) /\ infinite (ghi g) \/ exists s, glo g = S754_infinity s /\ ghi g = S754_infinity (negb s)).
Definition undefined (g : @bgene Fops) : Prop :=
  gstep g = S754_nan \/ ~ is_zero (gstep g) /\ (glo g = S754_nan \/ ghi g = S754_nan \/ exists s, glo g = S754_infinity s /\ ghi g = S754_infinity s).
Lemma params_prefix : forall pre bp0 bp g post e, gen_params_loop bp0 pre = inr bp -> (forall b, gen_params_step b g = inl e) -> gen_params_loop bp0 (pre ++ g :: post) = inl e.
Proof.
  induction pre as [|h pre IH]; intros bp0 bp g post e P H; cbn [app gen_params_loop] in *; [rewrite H; reflexivity|].
  destruct (gen_params_step bp0 h) as [e'|b]; [discriminate|]. eapply IH; eauto.
Qed.
Theorem C08_double : forall pre g post bp, get_gens_params pre = inr bp ->
  (is_zero (gstep g) -> get_gens_params (pre ++ g :: post) = inl ZeroDivisionError) /\
  (endless g -> get_gens_params (pre ++ g :: post) = inl OverflowError) /\
  (undefined g -> get_gens_params (pre ++ g :: post) = inl ValueError).
Proof.
  intros pre g post bp P. split; [|split]; intros H; eapply params_prefix; eauto; intros b; unfold gen_params_step, py_div; destruct g as [[lo hi] stp]; unfold endless, undefined in H; unfold glo, ghi, gstep in *; cbn [fst snd] in *.
  - destruct H as (s & ->). reflexivity.
  - destruct H as ([_ Fs] & Ns & H). destruct stp as [s|s| |s m e]; try discriminate Fs; [destruct Ns; exists s; reflexivity|].
    destruct H as [[(t & ->) [_ Fh]]|[[[_ Fl] (t & ->)]|(t & -> & ->)]].
    + destruct hi as [s'|s'| |s' m' e']; try discriminate Fh; destruct s, t; try reflexivity; try (destruct s'; reflexivity).
    + destruct lo as [s'|s'| |s' m' e']; try discriminate Fl; destruct s, t; try reflexivity; try (destruct s'; reflexivity).
    + destruct t, s; reflexivity.
  - destruct H as [->|(Ns & H)].
    + cbn [neqb Fops]. cbn [SFeqb SFcompare nzero nofZ Fops]. destruct (@nabs Fops _); reflexivity.
    + assert (Nz : @neqb Fops stp nzero = false) by (destruct stp as [s|s| |s m e]; [destruct Ns; exists s; reflexivity|destruct s; reflexivity|reflexivity|destruct s; reflexivity]).
      rewrite Nz. destruct H as [->|[->|(t & -> & ->)]].
      * replace (@nsub Fops hi S754_nan) with S754_nan by (destruct hi; reflexivity). destruct stp; reflexivity.
      * replace (@nsub Fops S754_nan lo) with S754_nan by (destruct lo; reflexivity). destruct stp; reflexivity.
      * replace (@nsub Fops (S754_infinity t) (S754_infinity t)) with S754_nan by (destruct t; reflexivity). destruct stp; reflexivity.
Qed.
Example C08_double_meets : endless (nofZ 0, S754_infinity false, nofZ 1) /\ endless (S754_infinity true, S754_infinity false, nofZ 1) /\ undefined (nofZ 0, nofZ 1, S754_nan) /\
  undefined (S754_infinity true, S754_infinity true, nofZ 1) /\ exists bp, get_gens_params two_genes = inr bp.
Proof.
  split; [split; [split; vm_compute; reflexivity|split; [intros (s & E); vm_compute in E; discriminate|right; left; split; [split; vm_compute; reflexivity|exists false; reflexivity]]]|].
  split; [split; [split; vm_compute; reflexivity|split; [intros (s & E); vm_compute in E; discriminate|right; right; exists true; split; reflexivity]]|].
  split; [left; reflexivity|]. split; [right; split; [intros (s & E); vm_compute in E; discriminate|right; right; exists true; split; reflexivity]|].
  destruct (fine_gens two_genes) as (bp & P & _); [|exists bp; exact P]. constructor; [is_fine|constructor; [is_fine|constructor]].
Qed.

(** Cases: the genes (-0.2, 0.1, 0.1) and (0, 10, 1/3); 0.0 and 3.7 encode to 10 01011 (Gray: 11 01110)
    and decode to 0.0 within 0.05 and 3.548... *)
Example C04_double_meets : Forall fine two_genes /\ Forall2 between two_genes [nofZ 0; fq 37 10].
Proof. split; [constructor; [is_fine|constructor; [is_fine|constructor]]|constructor; [is_between|constructor; [is_between|constructor]]]. Qed.
Definition code_of (gray : bool) (xs : list spec_float) : option (list bool) :=
  match float_individ_to_binary gray two_genes (params_or_none two_genes) xs with inr bs => Some bs | inl _ => None end.
Example C04_double_case : code_of false [nofZ 0; fq 37 10] = Some [true; false; false; true; false; true; true] /\
  code_of true [nofZ 0; fq 37 10] = Some [true; true; false; true; true; true; false].
Proof. split; vm_compute; reflexivity. Qed.
(** The upper bound itself is accepted, the next double is not. *)
Example C06_double_case : code_of false [nofZ 0; nofZ 10] <> None /\ code_of false [nofZ 0; S754_finite false 5629499534213121 (-49)] = None /\
  code_of false [nofZ 0; S754_nan] = None /\ code_of false [S754_infinity true; nofZ 1] = None.
Proof. split; [vm_compute; discriminate|]. repeat split; vm_compute; reflexivity. Qed.

Print Assumptions C04_double.
Print Assumptions C06_double.
Print Assumptions C08_double.
