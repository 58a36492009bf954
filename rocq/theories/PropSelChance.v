(** Statement C74: the probability with which each member is selected; statement C75: the
    loops for the second parent end with probability one. *)
From Coq Require Import ZArith QArith Qround Qabs List Bool Lia Lqa Permutation.
From Verif Require Import Spec Num State Binary Population GaData Selection
  ListLemmas Rnd Exec Laws SelectionProofs VegaProofs BalancedProofs Chance ChanceProofs SelChanceProofs PropProportional Demo.
Import ListNotations.
Open Scope Z_scope.

Section C74.
  Context {NO : NumOps}.
  Definition nq (n : nat) : Q := inject_Z (Z.of_nat n).

  Lemma keys_of_ok : forall (ok : num -> Prop) s idx l ks, keys_of s idx l ks -> Forall ok ks -> keys_ok ok s idx l.
  Proof.
    intros ok s idx l ks K O r Hr. apply In_nth_error in Hr. destruct Hr as [p Hp]. destruct (keys_of_nth _ _ _ _ _ _ K Hp) as (k & Hk & Kk).
    exists k. split; auto. rewrite Forall_forall in O. apply O. eapply nth_error_In; eauto.
  Qed.
  (** An event of the winner that says the same of all who took part. *)
  Lemma tournament_event : forall (ok : num -> Prop), NumOrder NO ok -> forall s idx t l ks (P : num -> bool),
    keys_of s idx l ks -> Forall ok ks -> 1 <= t <= Z.of_nat (length l) ->
    (forall x y, ok x -> ok y -> nltb y x = false -> P y = true -> P x = true) ->
    chance (run_tournament idx t l) s (returns (key_has P s idx)) (nq (falling (length (filter P ks)) (Z.to_nat t)) / nq (falling (length l) (Z.to_nat t))) /\
    length (filter (fun tr => key_has P s idx (winner s idx l tr)) (arrangements (Z.to_nat t) (zrange 0 (Z.of_nat (length l))))) = falling (length (filter P ks)) (Z.to_nat t).
  Proof.
    intros ok NL s idx t l ks P K O Ht Mono. pose proof (keys_of_ok ok s idx l ks K O) as Kok.
    set (at_ := fun p => match nth_error l (Z.to_nat p) with Some r => key_has P s idx r | None => false end).
    assert (C : length (filter (fun tr => key_has P s idx (winner s idx l tr)) (arrangements (Z.to_nat t) (zrange 0 (Z.of_nat (length l))))) = falling (length (filter P ks)) (Z.to_nat t)).
    { rewrite <- (positions_count P s idx l ks K), <- arrangements_filter. f_equal. apply filter_ext_in. intros tr Htr.
      apply arrangements_in in Htr. destruct Htr as [L I].
      assert (Ne : tr <> []) by (destruct tr; [cbn in L; lia|discriminate]).
      assert (Rg : forall p, In p tr -> 0 <= p < Z.of_nat (length l)) by (intros p Hp; apply I, in_zrange in Hp; lia).
      destruct (winner_ok ok NL s idx l tr Kok Ne Rg) as (_ & (p0 & Hp0 & E0) & Mx).
      destruct (Kok _ (nth_error_In _ _ E0)) as (y & Ky & Oy). unfold key_has at 1. rewrite Ky.
      fold at_. destruct (forallb at_ tr) eqn:Ef.
      - rewrite forallb_forall in Ef. specialize (Ef p0 Hp0). unfold at_ in Ef. rewrite E0 in Ef. unfold key_has in Ef. rewrite Ky in Ef. exact Ef.
      - destruct (P y) eqn:Ep; auto. exfalso. assert (X : forallb at_ tr = true); [|congruence]. apply forallb_forall. intros p Hp. unfold at_.
        destruct (nth_error l (Z.to_nat p)) as [r|] eqn:Er; [|apply nth_error_None in Er; specialize (Rg p Hp); lia].
        destruct (Kok r (nth_error_In _ _ Er)) as (x & Kx & Ox). unfold key_has. rewrite Kx. apply (Mono x y); auto. eapply Mx; eauto. }
    split; auto. eapply averages_eq; [|apply (tournament_mean ok NL); auto].
    cbn [returns]. rewrite (mean_indicator (fun tr => key_has P s idx (winner s idx l tr))), C, arrangements_count, zrange_length, Z.sub_0_r, Nat2Z.id. reflexivity.
  Qed.
  (** Tournament of t out of n: the winner's key is at most x with probability
      c (c-1) ... (c-t+1) / n (n-1) ... (n-t+1), where c members have a key at most x. *)
  Theorem C74_tournament_key : forall (ok : num -> Prop), NumOrder NO ok -> forall s idx t l ks x,
    keys_of s idx l ks -> Forall ok ks -> ok x -> 1 <= t <= Z.of_nat (length l) ->
    chance (run_tournament idx t l) s (returns (key_has (fun y => negb (nltb x y)) s idx))
      (nq (falling (length (filter (fun y => negb (nltb x y)) ks)) (Z.to_nat t)) / nq (falling (length l) (Z.to_nat t))).
  Proof.
    intros ok NL s idx t l ks x K O Ox Ht. apply (tournament_event ok NL s idx t l ks _ K O Ht). intros a b Oa Ob H1 H2.
    apply negb_true_iff in H2. apply negb_true_iff. apply (no_negtrans _ _ NL) with b; auto.
  Qed.
  (** With distinct members and keys: a member better than b others wins with probability
      t b (b-1) ... (b-t+2) / n (n-1) ... (n-t+1). *)
  Theorem C74_tournament_member : forall (ok : num -> Prop), NumOrder NO ok -> forall s idx t l ks q r x,
    keys_of s idx l ks -> Forall ok ks -> 1 <= t <= Z.of_nat (length l) ->
    (forall i j a b, i <> j -> nth_error ks i = Some a -> nth_error ks j = Some b -> neqb a b = false) ->
    nth_error l q = Some r -> nth_error ks q = Some x ->
    chance (run_tournament idx t l) s (returns (Nat.eqb r))
      (nq (Z.to_nat t * falling (length (filter (fun y => nltb y x) ks)) (Z.to_nat t - 1)) / nq (falling (length l) (Z.to_nat t))).
  Proof.
    intros ok NL s idx t l ks q r x K O Ht D Hr Hx. pose proof (keys_of_ok ok s idx l ks K O) as Kok.
    assert (Ox : ok x) by (rewrite Forall_forall in O; apply O; eapply nth_error_In; eauto).
    destruct (tournament_event ok NL s idx t l ks (fun y => negb (nltb x y)) K O Ht) as [_ C1].
    { intros a b Oa Ob H1 H2. apply negb_true_iff in H2. apply negb_true_iff. apply (no_negtrans _ _ NL) with b; auto. }
    destruct (tournament_event ok NL s idx t l ks (fun y => nltb y x) K O Ht) as [_ C2].
    { intros a b Oa Ob H1 H2. destruct (nltb a x) eqn:E; auto. rewrite (no_negtrans _ _ NL b a x) in H2; auto. }
    assert (Kr : key_at idx (heap s r) = Some x). { destruct (keys_of_nth _ _ _ _ _ _ K Hr) as (k & Hk & Kk). congruence. }
    set (AR := arrangements (Z.to_nat t) (zrange 0 (Z.of_nat (length l)))) in *.
    assert (Sp : length (filter (fun tr => key_has (fun y => negb (nltb x y)) s idx (winner s idx l tr)) AR) =
      (length (filter (fun tr => Nat.eqb r (winner s idx l tr)) AR) + length (filter (fun tr => key_has (fun y => nltb y x) s idx (winner s idx l tr)) AR))%nat).
    { assert (W : forall tr, In tr AR -> exists i y, nth_error l i = Some (winner s idx l tr) /\ nth_error ks i = Some y /\ key_at idx (heap s (winner s idx l tr)) = Some y /\ ok y).
      { intros tr Htr. apply arrangements_in in Htr. destruct Htr as [L I].
        assert (Ne : tr <> []) by (destruct tr; [cbn in L; lia|discriminate]).
        assert (Rg : forall p, In p tr -> 0 <= p < Z.of_nat (length l)) by (intros p Hp; apply I, in_zrange in Hp; lia).
        destruct (winner_ok ok NL s idx l tr Kok Ne Rg) as (_ & (p0 & Hp0 & E0) & _). destruct (keys_of_nth _ _ _ _ _ _ K E0) as (k & Hk & Kk).
        exists (Z.to_nat p0), k. repeat split; auto. rewrite Forall_forall in O. apply O. eapply nth_error_In; eauto. }
      apply filter_split.
      - intros tr Htr. destruct (W tr Htr) as (i & y & Hi & Hy & Ky & Oy). unfold key_has. rewrite Ky, negb_true_iff, Nat.eqb_eq. split.
        + intros H. destruct (nltb y x) eqn:E; auto. left. destruct (Nat.eq_dec i q) as [->|N]; [congruence|].
          assert (X : neqb y x = true) by (apply (no_eq _ _ NL); auto). rewrite (D i q y x N Hy Hx) in X. discriminate.
        + intros [H|H]; [rewrite <- H, Kr in Ky; inversion Ky; subst; apply (no_irrefl _ _ NL); auto|]. apply (lt_asym NL); auto.
      - intros tr Htr H1 H2. destruct (W tr Htr) as (i & y & Hi & Hy & Ky & Oy). unfold key_has in H2. rewrite Ky in H2. apply Nat.eqb_eq in H1. rewrite <- H1, Kr in Ky.
        inversion Ky; subst. rewrite (no_irrefl _ _ NL) in H2 by auto. discriminate. }
    assert (Cn : length (filter (fun y => negb (nltb x y)) ks) = S (length (filter (fun y => nltb y x) ks))).
    { (* the member itself is the only one with an equal key *)
      assert (G : forall ks' q', nth_error ks' q' = Some x -> Forall ok ks' -> (forall i j a b, i <> j -> nth_error ks' i = Some a -> nth_error ks' j = Some b -> neqb a b = false) ->
        length (filter (fun y => negb (nltb x y)) ks') = S (length (filter (fun y => nltb y x) ks'))).
      { assert (G0 : forall ks', Forall ok ks' -> (forall y, In y ks' -> neqb x y = false) -> length (filter (fun y => negb (nltb x y)) ks') = length (filter (fun y => nltb y x) ks')).
        { intros ks' F Hn. f_equal. apply filter_ext_in. intros y Hy. rewrite Forall_forall in F. specialize (F y Hy). specialize (Hn y Hy).
          destruct (nltb x y) eqn:E1; [rewrite (lt_asym NL) by auto; reflexivity|]. destruct (nltb y x) eqn:E2; auto.
          assert (X : neqb x y = true) by (apply (no_eq _ _ NL); auto). congruence. }
        intros ks'. induction ks' as [|y ks' IH]; intros q' Hq F Dd; [destruct q'; discriminate|]. inversion F; subst. destruct q' as [|q']; cbn [nth_error] in Hq.
        - inversion Hq; subst y. cbn [filter]. rewrite (no_irrefl _ _ NL) by auto. cbn [negb length]. f_equal. apply G0; auto.
          intros y Hy. apply In_nth_error in Hy. destruct Hy as [j Hj]. apply (Dd 0%nat (S j) x y); auto.
        - assert (N : neqb y x = false) by (apply (Dd 0%nat (S q') y x); auto).
          assert (IH' := IH q' Hq H2 (fun i j a b Hij Ha Hb => Dd (S i) (S j) a b ltac:(lia) Ha Hb)). cbn [filter].
          destruct (nltb x y) eqn:E1; [rewrite (lt_asym NL) by auto; exact IH'|]. destruct (nltb y x) eqn:E2; [cbn [negb length]; lia|].
          assert (X : neqb y x = true) by (apply (no_eq _ _ NL); auto). congruence. }
      apply (G ks q); auto. }
    set (b := length (filter (fun y => nltb y x) ks)) in *. rewrite Cn in C1.
    eapply averages_eq; [|apply (tournament_mean ok NL); auto].
    cbn [returns]. fold AR. rewrite (mean_indicator (fun tr => Nat.eqb r (winner s idx l tr)) AR). unfold AR at 2. rewrite arrangements_count, zrange_length, Z.sub_0_r, Nat2Z.id.
    assert (E : length (filter (fun tr => Nat.eqb r (winner s idx l tr)) AR) = (Z.to_nat t * falling b (Z.to_nat t - 1))%nat).
    { destruct (Z.to_nat t) as [|k] eqn:Et; [lia|]. rewrite falling_step in C1. replace (S k - 1)%nat with k by lia. lia. }
    rewrite E. reflexivity.
  Qed.
  (** The best member wins with probability t / n. *)
  Theorem C74_tournament_best : forall (ok : num -> Prop), NumOrder NO ok -> forall s idx t l ks q r x,
    keys_of s idx l ks -> Forall ok ks -> 1 <= t <= Z.of_nat (length l) ->
    (forall i j a b, i <> j -> nth_error ks i = Some a -> nth_error ks j = Some b -> neqb a b = false) ->
    nth_error l q = Some r -> nth_error ks q = Some x -> (forall y, In y ks -> nltb x y = false) ->
    chance (run_tournament idx t l) s (returns (Nat.eqb r)) (inject_Z t / nq (length l)).
  Proof.
    intros ok NL s idx t l ks q r x K O Ht D Hr Hx Best.
    eapply averages_eq; [|apply (C74_tournament_member ok NL s idx t l ks q r x); eauto].
    assert (Ox : ok x) by (rewrite Forall_forall in O; apply O; eapply nth_error_In; eauto).
    assert (Ll : length l = length ks) by (eapply Forall2_length; exact K).
    assert (Cb : length (filter (fun y => nltb y x) ks) = (length l - 1)%nat).
    { rewrite Ll. apply nth_error_split in Hx. destruct Hx as (k1 & k2 & -> & L1). rewrite filter_app, !app_length. cbn [filter length].
      rewrite (no_irrefl _ _ NL) by auto.
      assert (A : forall ks', incl ks' (k1 ++ x :: k2) -> (forall y, In y ks' -> neqb y x = false) -> length (filter (fun y => nltb y x) ks') = length ks').
      { intros ks'. induction ks' as [|y ks' IH]; intros I N; auto. cbn [filter]. assert (Iy := I y (or_introl eq_refl)). rewrite Forall_forall in O. pose proof (O y Iy) as Oy.
        destruct (nltb y x) eqn:E; [cbn [length]; f_equal; apply IH; [intros z Hz; apply I; right; auto|intros; apply N; right; auto]|].
        assert (X : neqb y x = true) by (apply (no_eq _ _ NL); auto). rewrite N in X by (left; auto). discriminate. }
      rewrite (A k1), (A k2); [lia| | | |].
      - intros y Hy. apply in_or_app. right; right; auto.
      - intros y Hy. apply In_nth_error in Hy. destruct Hy as [j Hj]. apply (D (length k1 + S j)%nat (length k1) y x); [lia| |].
        + rewrite nth_error_app2 by lia. replace (length k1 + S j - length k1)%nat with (S j) by lia. exact Hj.
        + rewrite nth_error_app2, Nat.sub_diag by lia. reflexivity.
      - intros y Hy. apply in_or_app. left; auto.
      - intros y Hy. apply In_nth_error in Hy. destruct Hy as [j Hj]. assert (j < length k1)%nat by (apply nth_error_Some; congruence). apply (D j (length k1) y x); [lia| |].
        + rewrite nth_error_app1 by lia. exact Hj.
        + rewrite nth_error_app2, Nat.sub_diag by lia. reflexivity. }
    rewrite Cb. destruct (Z.to_nat t) as [|k] eqn:Et; [lia|]. replace (S k - 1)%nat with k by lia. cbn [falling].
    unfold nq. rewrite !Nat2Z.inj_mul, !inject_Z_mult. replace (Z.of_nat (S k)) with t by lia.
    assert (N1 : ~ (inject_Z (Z.of_nat (length l)) == 0)%Q) by (unfold Qeq; cbn; lia).
    assert (N2 : ~ (inject_Z (Z.of_nat (falling (length l - 1) k)) == 0)%Q) by (pose proof (falling_pos k (length l - 1) ltac:(lia)); unfold Qeq; cbn; lia).
    field. auto.
  Qed.
  (** A better member is at least as likely to win. *)
  Theorem C74_tournament_order : forall (ok : num -> Prop), NumOrder NO ok -> forall s idx t l ks q r x q' r' x' p p',
    keys_of s idx l ks -> Forall ok ks -> 1 <= t <= Z.of_nat (length l) ->
    (forall i j a b, i <> j -> nth_error ks i = Some a -> nth_error ks j = Some b -> neqb a b = false) ->
    nth_error l q = Some r -> nth_error ks q = Some x -> nth_error l q' = Some r' -> nth_error ks q' = Some x' -> nltb x x' = true ->
    chance (run_tournament idx t l) s (returns (Nat.eqb r)) p -> chance (run_tournament idx t l) s (returns (Nat.eqb r')) p' -> (p <= p')%Q.
  Proof.
    intros ok NL s idx t l ks q r x q' r' x' p p' K O Ht D Hr Hx Hr' Hx' Lt H H'.
    pose proof (C74_tournament_member ok NL s idx t l ks q r x K O Ht D Hr Hx) as E.
    pose proof (C74_tournament_member ok NL s idx t l ks q' r' x' K O Ht D Hr' Hx') as E'.
    rewrite (averages_unique _ _ _ _ _ (indicator_blind _) H E), (averages_unique _ _ _ _ _ (indicator_blind _) H' E').
    assert (Fp : (0 < falling (length l) (Z.to_nat t))%nat) by (apply falling_pos; lia).
    assert (Le : (length (filter (fun y => nltb y x) ks) <= length (filter (fun y => nltb y x') ks))%nat).
    { assert (Ox : ok x) by (rewrite Forall_forall in O; apply O; eapply nth_error_In; eauto).
      assert (Ox' : ok x') by (rewrite Forall_forall in O; apply O; eapply nth_error_In; eauto).
      clear - NL O Lt Ox Ox'. induction O as [|y ks Oy O IH]; auto. cbn [filter]. destruct (nltb y x) eqn:E.
      - rewrite (no_trans _ _ NL y x x') by auto. cbn [length]. lia.
      - destruct (nltb y x'); cbn [length]; lia. }
    apply Qmult_le_compat_r; [|apply Qinv_le_0_compat; unfold nq, Qle; cbn; lia]. unfold nq. rewrite <- Zle_Qle. apply Nat2Z.inj_le. apply Nat.mul_le_mono_l. apply falling_mono. exact Le.
  Qed.
End C74.

(** *** Proportional selection, exact arithmetic *)
Section C74Q.
  Local Existing Instance Qops.
  Lemma ceiling_le : forall (q : Q) (k : Z), (q <= inject_Z k)%Q <-> Qceiling q <= k.
  Proof.
    intros q k. split; intros H.
    - apply Qceiling_resp_le in H. rewrite Qceiling_Z in H. exact H.
    - eapply Qle_trans; [apply Qle_ceiling|]. rewrite <- Zle_Qle. exact H.
  Qed.
  Lemma ceiling_lt : forall (q : Q) (k : Z), (inject_Z k < q)%Q <-> k < Qceiling q.
  Proof.
    intros q k. split; intros H.
    - destruct (Z.lt_ge_cases k (Qceiling q)) as [|G]; auto. apply ceiling_le in G. apply Qle_not_lt in G. contradiction.
    - destruct (Qlt_le_dec (inject_Z k) q) as [|G]; auto. apply ceiling_le in G. lia.
  Qed.
  Lemma ceiling_close : forall q, (q <= inject_Z (Qceiling q))%Q /\ (inject_Z (Qceiling q) < q + 1)%Q.
  Proof.
    intros q. split; [apply Qle_ceiling|]. pose proof (Qceiling_lt q) as H. unfold Z.sub in H. rewrite inject_Z_plus in H. change (inject_Z (- (1))) with (- (1))%Q in H. lra.
  Qed.
  (** For positive weights, position i is drawn with the share of the 2^53 values of
      random() in its interval, which differs from w_i / W by less than 2^-53. *)
  Theorem C74_roulette : forall (ws scores : list Q) s i, ws <> [] -> Forall (fun w => 0 < w)%Q ws ->
    selection_scores (ws : list (@num Qops)) = inr scores -> (i < length ws)%nat ->
    let N := inject_Z (2 ^ 53) in
    let p := (inject_Z (Qceiling (cshare ws (S i) * N) - Qceiling (cshare ws i * N)) / N)%Q in
    chance (get_index (scores : list (@num Qops))) s (returns (Z.eqb (Z.of_nat i))) p /\ (Qabs (p - nth i ws 0 / qsum ws) < 1 / N)%Q.
  Proof.
    intros ws scores s i Ne F Es Hi N p. destruct (share_pos ws Ne F) as [Hs Hp].
    destruct (proj2 (C27_intervals ws Ne F) i Hi) as (St & Lo & Hi1).
    assert (Mo : (cshare ws i < cshare ws (S i))%Q) by (rewrite (cshare_step ws i) by auto; specialize (Hp i Hi); lra).
    set (a := cshare ws i) in *. set (b := cshare ws (S i)) in *.
    assert (Np : (0 < N)%Q) by reflexivity.
    split.
    - unfold get_index, random_.
      set (k := fun d : Z => index_for (scores : list (@num Qops)) (@nrand Qops d)).
      assert (A : averages s (fun o => indicator (returns (Z.eqb (Z.of_nat i)) o)) (bind (draw (2 ^ 53)) (fun d => lift (k d)))
        (mean (map (fun d => indicator ((Qceiling (a * N) <=? d) && (d <? Qceiling (b * N)))) (below (2 ^ 53))))).
      { apply averages_even; [apply even_draw; reflexivity|]. intros d Hd. rewrite below_in in Hd.
        assert (R0 : (0 <= Qmake d (2 ^ 53))%Q) by (unfold Qle; cbn [Qnum Qden]; lia).
        assert (R1 : (Qmake d (2 ^ 53) < 1)%Q) by (unfold Qlt; cbn [Qnum Qden]; lia).
        assert (RN : (Qmake d (2 ^ 53) * N == inject_Z d)%Q) by (unfold N, Qeq, inject_Z, Qmult; cbn [Qnum Qden]; change (Z.pos (2 ^ 53 * 1)) with (2 ^ 53); ring).
        destruct (roulette ws (Qmake d (2 ^ 53)) Hs Hp R0 R1) as (sc & j & E & Ei & Hj & A1 & B1). assert (sc = scores) by congruence. subst sc.
        eapply averages_eq; [|apply (averages_det s _ _ (Ok (Z.of_nat j) s))].
        2: { intros t. unfold lift, k. change (@nrand Qops d) with (Qmake d (2 ^ 53)). rewrite Ei. reflexivity. }
        cbn [returns]. replace ((Qceiling (a * N) <=? d) && (d <? Qceiling (b * N))) with (Z.of_nat i =? Z.of_nat j); [reflexivity|].
        destruct (Z.eqb_spec (Z.of_nat i) (Z.of_nat j)) as [Eij|Nij].
        - apply Nat2Z.inj in Eij. subst j. symmetry. apply andb_true_iff. split; [apply Z.leb_le, ceiling_le|apply Z.ltb_lt, ceiling_lt]; rewrite <- RN.
          + apply Qmult_le_compat_r; [exact A1|apply Qlt_le_weak; exact Np].
          + apply Qmult_lt_compat_r; [exact Np|exact B1].
        - symmetry. apply not_true_iff_false. intros H. apply andb_true_iff in H. destruct H as [H1 H2]. apply Z.leb_le, ceiling_le in H1. apply Z.ltb_lt, ceiling_lt in H2.
          rewrite <- RN in H1, H2. apply Nij. f_equal. apply (interval_unique ws (Qmake d (2 ^ 53)) i j); auto.
          + apply (Qmult_le_r _ _ N Np). exact H1.
          + apply (Qmult_lt_r _ _ N Np). exact H2. }
      eapply averages_eq; [|eapply averages_same; [exact A|intros t; reflexivity]].
      rewrite (mean_indicator (fun d => (Qceiling (a * N) <=? d) && (d <? Qceiling (b * N))) (below (2 ^ 53))), count_below.
      + rewrite below_length. rewrite Z2Nat.id by lia. reflexivity.
      + assert (0 <= Qceiling (a * N)). { change 0 with (Qceiling 0). apply Qceiling_resp_le. apply Qmult_le_0_compat; auto. apply Qlt_le_weak; auto. }
        split; auto. apply Qceiling_resp_le. apply Qmult_le_compat_r; apply Qlt_le_weak; auto.
      + apply ceiling_le. setoid_replace (inject_Z (2 ^ 53)) with (1 * N)%Q by (unfold N; ring). apply Qmult_le_compat_r; auto. apply Qlt_le_weak; auto.
    - unfold p. destruct (ceiling_close (a * N)) as [A1 A2]. destruct (ceiling_close (b * N)) as [B1 B2].
      unfold Z.sub. rewrite inject_Z_plus, inject_Z_opp. set (ca := inject_Z (Qceiling (a * N))) in *. set (cb := inject_Z (Qceiling (b * N))) in *.
      setoid_replace ((cb + - ca) / N - nth i ws 0 / qsum ws)%Q with (((cb - b * N) - (ca - a * N)) / N)%Q.
      + apply Qabs_Qlt_condition. split.
        * apply Qlt_shift_div_l; auto. setoid_replace (- (1 / N) * N)%Q with (-1)%Q by (field; intros C; rewrite C in Np; discriminate Np). lra.
        * apply Qmult_lt_r; [apply Qinv_lt_0_compat; auto|]. lra.
      + rewrite <- St. field. intros C. rewrite C in Np. discriminate Np.
  Qed.
End C74Q.

(** *** C75 *)
Section C75.
  Context {NO : NumOps}.
  Lemma qpow_nonneg : forall p n, (0 <= p)%Q -> (0 <= qpow p n)%Q.
  Proof. intros p n H. induction n as [|n IH]; cbn [qpow]; [discriminate|]. apply Qmult_le_0_compat; auto. Qed.
  (** Powers of a number below one vanish (Bernoulli). *)
  Lemma qpow_vanishes : forall p eps, (0 <= p)%Q -> (p < 1)%Q -> (0 < eps)%Q -> exists n, (qpow p n < eps)%Q.
  Proof.
    intros p eps H0 H1 He.
    assert (B : forall n, (qpow p n * (1 + inject_Z (Z.of_nat n) * (1 - p)) <= 1)%Q).
    { intros n. induction n as [|n IH]; [cbn [qpow]; change (inject_Z (Z.of_nat 0)) with 0%Q; lra|]. cbn [qpow]. rewrite Nat2Z.inj_succ. unfold Z.succ. rewrite inject_Z_plus. set (N := inject_Z (Z.of_nat n)) in *.
      assert (Nn : (0 <= N)%Q) by (unfold N, Qle; cbn; lia). pose proof (qpow_nonneg p n H0) as Qp.
      setoid_replace (p * qpow p n * (1 + (N + inject_Z 1) * (1 - p)))%Q with (qpow p n * (p * (1 + (N + 1) * (1 - p))))%Q by (change (inject_Z 1) with 1%Q; ring).
      eapply Qle_trans; [|exact IH]. rewrite (Qmult_comm (qpow p n)), (Qmult_comm (qpow p n)). apply Qmult_le_compat_r; auto.
      (* p (1 + (N+1)(1-p)) <= 1 + N (1-p) *)
      setoid_replace (1 + N * (1 - p))%Q with (p * (1 + (N + 1) * (1 - p)) + (1 - p) * (1 - p) * (N + 1))%Q by ring.
      assert ((0 <= (1 - p) * (1 - p) * (N + 1))%Q); [|lra]. apply Qmult_le_0_compat; [apply Qmult_le_0_compat|]; lra. }
    (* n with n (1 - p) >= 1 / eps *)
    set (n := Z.to_nat (Qceiling (/ (eps * (1 - p))))). exists n.
    assert (D : (0 < eps * (1 - p))%Q) by (apply Qmult_lt_0_compat; lra).
    assert (C0 : 0 <= Qceiling (/ (eps * (1 - p)))). { change 0 with (Qceiling 0). apply Qceiling_resp_le. apply Qlt_le_weak, Qinv_lt_0_compat; auto. }
    assert (Hn : (1 <= inject_Z (Z.of_nat n) * (eps * (1 - p)))%Q).
    { unfold n. rewrite Z2Nat.id by auto. apply Qle_trans with (/ (eps * (1 - p)) * (eps * (1 - p)))%Q; [rewrite Qmult_comm, Qmult_inv_r by lra; apply Qle_refl|].
      apply Qmult_le_compat_r; [apply Qle_ceiling|apply Qlt_le_weak; auto]. }
    specialize (B n). set (N := inject_Z (Z.of_nat n)) in *. pose proof (qpow_nonneg p n H0) as Qp. set (x := qpow p n) in *.
    destruct (Qlt_le_dec x eps) as [|G]; auto. exfalso.
    assert (X : (eps * (1 + N * (1 - p)) <= x * (1 + N * (1 - p)))%Q).
    { apply Qmult_le_compat_r; auto. assert ((0 <= N * (1 - p))%Q); [|lra]. apply Qmult_le_0_compat; [unfold N, Qle; cbn; lia|lra]. }
    assert (Y : (eps * (1 + N * (1 - p)) == eps + N * (eps * (1 - p)))%Q) by ring. rewrite Y in X. lra.
  Qed.

  Lemma tournament_outcomes : forall (ok : num -> Prop), NumOrder NO ok -> forall s idx t l, keys_ok ok s idx l -> 1 <= t <= Z.of_nat (length l) ->
    forall o, occurs (run_tournament idx t l) s o -> exists b u, o = Ok b (set_tape u s) /\ In b l.
  Proof.
    intros ok NL s idx t l K Ht o Ho. destruct (run_tournament_possible ok NL s idx t l K Ht) as [P _].
    destruct (Ho (tape s)) as (t0 & E). destruct (P t0) as (b & t' & E' & q & others & Hq & _). rewrite E in E'.
    assert (I : In b l) by (eapply nth_error_In; eauto).
    destruct o as [b' s'|e|]; try discriminate. cbn [with_tape] in E'. inversion E' as [[Eb Es]]. subst b'. exists b, (tape s'). split; auto. f_equal.
    destruct s, s'. cbn in *. inversion Es; subst. reflexivity.
  Qed.
  Definition same_idx (s : st) (a b : nat) : bool := opt_eqb Z.eqb (idx_individ (heap s b)) (idx_individ (heap s a)).
  Lemma second_parent_step : forall idx t l first f b s u,
    (bi <- get b ;; fi <- get first ;; if opt_eqb Z.eqb (idx_individ bi) (idx_individ fi) then second_parent f idx t l first else ret b)%monad (set_tape u s) =
    if same_idx s first b then second_parent f idx t l first (set_tape u s) else Ok b (set_tape u s).
  Proof. intros. unfold bind, get, same_idx. cbn [heap set_tape]. destruct (opt_eqb Z.eqb (idx_individ (heap s b)) (idx_individ (heap s first))); reflexivity. Qed.

  (** The members of the population are told apart by idx_individ. *)
  Definition told_apart (s : st) (l : list nat) : Prop := forall a b, In a l -> In b l -> same_idx s a b = true <-> a = b.
  Lemma chance_ext_in : forall {A} (m : M A) s (P R : A -> bool) p, (forall b s', occurs m s (Ok b s') -> P b = R b) -> chance m s (returns P) p -> chance m s (returns R) p.
  Proof. intros A m s P R p H C. eapply averages_ext; [exact C|]. intros o Ho. destruct o; try reflexivity. cbn [returns]. rewrite (H a s0 Ho). reflexivity. Qed.

  (** The probability of still drawing after f tries is p^f, where p is the probability
      that one tournament is won by the first parent; the second parent is another member
      b with the probability of b among those that are not the first parent. *)
  Theorem C75_second_parent : forall (ok : num -> Prop), NumOrder NO ok -> forall s idx t l ks first p,
    keys_of s idx l ks -> Forall ok ks -> 1 <= t <= Z.of_nat (length l) -> told_apart s l -> In first l ->
    chance (run_tournament idx t l) s (returns (Nat.eqb first)) p ->
    (forall f, chance (second_parent f idx t l first) s exhausted (qpow p f)) /\
    forall b pb, b <> first -> chance (run_tournament idx t l) s (returns (Nat.eqb b)) pb ->
      forall f, exists r, chance (second_parent f idx t l first) s (returns (Nat.eqb b)) r /\ (r * (1 - p) == pb * (1 - qpow p f))%Q.
  Proof.
    intros ok NL s idx t l ks first p K O Ht TA Hf Hp. pose proof (keys_of_ok ok s idx l ks K O) as Kok.
    assert (Hm : forall o, occurs (run_tournament idx t l) s o -> exists b u, o = Ok b (set_tape u s)).
    { intros o Ho. destruct (tournament_outcomes ok NL s idx t l Kok Ht o Ho) as (b & u & -> & _). eauto. }
    assert (Hp' : chance (run_tournament idx t l) s (returns (same_idx s first)) p).
    { eapply chance_ext_in; [|exact Hp]. intros b s' Ho. destruct (tournament_outcomes ok NL s idx t l Kok Ht _ Ho) as (b' & u & E & I). inversion E; subst b'.
      apply eq_true_iff_eq. rewrite Nat.eqb_eq, (TA first b Hf I). reflexivity. }
    split.
    - intros f. apply (retry_exhausted s (run_tournament idx t l) (same_idx s first) (fun f => second_parent f idx t l first)
        (fun f b => (bi <- get b ;; fi <- get first ;; if opt_eqb Z.eqb (idx_individ bi) (idx_individ fi) then second_parent f idx t l first else ret b)%monad)); auto.
      intros; apply second_parent_step.
    - intros b pb Nb Hb f. exists (pb * geo p f)%Q. split; [|rewrite <- geo_closed; ring].
      apply (retry_returns s (run_tournament idx t l) (same_idx s first) (fun f => second_parent f idx t l first)
        (fun f b => (bi <- get b ;; fi <- get first ;; if opt_eqb Z.eqb (idx_individ bi) (idx_individ fi) then second_parent f idx t l first else ret b)%monad)); auto.
      + intros; apply second_parent_step.
      + eapply chance_ext_in; [|exact Hb]. intros b' s' Ho. destruct (tournament_outcomes ok NL s idx t l Kok Ht _ Ho) as (b'' & u & E & I). inversion E; subst b''.
        destruct (Nat.eqb_spec b b') as [<-|]; auto. destruct (same_idx s first b) eqn:E1; auto. apply (TA first b Hf I) in E1. congruence.
  Qed.
  (** With at least t members other than the first parent, the loop ends with
      probability one. *)
  Theorem C75_ends : forall (ok : num -> Prop), NumOrder NO ok -> forall s idx t l ks first eps,
    keys_of s idx l ks -> Forall ok ks -> 1 <= t -> told_apart s l -> In first l ->
    t <= Z.of_nat (length (filter (fun r => negb (Nat.eqb r first)) l)) -> (0 < eps)%Q ->
    exists f q, chance (second_parent f idx t l first) s exhausted q /\ (q < eps)%Q.
  Proof.
    intros ok NL s idx t l ks first eps K O Ht TA Hf Ho He. pose proof (keys_of_ok ok s idx l ks K O) as Kok.
    assert (Hl : (length (filter (fun r => negb (Nat.eqb r first)) l) <= length l)%nat).
    { clear. induction l as [|x l IH]; auto. cbn [filter]. destruct (negb (Nat.eqb x first)); cbn [length]; lia. }
    set (AR := arrangements (Z.to_nat t) (zrange 0 (Z.of_nat (length l)))).
    set (pr := (inject_Z (Z.of_nat (length (filter (fun tr => Nat.eqb first (winner s idx l tr)) AR))) / inject_Z (Z.of_nat (length AR)))%Q).
    assert (Hp : chance (run_tournament idx t l) s (returns (Nat.eqb first)) pr).
    { eapply averages_eq; [|apply (tournament_mean ok NL); auto; lia]. cbn [returns]. apply (mean_indicator (fun tr => Nat.eqb first (winner s idx l tr))). }
    assert (Lp : (0 < length AR)%nat) by (unfold AR; rewrite arrangements_count, zrange_length; apply falling_pos; lia).
    assert (P0 : (0 <= pr)%Q).
    { unfold pr. apply Qle_shift_div_l; [unfold Qlt; cbn; lia|]. rewrite Qmult_0_l. unfold Qle; cbn; lia. }
    assert (P1 : (pr < 1)%Q).
    { unfold pr. apply Qlt_shift_div_r; [unfold Qlt; cbn; lia|]. rewrite Qmult_1_l. rewrite <- Zlt_Qlt. apply Nat2Z.inj_lt.
      set (other := fun p => match nth_error l (Z.to_nat p) with Some r => negb (Nat.eqb r first) | None => false end).
      assert (Av : (0 < length (filter (forallb other) AR))%nat).
      { unfold AR. rewrite arrangements_filter. apply falling_pos.
        assert (X : length (filter other (zrange 0 (Z.of_nat (length l)))) = length (filter (fun r => negb (Nat.eqb r first)) l)); [|lia].
        assert (G : forall l1 l0, length (filter (fun p => match nth_error (l0 ++ l1) (Z.to_nat p) with Some r => negb (Nat.eqb r first) | None => false end)
          (map Z.of_nat (seq (length l0) (length l1)))) = length (filter (fun r => negb (Nat.eqb r first)) l1)).
        { intros l1. induction l1 as [|r l1 IH]; intros l0; auto. cbn [length seq map filter]. rewrite Nat2Z.id, nth_error_app2, Nat.sub_diag by lia. cbn [nth_error].
          specialize (IH (l0 ++ [r])). rewrite <- app_assoc, app_length in IH. cbn [app length] in IH. rewrite Nat.add_1_r in IH. destruct (negb (Nat.eqb r first)); cbn [length]; auto. }
        specialize (G l []). cbn [app length] in G. rewrite <- G, <- (seq_zrange 0 (length l)). reflexivity. }
      assert (Lt : forall (R T : list Z -> bool) A, (forall tr, In tr A -> T tr = true -> R tr = false) -> (0 < length (filter T A))%nat -> (length (filter R A) < length A)%nat).
      { intros R T A. induction A as [|a A IH]; intros D Hd; [cbn in Hd; lia|]. cbn [filter] in *. specialize (D a (or_introl eq_refl)) as Da.
        assert (Le : (length (filter R A) <= length A)%nat). { clear. induction A as [|a A IH]; auto. cbn [filter]. destruct (R a); cbn [length]; lia. }
        destruct (T a); [rewrite Da by auto; cbn [length]; lia|]. assert (X := IH ltac:(intros; apply D; [right|]; auto) Hd). destruct (R a); cbn [length]; lia. }
      apply (Lt _ (forallb other)); auto. intros tr Htr Hall. apply arrangements_in in Htr. destruct Htr as [L I].
      assert (Ne : tr <> []) by (destruct tr; [cbn in L; lia|discriminate]).
      assert (Rg : forall p, In p tr -> 0 <= p < Z.of_nat (length l)) by (intros p Hp'; apply I, in_zrange in Hp'; lia).
      destruct (winner_ok ok NL s idx l tr Kok Ne Rg) as (_ & (p0 & Hp0 & E0) & _). rewrite forallb_forall in Hall. specialize (Hall p0 Hp0). unfold other in Hall. rewrite E0 in Hall.
      apply negb_true_iff in Hall. rewrite Nat.eqb_sym. exact Hall. }
    destruct (qpow_vanishes pr eps P0 P1 He) as (n & Hn). exists n, (qpow pr n). split; auto.
    apply (C75_second_parent ok NL s idx t l ks first pr); auto. lia.
  Qed.

  (** Proportional selection: the same for the second index. *)
  Theorem C75_second_index : forall scores s first p,
    (forall o, occurs (get_index scores) s o -> exists i u, o = Ok i (set_tape u s)) ->
    chance (get_index scores) s (returns (Z.eqb first)) p ->
    (forall f, chance (second_index f scores first) s exhausted (qpow p f)) /\
    forall j pj, j <> first -> chance (get_index scores) s (returns (Z.eqb j)) pj ->
      forall f, exists r, chance (second_index f scores first) s (returns (Z.eqb j)) r /\ (r * (1 - p) == pj * (1 - qpow p f))%Q.
  Proof.
    intros scores s first p Hm Hp.
    assert (St : forall f b u, (if b =? first then second_index f scores first else ret b) (set_tape u s) = if Z.eqb first b then second_index f scores first (set_tape u s) else Ok b (set_tape u s)).
    { intros f b u. rewrite (Z.eqb_sym b first). destruct (Z.eqb first b); reflexivity. }
    split.
    - intros f. apply (retry_exhausted s (get_index scores) (Z.eqb first) (fun f => second_index f scores first) (fun f i => if i =? first then second_index f scores first else ret i)); auto.
    - intros j pj Nj Hj f. exists (pj * geo p f)%Q. split; [|rewrite <- geo_closed; ring].
      apply (retry_returns s (get_index scores) (Z.eqb first) (fun f => second_index f scores first) (fun f i => if i =? first then second_index f scores first else ret i)); auto.
      eapply chance_ext_in; [|exact Hj]. intros i s' _. destruct (Z.eqb_spec j i) as [<-|]; auto. destruct (Z.eqb_spec first j); auto; congruence.
  Qed.
End C75.

Section C75Q.
  Local Existing Instance Qops.
  Lemma index_outcomes : forall (ws scores : list Q) s, ws <> [] -> Forall (fun w => 0 < w)%Q ws -> selection_scores (ws : list (@num Qops)) = inr scores ->
    forall o, occurs (get_index (scores : list (@num Qops))) s o -> exists i u, o = Ok i (set_tape u s).
  Proof.
    intros ws scores s Ne F Es o Ho. destruct (share_pos ws Ne F) as [Hs Hp]. destruct (Ho (tape s)) as (t & E).
    unfold get_index, random_, bind, draw, ret, lift in E. cbn [tape set_tape] in E. set (d := t O mod 2 ^ 53) in *.
    assert (Hd : 0 <= d < 2 ^ 53) by (apply Z.mod_pos_bound; reflexivity).
    assert (R0 : (0 <= Qmake d (2 ^ 53))%Q) by (unfold Qle; cbn [Qnum Qden]; lia).
    assert (R1 : (Qmake d (2 ^ 53) < 1)%Q) by (unfold Qlt; cbn [Qnum Qden]; lia).
    destruct (roulette ws (Qmake d (2 ^ 53)) Hs Hp R0 R1) as (sc & j & E1 & Ei & _). assert (sc = scores) by congruence. subst sc.
    change (@nrand Qops d) with (Qmake d (2 ^ 53)) in E. rewrite Ei in E. destruct o as [i s'|e|]; try discriminate. cbn [with_tape] in E. assert (Eb := f_equal (fun o => match o with Ok _ x => x | _ => s end) E). cbn beta iota in Eb.
    exists i, (tape s'). f_equal. clear - Eb. destruct s, s'. cbn in *. inversion Eb; subst. reflexivity.
  Qed.
  (** Positive weights: the loop for the second index ends with probability one, except
      when the first position alone covers every value of random(), that is when its
      share exceeds 1 - 2^-53; then it never ends. *)
  Theorem C75_roulette : forall (ws scores : list Q) s i, ws <> [] -> Forall (fun w => 0 < w)%Q ws ->
    selection_scores (ws : list (@num Qops)) = inr scores -> (i < length ws)%nat ->
    ((1 <= i)%nat \/ (nth 0 ws 0 / qsum ws <= 1 - 1 / inject_Z (2 ^ 53))%Q -> forall eps, (0 < eps)%Q ->
       exists f q, chance (second_index f (scores : list (@num Qops)) (Z.of_nat i)) s exhausted q /\ (q < eps)%Q) /\
    (i = O -> (1 - 1 / inject_Z (2 ^ 53) < nth 0 ws 0 / qsum ws)%Q ->
       forall f, chance (second_index f (scores : list (@num Qops)) (Z.of_nat i)) s exhausted 1).
  Proof.
    intros ws scores s i Ne F Es Hi. set (N := inject_Z (2 ^ 53)).
    destruct (C74_roulette ws scores s i Ne F Es Hi) as [C _]. fold N in C. cbv zeta in C.
    set (p := (inject_Z (Qceiling (cshare ws (S i) * N) - Qceiling (cshare ws i * N)) / N)%Q) in *.
    destruct (C75_second_index (scores : list (@num Qops)) s (Z.of_nat i) p (index_outcomes ws scores s Ne F Es) C) as [X _].
    assert (Np : (0 < N)%Q) by reflexivity.
    destruct (share_pos ws Ne F) as [Hs Hp]. destruct (proj2 (C27_intervals ws Ne F) i Hi) as (St & Lo & Hi1).
    assert (Mo : (cshare ws i < cshare ws (S i))%Q) by (rewrite (cshare_step ws i) by auto; specialize (Hp i Hi); lra).
    assert (CN : Qceiling (cshare ws (S i) * N) <= 2 ^ 53).
    { apply ceiling_le. setoid_replace (inject_Z (2 ^ 53)) with (1 * N)%Q by (unfold N; ring). apply Qmult_le_compat_r; auto. apply Qlt_le_weak; auto. }
    assert (C0 : 0 <= Qceiling (cshare ws i * N)). { change 0 with (Qceiling 0). apply Qceiling_resp_le. apply Qmult_le_0_compat; auto. apply Qlt_le_weak; auto. }
    assert (Cm : Qceiling (cshare ws i * N) <= Qceiling (cshare ws (S i) * N)) by (apply Qceiling_resp_le; apply Qmult_le_compat_r; apply Qlt_le_weak; auto).
    split.
    - intros H eps He.
      assert (P0 : (0 <= p)%Q) by (unfold p; apply Qle_shift_div_l; auto; rewrite Qmult_0_l; change 0%Q with (inject_Z 0); rewrite <- Zle_Qle; lia).
      assert (P1 : (p < 1)%Q).
      { unfold p. apply Qlt_shift_div_r; auto. rewrite Qmult_1_l. unfold N at 3. rewrite <- Zlt_Qlt.
        assert (Y : 0 < Qceiling (cshare ws i * N) \/ Qceiling (cshare ws (S i) * N) < 2 ^ 53); [|lia].
        destruct i as [|i].
        - destruct H as [H|H]; [lia|]. right. rewrite cshare_0 in St. assert (B : (cshare ws 1 <= 1 - 1 / N)%Q) by lra.
          assert (B' : Qceiling (cshare ws 1 * N) <= 2 ^ 53 - 1); [|lia]. apply ceiling_le. eapply Qle_trans; [apply Qmult_le_compat_r; [exact B|apply Qlt_le_weak; auto]|].
          unfold Z.sub. rewrite inject_Z_plus. fold N. setoid_replace ((1 - 1 / N) * N)%Q with (N - 1)%Q by (field; intros E; rewrite E in Np; discriminate Np). change (inject_Z (- (1))) with (- (1))%Q. lra.
        - left. apply ceiling_lt. change (inject_Z 0) with 0%Q. apply Qmult_lt_0_compat; auto. rewrite <- (cshare_0 ws). apply cshare_lt; auto; lia. }
      destruct (qpow_vanishes p eps P0 P1 He) as (n & Hn). exists n, (qpow p n). split; auto.
    - intros -> H f. assert (P1 : (p == 1)%Q).
      { rewrite cshare_0 in St. assert (A : Qceiling (cshare ws 1 * N) = 2 ^ 53).
        { assert (2 ^ 53 - 1 < Qceiling (cshare ws 1 * N)); [|lia]. apply ceiling_lt. unfold Z.sub. rewrite inject_Z_plus. fold N. change (inject_Z (- (1))) with (- (1))%Q.
          setoid_replace (N + - (1))%Q with ((1 - 1 / N) * N)%Q by (field; intros E; rewrite E in Np; discriminate Np). apply Qmult_lt_compat_r; auto. fold N in H. lra. }
        assert (B : Qceiling (cshare ws 0 * N) = 0). { assert (Z0 : (cshare ws 0 * N == inject_Z 0)%Q) by (rewrite cshare_0; change (inject_Z 0) with 0%Q; ring). rewrite Z0. apply Qceiling_Z. }
        unfold p. rewrite A, B, Z.sub_0_r. unfold N. field. discriminate. }
      eapply averages_eq; [|apply X]. clear - P1. clearbody p. induction f as [|f IH]; cbn [qpow]; [reflexivity|]. rewrite IH, P1. reflexivity.
  Qed.
End C75Q.

(** *** Concrete cases *)
Section Examples74.
  Local Existing Instance Qops.
  (** Four members with scores 1, 2, 3, 4. *)
  Definition four_world : st := world_ent [ind (ints [1]) (q (1#1)); ind (ints [2]) (q (2#1)); ind (ints [3]) (q (3#1)); ind (ints [4]) (q (4#1))] [].
  Definition four_keys : list (@num Qops) := [1#1; 2#1; 3#1; 4#1]%Q.
  Lemma four_hyp : keys_of four_world None [0; 1; 2; 3]%nat four_keys /\ Forall (fun _ => True) four_keys /\
    (forall i j a b, i <> j -> nth_error four_keys i = Some a -> nth_error four_keys j = Some b -> neqb a b = false).
  Proof.
    split; [repeat constructor|]. split; [repeat constructor|].
    intros i j a b Hij Ha Hb. destruct i as [|[|[|[|i]]]]; destruct j as [|[|[|[|j]]]]; cbn in Ha, Hb; try congruence; try (destruct i; discriminate); try (destruct j; discriminate);
      inversion Ha; inversion Hb; subst; reflexivity.
  Qed.
  (** A tournament of two: 0, 1/6, 1/3, 1/2. *)
  Example C74_case : chance (run_tournament None 2 [0; 1; 2; 3]%nat) four_world (returns (Nat.eqb 0)) 0 /\
    chance (run_tournament None 2 [0; 1; 2; 3]%nat) four_world (returns (Nat.eqb 1)) (1 # 6) /\
    chance (run_tournament None 2 [0; 1; 2; 3]%nat) four_world (returns (Nat.eqb 2)) (1 # 3) /\
    chance (run_tournament None 2 [0; 1; 2; 3]%nat) four_world (returns (Nat.eqb 3)) (1 # 2).
  Proof.
    destruct four_hyp as (K & O & D).
    assert (M : forall i x, nth_error [0; 1; 2; 3]%nat i = Some i -> nth_error four_keys i = Some x ->
      chance (run_tournament None 2 [0; 1; 2; 3]%nat) four_world (returns (Nat.eqb i)) (nq (2 * falling (length (filter (fun y => nltb y x) four_keys)) 1) / nq 12)).
    { intros i x Hi Hx. apply (C74_tournament_member _ Qorder four_world None 2 [0; 1; 2; 3]%nat four_keys i i x K O ltac:(cbn; lia) D Hi Hx). }
    split; [|split; [|split]]; (eapply averages_eq; [|eapply M; reflexivity]); reflexivity.
  Qed.
  Example C74_roulette_case : exists scores p, selection_scores ([1#1; 2#1; 5#1]%Q : list (@num Qops)) = inr scores /\
    chance (get_index (scores : list (@num Qops))) four_world (returns (Z.eqb 2)) p /\ (p == 5 # 8)%Q.
  Proof.
    destruct (scores_ok [1#1; 2#1; 5#1]%Q) as (scores & E & _); [discriminate|]. exists scores. eexists. split; [exact E|]. split.
    - apply (C74_roulette [1#1; 2#1; 5#1]%Q scores four_world 2); [discriminate|repeat constructor|exact E|cbn; lia].
    - vm_compute. reflexivity.
  Qed.
End Examples74.
Section Examples75.
  Local Existing Instance Qops.
  Definition numbered_world : st :=
    world_ent [set_idx (Some 0) (ind (ints [1]) (q (1#1))); set_idx (Some 1) (ind (ints [2]) (q (2#1))); set_idx (Some 2) (ind (ints [3]) (q (3#1))); set_idx (Some 3) (ind (ints [4]) (q (4#1)))] [].
  (** First parent the best of four: after f tries no other was found with probability
      1/2^f. *)
  Example C75_case : (forall f, chance (second_parent f None 2 [0; 1; 2; 3]%nat 3) numbered_world exhausted (qpow (1 # 2) f)) /\
    forall eps, (0 < eps)%Q -> exists f q, chance (second_parent f None 2 [0; 1; 2; 3]%nat 3) numbered_world exhausted q /\ (q < eps)%Q.
  Proof.
    assert (K : keys_of numbered_world None [0; 1; 2; 3]%nat four_keys) by (repeat constructor).
    assert (TA : told_apart numbered_world [0; 1; 2; 3]%nat).
    { intros a b Ha Hb. cbn in Ha, Hb. destruct Ha as [<-|[<-|[<-|[<-|[]]]]]; destruct Hb as [<-|[<-|[<-|[<-|[]]]]]; vm_compute; split; congruence. }
    destruct four_hyp as (_ & O & D). split.
    - apply (C75_second_parent _ Qorder numbered_world None 2 [0; 1; 2; 3]%nat four_keys); auto; [cbn; lia|cbn; auto|].
      eapply averages_eq; [|eapply (C74_tournament_best _ Qorder numbered_world None 2 [0; 1; 2; 3]%nat four_keys 3); auto; try reflexivity; try (cbn; lia); try exact D].
      + reflexivity.
      + intros y [<-|[<-|[<-|[<-|[]]]]]; reflexivity.
    - intros eps He. apply (C75_ends _ Qorder numbered_world None 2 [0; 1; 2; 3]%nat four_keys); auto; [lia|cbn; auto|cbn; lia].
  Qed.
  (** One weight beyond 2^53 times the other. *)
  Example C75_never : exists scores, selection_scores ([2 ^ 60; 1#1]%Q : list (@num Qops)) = inr scores /\
    forall f, chance (second_index f (scores : list (@num Qops)) 0) four_world exhausted 1.
  Proof.
    destruct (scores_ok [2 ^ 60; 1#1]%Q) as (scores & E & _); [discriminate|]. exists scores. split; [exact E|].
    apply (C75_roulette [2 ^ 60; 1#1]%Q scores four_world 0); [discriminate|repeat constructor|exact E|cbn; lia|reflexivity|reflexivity].
  Qed.
End Examples75.

Print Assumptions C74_tournament_key. Print Assumptions C74_tournament_member. Print Assumptions C74_tournament_best. Print Assumptions C74_tournament_order.
Print Assumptions C74_roulette.
Print Assumptions C75_second_parent. Print Assumptions C75_ends. Print Assumptions C75_second_index. Print Assumptions C75_roulette.
