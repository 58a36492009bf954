(** Invariants of the generations of a run: the best score, the histories, the
    evaluations behind the members. *)
From Coq Require Import ZArith List Bool Lia Permutation Sorted.
From Verif Require Import Spec Num State Binary Population GaData Crossover Mutation Selection Penalty Fitness NewGeneration Driver
  ListLemmas Rnd Exec Laws PopulationProofs CrossoverProofs MutationProofs SelectionProofs VegaProofs
  NewGenProofs UpdateProofs FitnessProofs StepProofs RunProofs.
Import ListNotations.
Open Scope list_scope.
Open Scope Z_scope.

Section HistoryProofs.
  Context {NO : NumOps} (ok : num -> Prop) (NL : NumOrder NO ok).

  Definition not_below (a b : num) : Prop := nltb b a = false.
  Lemma not_below_trans : forall a b c, ok a -> ok b -> ok c -> not_below a b -> not_below b c -> not_below a c.
  Proof. unfold not_below. intros a b c Ha Hb Hc H1 H2. apply (no_negtrans _ _ NL) with b; auto. Qed.
  Lemma eq_not_below : forall x y, ok x -> ok y -> neqb x y = true -> not_below x y /\ not_below y x.
  Proof. intros x y Hx Hy H. apply (no_eq _ _ NL) in H; auto. unfold not_below. tauto. Qed.
  Lemma snoc_sorted : forall xs y, StronglySorted not_below xs -> Forall (fun x => not_below x y) xs -> StronglySorted not_below (xs ++ [y]).
  Proof.
    intros xs y H F. induction H as [|x xs H IH Fx]; cbn; [repeat constructor|]. inversion F; subst. constructor; auto.
    apply Forall_app. split; auto.
  Qed.

  (** The best score of a run. *)
  Definition best_inv (c : comps) (gd : gadata) (s : st) : Prop :=
    exists xs y i g x l0 b, hist_best gd = map SV1 (xs ++ [y]) /\ Forall ok (xs ++ [y]) /\ StronglySorted not_below (xs ++ [y]) /\
      best_solution gd = BSingle i g /\ score i = SV1 x /\ ok x /\ neqb x y = true /\
      members (population gd) = l0 ++ [b] /\ score (heap s b) = SV1 y.
  Lemma best_inv_first : forall f gd0 s0 gd s cs l0 bst md w c, First f gd0 s0 gd s cs l0 bst md w -> GI ok gd s -> best_inv c gd s.
  Proof.
    intros f gd0 s0 gd s cs l0 bst md w c F G. destruct (fi_members _ _ _ _ _ _ _ _ _ _ F) as [Em _].
    destruct (gi_settled _ _ _ G bst) as [(y & Ey & Oy) _]; [rewrite Em; apply in_or_app; right; left; auto|].
    destruct (fi_best _ _ _ _ _ _ _ _ _ _ F) as [Eb _]. destruct (fi_hist _ _ _ _ _ _ _ _ _ _ F) as [Eh _].
    exists [], y, (heap s bst), 0, y, l0, bst. cbn. rewrite Eh, Ey. repeat split; auto; try (repeat constructor; fail). apply (eq_refl_n NL); auto.
  Qed.
  Lemma best_inv_step : forall c1 gd1 s1 c2 gd2 s2 kids els h cs l0 bst md w, GI ok gd1 s1 -> best_inv c1 gd1 s1 ->
    Step c1 gd1 s1 c2 gd2 s2 kids els h cs l0 bst md w -> GI ok gd2 s2 -> best_inv c2 gd2 s2.
  Proof.
    intros c1 gd1 s1 c2 gd2 s2 kids els h cs l0 bst md w G1 (xs & y & i & g & x & l & b & Eh & Fo & So & Eb & Ei & Ox & Exy & Em & Sb) St G2.
    destruct (st_members _ _ _ _ _ _ _ _ _ _ _ _ _ _ St) as [Em2 Pm]. destruct (st_hist _ _ _ _ _ _ _ _ _ _ _ _ _ _ St) as [Eh2 _].
    destruct (gi_settled _ _ _ G2 bst) as [(y2 & Ey2 & Oy2) _]; [rewrite Em2; apply in_or_app; right; left; auto|].
    assert (Oy : ok y). { rewrite Forall_forall in Fo. apply Fo. apply in_or_app; right; left; auto. }
    (* the former best member is still there *)
    assert (Hb2 : In b (members (population gd2))).
    { destruct (st_els _ _ _ _ _ _ _ _ _ _ _ _ _ _ St) as (e & b' & l1 & -> & E1 & _). rewrite Em in E1. apply app_inj_tail in E1. destruct E1 as [_ <-].
      apply (Permutation_in _ (Permutation_sym Pm)). apply in_or_app; right. apply in_or_app; right; left; auto. }
    assert (Sb2 : score (heap s2 b) = SV1 y).
    { destruct (st_core _ _ _ _ _ _ _ _ _ _ _ _ _ _ St b) as (_ & _ & E & _); [apply (gi_alloc _ _ _ G1); rewrite Em; apply in_or_app; right; left; auto|]. congruence. }
    assert (Hyy : not_below y y2).
    { unfold not_below. eapply asc_last with (k := KScore) (s := s2) (l := l0) (b := bst) (r := b); eauto.
      - rewrite <- Em2. apply (gi_asc _ _ _ G2).
      - rewrite <- Em2. auto.
      - cbn. congruence.
      - cbn. congruence. }
    pose proof (st_best _ _ _ _ _ _ _ _ _ _ _ _ _ _ St) as Ba. unfold best_after in Ba. rewrite Eb in Ba.
    destruct (eq_not_below x y Ox Oy Exy) as [Nxy Nyx].
    unfold sv_lt in Ba. rewrite Ei, Ey2 in Ba. cbn [sv_ltb] in Ba.
    assert (S2 : StronglySorted not_below ((xs ++ [y]) ++ [y2])).
    { apply snoc_sorted; auto. apply Forall_app. split; [|repeat constructor; auto].
      rewrite Forall_forall. intros a Ha. apply not_below_trans with y; auto; [rewrite Forall_forall in Fo; apply Fo; apply in_or_app; auto|].
      clear - So Ha. induction xs as [|z xs IH]; [destruct Ha|]. cbn in So. inversion So; subst. destruct Ha as [->|Ha]; auto.
      rewrite Forall_forall in H2. apply H2. apply in_or_app; right; left; auto. }
    assert (F2 : Forall ok ((xs ++ [y]) ++ [y2])) by (apply Forall_app; split; auto).
    destruct (nltb x y2) eqn:L.
    - inversion Ba as [[B1 B2]]. exists (xs ++ [y]), y2, (heap s2 bst), (idx_generation gd1), y2, l0, bst.
      rewrite Eh2, Eh, Ey2. rewrite (map_app SV1 (xs ++ [y])). repeat split; auto. apply (eq_refl_n NL); auto.
    - inversion Ba as [[B1 B2]]. exists (xs ++ [y]), y2, i, g, x, l0, bst.
      rewrite Eh2, Eh, Ey2. rewrite (map_app SV1 (xs ++ [y])). repeat split; auto. apply (no_eq _ _ NL); auto. split; auto.
      apply (not_below_trans x y y2); auto.
  Qed.

  (** *** Histories of updates *)
  (** Everything recorded in the GaData object, without the populations. *)
  Definition same_records (gd gd1 : gadata) : Prop :=
    is_multi gd1 = is_multi gd /\ idx_generation gd1 = idx_generation gd /\ no_improve gd1 = no_improve gd /\
    hist_best gd1 = hist_best gd /\ hist_mediocre gd1 = hist_mediocre gd /\ hist_worst gd1 = hist_worst gd /\
    best_solution gd1 = best_solution gd.
  (** GaData objects reached by any sequence of updates with arbitrary populations of
      scored individuals in between. *)
  Inductive history : gadata -> Prop :=
  | history_new : forall ng cp es p, history (new_gadata false ng cp es p)
  | history_update : forall gd gd1 s gd' s', history gd -> same_records gd gd1 ->
      (forall r, In r (members (population gd1)) -> exists x, score (heap s r) = SV1 x /\ ok x) ->
      update gd1 s = Ok gd' s' -> history gd'.

  Definition records (gd : gadata) : Prop :=
    is_multi gd = false /\
    exists xs, hist_best gd = map SV1 xs /\ Forall ok xs /\ Z.of_nat (length xs) = idx_generation gd /\
      length (hist_mediocre gd) = length xs /\ length (hist_worst gd) = length xs /\
      ((xs = [] /\ best_solution gd = BNone /\ no_improve gd = 0) \/
       exists i g x, best_solution gd = BSingle i (Z.of_nat g) /\ score i = SV1 x /\ ok x /\ nth_error xs g = Some x /\
         no_improve gd = idx_generation gd - 1 - Z.of_nat g /\
         forall j y, nth_error xs j = Some y -> nltb x y = false /\ ((j < g)%nat -> nltb y x = true)).
  Lemma records_ext : forall gd gd1, same_records gd gd1 -> records gd -> records gd1.
  Proof.
    intros gd gd1 (E1 & E2 & E3 & E4 & E5 & E6 & E7) [Im (xs & H)]. split; [congruence|]. exists xs. rewrite E2, E3, E4, E5, E6, E7. exact H.
  Qed.
  Lemma records_snoc : forall gd gd' b y m w, records gd -> score b = SV1 y -> ok y -> is_multi gd' = is_multi gd ->
    idx_generation gd' = idx_generation gd + 1 -> hist_best gd' = hist_best gd ++ [score b] ->
    hist_mediocre gd' = hist_mediocre gd ++ [m] -> hist_worst gd' = hist_worst gd ++ [w] ->
    (best_solution gd', no_improve gd') = best_after gd b -> records gd'.
  Proof.
    intros gd gd' b y m w [Im (xs & Eh & Fo & Lx & Lm & Lw & B)] Ey Oy E1 E2 E4 E5 E6 E7.
    split; [congruence|]. exists (xs ++ [y]). rewrite E2, E4, E5, E6, Eh, Ey, map_app. cbn [map].
    split; auto. split; [apply Forall_app; auto|]. rewrite !app_length. cbn [length]. split; [lia|]. split; [lia|]. split; [lia|]. right.
    unfold best_after in E7.
    assert (Nl : nth_error (xs ++ [y]) (length xs) = Some y) by (rewrite nth_error_app2, Nat.sub_diag by lia; auto).
    destruct B as [(-> & B & Ni)|(i & g & x & B & Ei & Ox & Ng & Ni & K)]; rewrite B in E7.
    - inversion E7 as [[B1 B2]]. cbn [length] in Lx. exists b, 0%nat, y. split; [rewrite ?B1; f_equal; lia|]. repeat split; auto; try lia.
      + destruct j as [|[|]]; cbn in H; inversion H; subst. apply (no_irrefl _ _ NL); auto.
    - unfold sv_lt in E7. rewrite Ei, Ey in E7. cbn [sv_ltb] in E7.
      assert (Lg : (g < length xs)%nat) by (apply nth_error_Some; congruence).
      destruct (nltb x y) eqn:L; inversion E7 as [[B1 B2]].
      + exists b, (length xs), y. split; [rewrite ?B1; f_equal; lia|]. repeat split; auto; try lia.
        * destruct (lt_dec j (length xs)) as [Hj|Hj].
          -- rewrite nth_error_app1 in H by auto. destruct (K _ _ H) as [K1 _]. rewrite Forall_forall in Fo. apply nth_error_In in H.
             destruct (nltb y y0) eqn:C; auto. pose proof (no_trans _ _ NL x y y0 Ox Oy (Fo _ H) L C) as C2. congruence.
          -- assert (j = length xs). { assert (j < length (xs ++ [y]))%nat by (apply nth_error_Some; congruence). rewrite app_length in *. cbn in *. lia. }
             subst j. rewrite Nl in H. inversion H; subst. apply (no_irrefl _ _ NL); auto.
        * intros Hj. rewrite nth_error_app1 in H by auto. destruct (K _ _ H) as [K1 _]. rewrite Forall_forall in Fo. apply nth_error_In in H.
          destruct (nltb y0 y) eqn:C; auto. pose proof (no_negtrans _ _ NL x y0 y Ox (Fo _ H) Oy K1 C) as C2. congruence.
      + exists i, g, x. split; [rewrite ?B1; f_equal; lia|]. repeat split; auto; try lia.
        * rewrite nth_error_app1 by auto. auto.
        * destruct (lt_dec j (length xs)) as [Hj|Hj].
          -- rewrite nth_error_app1 in H by auto. apply (K _ _ H).
          -- assert (j = length xs). { assert (j < length (xs ++ [y]))%nat by (apply nth_error_Some; congruence). rewrite app_length in *. cbn in *. lia. }
             subst j. rewrite Nl in H. inversion H; subst. auto.
        * intros Hj. rewrite nth_error_app1 in H by lia. apply (K _ _ H). auto.
  Qed.
  Lemma records_new : forall ng cp es p, records (new_gadata false ng cp es p).
  Proof. intros. split; auto. exists []. cbn. repeat split; auto. Qed.
  Lemma history_records : forall gd, history gd -> records gd.
  Proof.
    induction 1 as [ng cp es p|gd gd1 s gd' s' H IH Sr Sc U]; [apply records_new|]. apply (records_ext _ _ Sr) in IH. pose proof IH as [Im _].
    unfold update in U. rewrite Im in U. apply update_single_ok in U. destruct U as (-> & l0 & b & md & w & So & Hm & Hw & Hb & ->).
    apply sorted_from_perm in So. destruct (Sc b) as (y & Ey & Oy); [eapply Permutation_in; [exact So|]; apply in_or_app; right; left; auto|].
    apply (records_snoc gd1 _ (heap s b) y (score (heap s md)) (score (heap s w))); auto.
    cbn [updated best_solution no_improve]. symmetry. apply surjective_pairing.
  Qed.

  (** *** The evaluations behind the members *)
  (** The individual carries the result of a call on its own point. *)
  Definition justified (f : fitness) (g : gspec) (lg : list (list gv * oval)) (i : individ) : Prop :=
    decoded g i /\ exists v gen best i0 j, In (point g i, v) lg /\ fresh g i0 /\ assess f gen best v i0 = inr j /\ same_core j i.
  Lemma point_core : forall g i j, same_core i j -> point g i = point g j.
  Proof. intros g i j (E1 & E2 & _). unfold point. rewrite E1, E2. reflexivity. Qed.
  Lemma justified_core : forall f g lg lg' i i', incl lg lg' -> same_core i i' -> justified f g lg i -> justified f g lg' i'.
  Proof.
    intros f g lg lg' i i' Il E (D & v & gen & best & i0 & j & I & F & A & C).
    split; [destruct E as (E1 & E2 & _); unfold decoded in *; rewrite <- E1, <- E2; exact D|]. exists v, gen, best, i0, j. rewrite <- (point_core g i i' E).
    repeat split; auto; try apply F; try (apply (same_core_trans _ _ _ C E)).
  Qed.
  Lemma assess_point : forall f g gen best v i j, assess f gen best v i = inr j -> point g j = point g i.
  Proof. intros f g gen best v i j H. apply assess_keeps in H. destruct H as (E1 & E2 & _). unfold point. rewrite E1, E2. reflexivity. Qed.
  (** [cs] are the calls made so far in this run. *)
  Definition just_inv (f : fitness) (g : gspec) (lg0 : list (list gv * oval)) (c : comps) (gd : gadata) (s : st) : Prop :=
    gspec_of (population gd) = g /\ exists cs, log s = cs ++ lg0 /\
    (forall r, In r (members (population gd)) -> justified f g cs (heap s r)) /\
    exists i k, best_solution gd = BSingle i k /\ justified f g cs i.
  Lemma just_inv_first : forall f gd0 s0 gd s cs l0 bst md w c, Init gd0 s0 -> First f gd0 s0 gd s cs l0 bst md w ->
    just_inv f (gspec_of (population gd0)) (log s0) c gd s.
  Proof.
    intros f gd0 s0 gd s cs l0 bst md w c I F. pose proof (fi_pop _ _ _ _ _ _ _ _ _ _ F) as Ep. split; [rewrite Ep; reflexivity|].
    exists (rev cs). split; [apply (fi_log _ _ _ _ _ _ _ _ _ _ F)|].
    destruct (fi_members _ _ _ _ _ _ _ _ _ _ F) as [Em Pm].
    assert (J : forall r, In r (members (population gd)) -> justified f (gspec_of (population gd0)) (rev cs) (heap s r)).
    { intros r Hr. apply (Permutation_in _ Pm) in Hr. destruct (assessed_in _ _ _ _ _ _ _ _ _ _ (fi_eval _ _ _ _ _ _ _ _ _ _ F) Hr) as (v & k & Iv & Cv & Av).
      split. { destruct (in_fresh _ _ I r Hr) as [_ D]. apply assess_keeps in Av. destruct Av as (A1 & A2 & _). unfold decoded in *. rewrite A1, A2. exact D. }
      exists v, 0, BNone, (heap s0 r), (heap s r). rewrite (assess_point _ _ _ _ _ _ _ Av). split.
      - apply -> in_rev. auto.
      - split; [apply (in_fresh _ _ I); auto|]. split; auto. apply same_core_refl. }
    split; auto. destruct (fi_best _ _ _ _ _ _ _ _ _ _ F) as [Eb _]. exists (heap s bst), 0. split; auto. apply J. rewrite Em. apply in_or_app; right; left; auto.
  Qed.
  Lemma just_inv_step : forall f g lg0 c1 gd1 s1 c2 gd2 s2 kids els h cs l0 bst md w, c_fitness c1 = f -> GI ok gd1 s1 -> just_inv f g lg0 c1 gd1 s1 ->
    Step c1 gd1 s1 c2 gd2 s2 kids els h cs l0 bst md w -> just_inv f g lg0 c2 gd2 s2.
  Proof.
    intros f g lg0 c1 gd1 s1 c2 gd2 s2 kids els h cs l0 bst md w Ef G1 (Eg & cs0 & El & J & i & k & Eb & Ji) St.
    pose proof (st_pop _ _ _ _ _ _ _ _ _ _ _ _ _ _ St) as Ep. split; [rewrite Ep; exact Eg|].
    exists (rev cs ++ cs0). split; [rewrite (st_log _ _ _ _ _ _ _ _ _ _ _ _ _ _ St), El, app_assoc; auto|].
    destruct (st_members _ _ _ _ _ _ _ _ _ _ _ _ _ _ St) as [Em Pm].
    assert (Il : incl cs0 (rev cs ++ cs0)) by apply incl_appr, incl_refl.
    assert (J2 : forall r, In r (members (population gd2)) -> justified f g (rev cs ++ cs0) (heap s2 r)).
    { intros r Hr. apply (Permutation_in _ Pm) in Hr. apply in_app_or in Hr. destruct Hr as [Hr|Hr].
      - destruct (assessed_in _ _ _ _ _ _ _ _ _ _ (st_eval _ _ _ _ _ _ _ _ _ _ _ _ _ _ St) Hr) as (v & k' & Iv & Cv & Av). rewrite Eg, Ef in *.
        split. { destruct (st_fresh _ _ _ _ _ _ _ _ _ _ _ _ _ _ St r Hr) as [_ D]. rewrite Eg in D. pose proof (assess_keeps _ _ _ _ _ _ Av) as (A1 & A2 & _). unfold decoded in *. rewrite A1, A2. exact D. }
        exists v, (idx_generation gd1), (best_solution gd1), (h r), (heap s2 r). rewrite (assess_point _ _ _ _ _ _ _ Av). split.
        + apply in_or_app; left. apply -> in_rev. auto.
        + split; [rewrite <- Eg; apply (st_fresh _ _ _ _ _ _ _ _ _ _ _ _ _ _ St); auto|]. split; auto. apply same_core_refl.
      - assert (Hm : In r (members (population gd1))).
        { destruct (st_els _ _ _ _ _ _ _ _ _ _ _ _ _ _ St) as (e & b' & l1 & E & E1 & Ie). subst els. apply in_app_or in Hr. destruct Hr as [Hr|[<-|[]]]; auto.
          rewrite E1. apply in_or_app; right; left; auto. }
        eapply justified_core; [exact Il| |apply J; exact Hm]. apply (st_core _ _ _ _ _ _ _ _ _ _ _ _ _ _ St). apply (gi_alloc _ _ _ G1). auto. }
    split; auto. pose proof (st_best _ _ _ _ _ _ _ _ _ _ _ _ _ _ St) as Ba. unfold best_after in Ba. rewrite Eb in Ba.
    destruct (sv_lt (score i) (score (heap s2 bst))); inversion Ba as [[B1 B2]].
    - exists (heap s2 bst), (idx_generation gd1). split; auto. apply J2. rewrite Em. apply in_or_app; right; left; auto.
    - exists i, k. split; auto. eapply justified_core; [exact Il|apply same_core_refl|exact Ji].
  Qed.

  (** *** No evaluated individual beats best_solution *)
  (** [calls] are the calls made so far in this run. *)
  Definition top_inv (f : fitness) (g : gspec) (lg0 : list (list gv * oval)) (c : comps) (gd : gadata) (s : st) : Prop :=
    exists cs i k x, log s = cs ++ lg0 /\ best_solution gd = BSingle i k /\ score i = SV1 x /\ ok x /\
      forall pv, In pv cs -> exists gen best i0 j y, fresh g i0 /\ assess f gen best (snd pv) i0 = inr j /\ score j = SV1 y /\ ok y /\ nltb x y = false.
  Lemma top_inv_first : forall f gd0 s0 gd s cs l0 bst md w c, Init gd0 s0 -> First f gd0 s0 gd s cs l0 bst md w -> GI ok gd s ->
    top_inv f (gspec_of (population gd0)) (log s0) c gd s.
  Proof.
    intros f gd0 s0 gd s cs l0 bst md w c I F G. destruct (fi_members _ _ _ _ _ _ _ _ _ _ F) as [Em Pm].
    destruct (gi_settled _ _ _ G bst) as [(x & Ex & Ox) _]; [rewrite Em; apply in_or_app; right; left; auto|].
    exists (rev cs), (heap s bst), 0, x. split; [apply (fi_log _ _ _ _ _ _ _ _ _ _ F)|]. split; [apply (fi_best _ _ _ _ _ _ _ _ _ _ F)|]. split; auto. split; auto.
    intros pv Hp. apply in_rev in Hp. destruct (assessed_call _ _ _ _ _ _ _ _ _ _ (fi_eval _ _ _ _ _ _ _ _ _ _ F) Hp) as (r & Hr & _ & Av).
    assert (Hr2 : In r (members (population gd))) by (apply (Permutation_in _ (Permutation_sym Pm)); auto).
    destruct (gi_settled _ _ _ G r Hr2) as [(y & Ey & Oy) _].
    exists 0, BNone, (heap s0 r), (heap s r), y. split; [apply (in_fresh _ _ I); auto|]. split; auto. split; auto. split; auto.
    apply (asc_last ok KScore s l0 bst r y x NL); auto; try (rewrite <- Em; auto; apply (gi_asc _ _ _ G)); cbn; congruence.
  Qed.
  Lemma top_inv_step : forall f g lg0 c1 gd1 s1 c2 gd2 s2 kids els h cs l0 bst md w, c_fitness c1 = f -> gspec_of (population gd1) = g ->
    GI ok gd1 s1 -> GI ok gd2 s2 -> top_inv f g lg0 c1 gd1 s1 ->
    Step c1 gd1 s1 c2 gd2 s2 kids els h cs l0 bst md w -> top_inv f g lg0 c2 gd2 s2.
  Proof.
    intros f g lg0 c1 gd1 s1 c2 gd2 s2 kids els h cs l0 bst md w Ef Eg G1 G2 (cs0 & i & k & x & El & Eb & Ei & Ox & K) St.
    destruct (st_members _ _ _ _ _ _ _ _ _ _ _ _ _ _ St) as [Em Pm].
    destruct (gi_settled _ _ _ G2 bst) as [(x2 & Ex2 & Ox2) _]; [rewrite Em; apply in_or_app; right; left; auto|].
    pose proof (st_best _ _ _ _ _ _ _ _ _ _ _ _ _ _ St) as Ba. unfold best_after in Ba. rewrite Eb in Ba.
    unfold sv_lt in Ba. rewrite Ei, Ex2 in Ba. cbn [sv_ltb] in Ba.
    assert (New : forall pv, In pv cs -> exists gen best i0 j y, fresh g i0 /\ assess f gen best (snd pv) i0 = inr j /\ score j = SV1 y /\ ok y /\ nltb x2 y = false).
    { intros pv Hp. destruct (assessed_call _ _ _ _ _ _ _ _ _ _ (st_eval _ _ _ _ _ _ _ _ _ _ _ _ _ _ St) Hp) as (r & Hr & _ & Av).
      assert (Hr2 : In r (members (population gd2))) by (apply (Permutation_in _ (Permutation_sym Pm)); apply in_or_app; auto).
      destruct (gi_settled _ _ _ G2 r Hr2) as [(y & Ey & Oy) _].
      exists (idx_generation gd1), (best_solution gd1), (h r), (heap s2 r), y. split; [rewrite <- Eg; apply (st_fresh _ _ _ _ _ _ _ _ _ _ _ _ _ _ St); auto|].
      split; [congruence|]. split; auto. split; auto.
      apply (asc_last ok KScore s2 l0 bst r y x2 NL); auto; try (rewrite <- Em; auto; apply (gi_asc _ _ _ G2)); cbn; congruence. }
    assert (El2 : log s2 = (rev cs ++ cs0) ++ lg0) by (rewrite (st_log _ _ _ _ _ _ _ _ _ _ _ _ _ _ St), El, app_assoc; auto).
    destruct (nltb x x2) eqn:L; inversion Ba as [[B1 B2]].
    - exists (rev cs ++ cs0), (heap s2 bst), (idx_generation gd1), x2. split; auto. split; auto. split; auto. split; auto.
      intros pv Hp. apply in_app_or in Hp. destruct Hp as [Hp|Hp]; [apply in_rev in Hp; auto|].
      destruct (K pv Hp) as (gen & best & i0 & j & y & F & A & E & Oy & N). exists gen, best, i0, j, y. repeat split; auto; try apply F.
      destruct (nltb x2 y) eqn:C; auto. pose proof (no_trans _ _ NL x x2 y Ox Ox2 Oy L C). congruence.
    - exists (rev cs ++ cs0), i, k, x. split; auto. split; auto. split; auto. split; auto.
      intros pv Hp. apply in_app_or in Hp. destruct Hp as [Hp|Hp]; [apply in_rev in Hp|auto].
      destruct (New pv Hp) as (gen & best & i0 & j & y & F & A & E & Oy & N). exists gen, best, i0, j, y. repeat split; auto; try apply F.
      apply (no_negtrans _ _ NL) with x2; auto.
  Qed.
End HistoryProofs.
