(** Proofs about the selections (Selection.v): tournaments, frames, hanging. *)
From Coq Require Import String.
From Coq Require Import ZArith QArith List Bool Lia Permutation.
From Verif Require Import Spec Num State Binary Population GaData Selection ListLemmas Rnd Exec Laws CrossoverProofs PopulationProofs.
Import ListNotations.
Open Scope list_scope.
Open Scope Z_scope.

Lemma py_nth_nat : forall {A} (l : list A) i, 0 <= i < Z.of_nat (length l) -> py_nth l i = nth_error l (Z.to_nat i).
Proof.
  intros A l i H. unfold py_nth. destruct (i <? 0) eqn:E; [apply Z.ltb_lt in E; lia|].
  rewrite E. destruct (Z.of_nat (length l) <=? i) eqn:E1; [apply Z.leb_le in E1; lia|]. reflexivity.
Qed.
Lemma py_nth_in : forall {A} (l : list A) i x, py_nth l i = Some x -> In x l.
Proof.
  intros A l i x H. unfold py_nth in H. destruct (_ || _); [discriminate|]. eapply nth_error_In; eauto.
Qed.

Section SelectionProofs.
  Context {NO : NumOps}.

  (** [possible] for computations that also read the (fixed) heap of [s]. *)
  Definition possible_in (s : st) {A} (m : M A) (R : A -> Prop) : Prop :=
    (forall t, exists a t', m (set_tape t s) = Ok a (set_tape t' s) /\ R a) /\
    (forall a, R a -> exists ds, forall t, m (set_tape (papp ds t) s) = Ok a (set_tape t s)).
  Lemma possible_in_of : forall s {A} (m : M A) R, possible m R -> possible_in s m R.
  Proof.
    intros s A m R [H1 H2]. split.
    - intros t. destruct (H1 (set_tape t s)) as (a & t' & E & Ra). exists a, t'. rewrite E. auto.
    - intros a Ra. destruct (H2 a Ra) as (ds & H). exists ds. intros t. apply H.
  Qed.
  Lemma possible_in_sound : forall s {A} (m : M A) R a s', possible_in s m R -> m s = Ok a s' ->
    R a /\ s' = set_tape (tape s') s.
  Proof.
    intros s A m R a s' [H _] E. destruct (H (tape s)) as (a' & t' & E' & Ra). rewrite set_tape_same, E in E'.
    inversion E'; subst. auto.
  Qed.

  (** *** The key compared by a tournament *)
  Definition key_at (idx : option Z) (i : individ) : option num :=
    match idx, score i with
    | None, SV1 x => Some x
    | Some k, SVL l => py_nth l k
    | _, _ => None
    end.
  Lemma better_key : forall idx c b x y s, key_at idx c = Some x -> key_at idx b = Some y ->
    better idx c b s = Ok (nltb y x) s.
  Proof.
    intros idx c b x y s Hc Hb. unfold better, key_at in *. destruct idx as [k|].
    - destruct (score c); try discriminate. destruct (score b); try discriminate. cbn [sv_at].
      unfold bind, lift_opt. rewrite Hc, Hb. reflexivity.
    - destruct (score c); try discriminate. destruct (score b); try discriminate. inversion Hc; inversion Hb; subst. reflexivity.
  Qed.

  (** [b] wins some tournament of [t] positions of [l]: it sits at one of them and no
      other has a larger key. *)
  Definition can_win (s : st) (idx : option Z) (t : Z) (l : list nat) (b : nat) : Prop :=
    exists q others, nth_error l q = Some b /\ NoDup (q :: others) /\ Z.of_nat (S (length others)) = t /\
      forall p, In p others -> exists r x y, nth_error l p = Some r /\ key_at idx (heap s r) = Some x /\
        key_at idx (heap s b) = Some y /\ nltb y x = false.
  Definition keys_ok (ok : num -> Prop) (s : st) (idx : option Z) (l : list nat) : Prop :=
    forall r, In r l -> exists x, key_at idx (heap s r) = Some x /\ ok x.

  Lemma get_best_loop_stays : forall idx l rest b s,
    (forall p, In p rest -> 0 <= p < Z.of_nat (length l) /\ exists r x y, nth_error l (Z.to_nat p) = Some r /\
       key_at idx (heap s r) = Some x /\ key_at idx (heap s b) = Some y /\ nltb y x = false) ->
    get_best_loop idx l rest b s = Ok b s.
  Proof.
    induction rest as [|p rest IH]; intros b s H; cbn [get_best_loop]; [reflexivity|].
    destruct (H p (or_introl eq_refl)) as (Hp & r & x & y & Hr & Hx & Hy & Hn).
    unfold bind at 1. unfold lift_opt. rewrite py_nth_nat by auto. rewrite Hr.
    unfold bind at 1 2. unfold get. unfold bind. rewrite (better_key idx _ _ _ _ s Hx Hy), Hn.
    apply IH. intros p' Hp'. apply H. right; auto.
  Qed.

  Lemma get_best_loop_ok : forall (ok : num -> Prop), NumOrder NO ok -> forall idx l rest best s b s',
    keys_ok ok s idx l -> In best l ->
    (forall p, In p rest -> 0 <= p < Z.of_nat (length l)) ->
    get_best_loop idx l rest best s = Ok b s' ->
    s' = s /\ (b = best \/ exists p, In p rest /\ nth_error l (Z.to_nat p) = Some b) /\
    forall y, key_at idx (heap s b) = Some y ->
      (forall x, key_at idx (heap s best) = Some x -> nltb y x = false) /\
      (forall p r x, In p rest -> nth_error l (Z.to_nat p) = Some r -> key_at idx (heap s r) = Some x -> nltb y x = false).
  Proof.
    intros ok NL idx l. induction rest as [|p rest IH]; intros best s b s' K Hb Hr H; cbn [get_best_loop] in H.
    - apply ret_ok in H. destruct H as [-> ->]. split; auto. split; auto. intros y Hy. split; [|intros p r x []].
      intros x Hx. rewrite Hy in Hx. inversion Hx; subst. destruct (K best Hb) as (z & Hz & Oz).
      rewrite Hy in Hz. inversion Hz; subst. apply (no_irrefl _ _ NL); auto.
    - bd H r s1 R1. apply lift_opt_ok in R1. destruct R1 as [E ->]. rewrite py_nth_nat in E by (apply Hr; left; auto).
      bd H ri s2 R2. apply get_ok in R2. destruct R2 as [-> ->]. bd H bi s3 R3. apply get_ok in R3. destruct R3 as [-> ->].
      bd H v s4 R4. assert (Hrl : In r l) by (eapply nth_error_In; eauto).
      destruct (K r Hrl) as (xr & Kr & Or). destruct (K best Hb) as (xb & Kb & Ob).
      rewrite (better_key idx _ _ _ _ s Kr Kb) in R4. inversion R4; subst v s4. clear R4.
      destruct (nltb xb xr) eqn:Lt.
      + apply IH in H; auto; [|intros; apply Hr; right; auto]. destruct H as (-> & Hin & Hmax). split; auto. split.
        * right. destruct Hin as [->|(p' & Hp & Hn)]; [exists p; split; [left; auto|auto]|exists p'; split; [right; auto|auto]].
        * intros y Hy. destruct (Hmax y Hy) as [M1 M2].
          assert (Oy : ok y).
          { assert (In b l). { destruct Hin as [->|(p' & Hp & Hn)]; [auto|eapply nth_error_In; eauto]. }
            destruct (K b H) as (z & Hz & Oz). rewrite Hy in Hz. inversion Hz; subst. auto. }
          assert (Y1 : nltb y xr = false) by (apply M1; auto).
          split.
          -- intros x Hx. rewrite Kb in Hx. inversion Hx; subst. apply (no_negtrans _ _ NL) with xr; auto. apply (lt_asym NL); auto.
          -- intros p' r' x [<-|Hp] Hn Hx; [|eapply M2; eauto]. rewrite E in Hn. inversion Hn; subst. apply M1; auto.
      + apply IH in H; auto; [|intros; apply Hr; right; auto]. destruct H as (-> & Hin & Hmax). split; auto. split.
        * destruct Hin as [->|(p' & Hp & Hn)]; [auto|right; exists p'; split; [right; auto|auto]].
        * intros y Hy. destruct (Hmax y Hy) as [M1 M2].
          assert (Oy : ok y).
          { assert (In b l). { destruct Hin as [->|(p' & Hp & Hn)]; [auto|eapply nth_error_In; eauto]. }
            destruct (K b H) as (z & Hz & Oz). rewrite Hy in Hz. inversion Hz; subst. auto. }
          split; auto. intros p' r' x [<-|Hp] Hn Hx; [|eapply M2; eauto].
          rewrite E in Hn. inversion Hn; subst. rewrite Kr in Hx. inversion Hx; subst.
          apply (no_negtrans _ _ NL) with xb; auto.
  Qed.
  Lemma get_best_total : forall (ok : num -> Prop) idx l rest best s,
    keys_ok ok s idx l -> In best l -> (forall p, In p rest -> 0 <= p < Z.of_nat (length l)) ->
    exists b, get_best_loop idx l rest best s = Ok b s.
  Proof.
    intros ok idx l. induction rest as [|p rest IH]; intros best s K Hb Hr; cbn [get_best_loop]; [eexists; reflexivity|].
    assert (Hp : 0 <= p < Z.of_nat (length l)) by (apply Hr; left; auto).
    unfold bind at 1. unfold lift_opt. rewrite py_nth_nat by auto.
    destruct (nth_error l (Z.to_nat p)) as [r|] eqn:E; [|apply nth_error_None in E; lia].
    unfold bind at 1 2, get. assert (Hrl : In r l) by (eapply nth_error_In; eauto).
    destruct (K r Hrl) as (xr & Kr & Or). destruct (K best Hb) as (xb & Kb & Ob).
    unfold bind. rewrite (better_key idx _ _ _ _ s Kr Kb). apply IH; auto; [destruct (nltb xb xr); auto|intros; apply Hr; right; auto].
  Qed.

  (** The possible winners of one tournament, exactly. *)
  Lemma run_tournament_possible : forall (ok : num -> Prop), NumOrder NO ok -> forall s idx t l,
    keys_ok ok s idx l -> 1 <= t <= Z.of_nat (length l) ->
    possible_in s (run_tournament idx t l) (can_win s idx t l).
  Proof.
    intros ok NL s idx t l K Ht.
    assert (Hs : possible (sample (zrange 0 (Z.of_nat (length l))) t) (picks (Z.to_nat t) (zrange 0 (Z.of_nat (length l))))).
    { apply possible_sample. rewrite zrange_length_Z. lia. }
    assert (Hpk : forall tr, picks (Z.to_nat t) (zrange 0 (Z.of_nat (length l))) tr <->
       length tr = Z.to_nat t /\ NoDup tr /\ incl tr (zrange 0 (Z.of_nat (length l)))).
    { intros tr. apply picks_nodup_iff. apply zrange_nodup. }
    split.
    - intros tp. destruct (proj1 Hs (set_tape tp s)) as (tr & t' & E & P). apply Hpk in P. destruct P as (L & ND & I).
      destruct tr as [|p rest]; [cbn in L; lia|].
      assert (Rg : forall p', In p' (p :: rest) -> 0 <= p' < Z.of_nat (length l)) by (intros p' Hp; apply I, in_zrange in Hp; auto).
      assert (Hp : 0 <= p < Z.of_nat (length l)) by (apply Rg; left; auto).
      destruct (nth_error l (Z.to_nat p)) as [r|] eqn:Er; [|apply nth_error_None in Er; lia].
      assert (Hrl : In r l) by (eapply nth_error_In; eauto).
      destruct (get_best_total ok idx l rest r (set_tape t' s)) as (b & Eb); auto; [intros; apply Rg; right; auto|].
      exists b, t'. split.
      + unfold run_tournament, bind. rewrite E. cbn [get_best]. unfold bind, lift_opt. rewrite py_nth_nat by auto. rewrite Er.
        rewrite set_tape_set. exact Eb.
      + apply (get_best_loop_ok ok NL) in Eb; auto; [|intros; apply Rg; right; auto].
        destruct Eb as (_ & Hin & Hmax).
        assert (Q : exists q, In q (p :: rest) /\ nth_error l (Z.to_nat q) = Some b).
        { destruct Hin as [->|(q & Hq & Hn)]; [exists p; split; [left; auto|auto]|exists q; split; [right; auto|auto]]. }
        destruct Q as (q & Hq & Hn). apply in_split in Hq. destruct Hq as (l1 & l2 & Hq).
        exists (Z.to_nat q), (map Z.to_nat (l1 ++ l2)). split; auto. split; [|split].
        * change (NoDup (map Z.to_nat (q :: l1 ++ l2))). apply (Permutation_NoDup (l := map Z.to_nat (p :: rest))).
          { apply Permutation_map. rewrite Hq. symmetry. apply Permutation_middle. }
          { apply NoDup_nth_error. intros i j Hi Eij. rewrite map_length in Hi. rewrite !nth_error_map in Eij.
            destruct (nth_error (p :: rest) i) as [x|] eqn:Ex; [|apply nth_error_None in Ex; lia].
            destruct (nth_error (p :: rest) j) as [y|] eqn:Ey; [|discriminate]. cbn in Eij. inversion Eij.
            assert (x = y). { pose proof (Rg x (nth_error_In _ _ Ex)). pose proof (Rg y (nth_error_In _ _ Ey)). lia. }
            subst y. rewrite NoDup_nth_error in ND. apply ND; [lia|congruence]. }
        * rewrite map_length. assert (length (p :: rest) = S (length (l1 ++ l2))) by (rewrite Hq; rewrite !app_length; cbn; lia). lia.
        * intros p' Hp'. apply in_map_iff in Hp'. destruct Hp' as (z & <- & Hz).
          assert (Hz' : In z (p :: rest)) by (rewrite Hq; apply in_app_or in Hz; apply in_or_app; destruct Hz; [auto|right; right; auto]).
          pose proof (Rg z Hz'). destruct (nth_error l (Z.to_nat z)) as [rz|] eqn:Ez; [|apply nth_error_None in Ez; lia].
          destruct (K rz (nth_error_In _ _ Ez)) as (x & Kx & _). destruct (K b (nth_error_In _ _ Hn)) as (y & Ky & _).
          exists rz, x, y. split; auto. split; auto. split; auto. destruct (Hmax y Ky) as [M1 M2].
          destruct Hz' as [<-|Hz']; [|eapply M2; eauto]. rewrite Er in Ez. inversion Ez; subst. apply M1; auto.
    - intros b (q & others & Hq & ND & L & Hm).
      assert (Hql : (q < length l)%nat) by (apply nth_error_Some; congruence).
      set (tr := map Z.of_nat (q :: others)).
      assert (P : picks (Z.to_nat t) (zrange 0 (Z.of_nat (length l))) tr).
      { apply Hpk. unfold tr. rewrite map_length. cbn [length]. split; [lia|]. split.
        - apply FinFun.Injective_map_NoDup; auto. intros x y Exy. lia.
        - intros z Hz. apply in_map_iff in Hz. destruct Hz as (p & <- & Hp). apply in_zrange.
          destruct Hp as [<-|Hp]; [lia|]. destruct (Hm p Hp) as (r & _ & _ & Hr & _).
          assert (p < length l)%nat by (apply nth_error_Some; congruence). lia. }
      destruct (proj2 Hs tr P) as (ds & Hds). exists ds. intros tp. unfold run_tournament, bind. rewrite Hds.
      unfold tr. cbn [map get_best]. unfold bind, lift_opt. rewrite py_nth_nat by lia. rewrite Nat2Z.id, Hq.
      apply get_best_loop_stays. intros p Hp. apply in_map_iff in Hp. destruct Hp as (p' & <- & Hp').
      destruct (Hm p' Hp') as (r & x & y & Hr & H1 & H2 & H3).
      assert (p' < length l)%nat by (apply nth_error_Some; congruence). split; [lia|]. rewrite Nat2Z.id. eauto 8.
  Qed.
  Lemma rnd_only_better : forall idx c b, rnd_only (better idx c b).
  Proof.
    intros [k|] c b; cbn [better]; [|unfold m_ltb; auto with rnd].
    apply rnd_only_bind; [unfold sv_at; destruct (score c); auto with rnd|]. intros.
    apply rnd_only_bind; [unfold sv_at; destruct (score b); auto with rnd|]. intros; auto with rnd.
  Qed.
  Lemma rnd_only_tournament : forall idx t l, rnd_only (run_tournament idx t l).
  Proof.
    intros. unfold run_tournament. apply rnd_only_bind; auto with rnd. intros [|p rest]; cbn [get_best]; auto with rnd.
    apply rnd_only_bind; auto with rnd. induction rest as [|p' rest IH]; intros best; cbn [get_best_loop]; auto with rnd.
    repeat (apply rnd_only_bind; auto with rnd; intros). apply rnd_only_better.
  Qed.
  Lemma rnd_only_second : forall f idx t l first, rnd_only (second_parent f idx t l first).
  Proof.
    induction f; intros; cbn [second_parent]; auto with rnd. apply rnd_only_bind; [apply rnd_only_tournament|]. intros.
    repeat (apply rnd_only_bind; auto with rnd; intros). destruct (opt_eqb _ _ _); auto with rnd.
  Qed.
  (** The winner is a member whatever the scores are. *)
  Lemma run_tournament_in : forall idx t l s b s', run_tournament idx t l s = Ok b s' -> In b l.
  Proof.
    intros idx t l s b s' H. unfold run_tournament in H. bd H tr s1 R1. destruct tr as [|p rest]; [discriminate|]. cbn [get_best] in H.
    bd H r s2 R2. apply lift_opt_ok in R2. destruct R2 as [E ->]. apply py_nth_in in E.
    clear R1 p. revert r E s1 H. induction rest as [|p rest IH]; intros r E s1 H; cbn [get_best_loop] in H.
    - apply ret_ok in H. destruct H as [-> _]. auto.
    - bd H r' s3 R3. apply lift_opt_ok in R3. destruct R3 as [E' ->]. apply py_nth_in in E'.
      bd H ri s4 R4. bd H bi s5 R5. bd H v s6 R6. apply IH in H; auto. destruct v; auto.
  Qed.
  Lemma can_win_ext : forall s s' idx t l b, (forall r, In r l -> heap s' r = heap s r) ->
    can_win s idx t l b -> can_win s' idx t l b.
  Proof.
    intros s s' idx t l b E (q & others & Hq & ND & L & Hm). exists q, others. split; auto. split; auto. split; auto.
    intros p Hp. destruct (Hm p Hp) as (r & x & y & Hr & Hx & Hy & Hn). exists r, x, y.
    rewrite !E; auto; eapply nth_error_In; eauto.
  Qed.
  Lemma keys_ok_ext : forall ok s s' idx l, (forall r, In r l -> heap s' r = heap s r) ->
    keys_ok ok s idx l -> keys_ok ok s' idx l.
  Proof. intros ok s s' idx l E K r Hr. rewrite E; auto. Qed.
  Lemma opt_eqb_Z : forall a b, opt_eqb Z.eqb a b = true <-> a = b.
  Proof.
    intros [x|] [y|]; simpl; split; intros H; try discriminate; auto.
    - apply Z.eqb_eq in H. congruence.
    - inversion H. apply Z.eqb_refl.
  Qed.
  Lemma opt_eqb_Zf : forall a b, opt_eqb Z.eqb a b = false <-> a <> b.
  Proof.
    intros a b. pose proof (opt_eqb_Z a b). destruct (opt_eqb Z.eqb a b); split; intros; try discriminate; intuition congruence.
  Qed.

  Lemma second_parent_ok : forall idx t l first s b s' f (W : nat -> Prop),
    (forall tp b s', run_tournament idx t l (set_tape tp s) = Ok b s' -> W b) ->
    second_parent f idx t l first s = Ok b s' ->
    W b /\ idx_individ (heap s b) <> idx_individ (heap s first) /\ s' = set_tape (tape s') s.
  Proof.
    intros idx t l first s b s' f W HW. revert s HW. induction f as [|f IH]; intros s HW H; cbn [second_parent] in H; [discriminate|].
    bd H b1 s1 R1. pose proof (rnd_only_tournament _ _ _ _ _ _ R1) as E1.
    bd H bi s2 R2. apply get_ok in R2. destruct R2 as [-> ->]. bd H fi s3 R3. apply get_ok in R3. destruct R3 as [-> ->].
    destruct (opt_eqb Z.eqb _ _) eqn:E.
    - apply IH in H; [|rewrite E1; intros tp b' s9; rewrite set_tape_set; apply HW]. rewrite E1 in H.
      destruct H as (H1 & H2 & H3). auto.
    - apply ret_ok in H. destruct H as [-> ->]. apply opt_eqb_Zf in E. rewrite E1 in E. split; [|split; auto].
      apply (HW (tape s) b1 s1). rewrite set_tape_same. exact R1.
  Qed.

  (** One pair of parents made from the members [p1], [p2]. *)
  Definition made_pair (s s' : st) (c : nat * nat) (p1 p2 : nat) : Prop :=
    c = (next s, S (next s)) /\ next s' = S (S (next s)) /\ extends s s' /\
    heap s' (next s) = heap s p1 /\ heap s' (S (next s)) = heap s p2.
  Lemma two_allocs : forall i1 i2 s c1 s1 c2 s2, alloc i1 s = Ok c1 s1 -> alloc i2 s1 = Ok c2 s2 ->
    c1 = next s /\ c2 = S (next s) /\ next s2 = S (S (next s)) /\ extends s s2 /\
    heap s2 (next s) = i1 /\ heap s2 (S (next s)) = i2.
  Proof.
    intros i1 i2 s c1 s1 c2 s2 H1 H2. pose proof (extends_alloc _ _ _ _ H1) as X1. pose proof (extends_alloc _ _ _ _ H2) as X2.
    apply frame_alloc in H1. destruct H1 as (_ & -> & E1 & N1 & _). apply frame_alloc in H2. destruct H2 as (_ & -> & E2 & N2 & O2).
    rewrite N1 in *. split; auto. split; auto. split; auto. split; [eapply extends_trans; eauto|].
    split; auto. rewrite O2 by lia. auto.
  Qed.
  Lemma tournament_pair_ok : forall f idx t l s c s' (W : nat -> Prop),
    (forall tp b s', run_tournament idx t l (set_tape tp s) = Ok b s' -> W b) ->
    (forall r, In r l -> (r < next s)%nat) ->
    tournament_pair f idx t l s = Ok c s' ->
    exists p1 p2, made_pair s s' c p1 p2 /\ In p1 l /\ In p2 l /\ W p1 /\ W p2 /\
      idx_individ (heap s p1) <> idx_individ (heap s p2).
  Proof.
    intros f idx t l s c s' W HW Hlt H. unfold tournament_pair in H.
    bd H p1 s1 R1. bd H p2 s2 R2. pose proof (rnd_only_tournament _ _ _ _ _ _ R1) as E1.
    assert (W1 : W p1) by (apply (HW (tape s) p1 s1); rewrite set_tape_same; exact R1).
    pose proof (run_tournament_in _ _ _ _ _ _ R1) as I1.
    assert (I2 : In p2 l /\ W p2 /\ idx_individ (heap s1 p2) <> idx_individ (heap s1 p1) /\ s2 = set_tape (tape s2) s1).
    { destruct (second_parent_ok idx t l p1 s1 p2 s2 f (fun b => In b l /\ W b)) as ((A & B) & C & D); auto.
      intros tp b s0 R. split; [eapply run_tournament_in; eauto|]. rewrite E1 in R. rewrite set_tape_set in R. eapply HW; eauto. }
    destruct I2 as (I2 & W2 & Df & E2).
    bd H i1 s3 R3. apply get_ok in R3. destruct R3 as [-> ->]. bd H i2 s4 R4. apply get_ok in R4. destruct R4 as [-> ->].
    bd H c1 s5 R5. bd H c2 s6 R6. apply ret_ok in H. destruct H as [-> ->].
    destruct (two_allocs _ _ _ _ _ _ _ R5 R6) as (-> & -> & N & X & H1 & H2).
    rewrite E2, E1 in *. cbn [next heap set_tape] in *. exists p1, p2.
    split; [|auto 6]. split; [reflexivity|]. split; [exact N|]. split; [|auto].
    eapply extends_trans; [|exact X]. repeat split; auto.
  Qed.

  Lemma flatten_cons : forall a b l, flatten_pairs ((a, b) :: l) = a :: b :: flatten_pairs l.
  Proof. reflexivity. Qed.
  (** Repeated pairs: the new parents are consecutive fresh references. *)
  Lemma pairs_loop_ok : forall (m : M (nat * nat)) (l : list nat) (P : nat -> nat -> Prop) s0,
    (forall r, In r l -> (r < next s0)%nat) ->
    (forall s1 c s2, extends s0 s1 -> m s1 = Ok c s2 ->
       exists p1 p2, made_pair s1 s2 c p1 p2 /\ In p1 l /\ In p2 l /\ P p1 p2) ->
    forall n s1 ps s2, extends s0 s1 -> mrepeat n m s1 = Ok ps s2 ->
    exists prs, length prs = n /\ flatten_pairs ps = seq (next s1) (2 * n) /\ next s2 = (next s1 + 2 * n)%nat /\
      extends s1 s2 /\ Forall (fun p => In (fst p) l /\ In (snd p) l /\ P (fst p) (snd p)) prs /\
      Forall2 (fun c p => heap s2 c = heap s0 p) (flatten_pairs ps) (flatten_pairs prs).
  Proof.
    intros m l P s0 Hlt Hm. induction n as [|n IH]; intros s1 ps s2 X H; cbn [mrepeat] in H.
    - apply ret_ok in H. destruct H as [-> ->]. exists []. cbn. repeat split; auto.
    - bd H c s3 R1. bd H ps' s4 R2. apply ret_ok in H. destruct H as [-> ->].
      destruct (Hm _ _ _ X R1) as (p1 & p2 & (-> & N & X1 & E1 & E2) & I1 & I2 & HP).
      destruct (IH s3 ps' s4) as (prs & L & F & N' & X2 & A & B); auto; [eapply extends_trans; eauto|].
      exists ((p1, p2) :: prs). split; [cbn; lia|]. rewrite !flatten_cons. rewrite F in *. rewrite N in *.
      replace (2 * S n)%nat with (S (S (2 * n))) by lia. cbn [seq]. split; auto. split; [lia|].
      split; [eapply extends_trans; eauto|]. split; [constructor; cbn; auto|].
      assert (Hold : forall r, In r l -> heap s1 r = heap s0 r) by (intros r Hr; destruct X as (_ & _ & _ & _ & Xh); apply Xh; auto).
      destruct X2 as (_ & _ & _ & _ & Xh2). constructor; [|constructor].
      + rewrite Xh2 by lia. rewrite E1. auto.
      + rewrite Xh2 by lia. rewrite E2. auto.
      + exact B.
  Qed.
  Lemma total_ok : forall m gd s x s', get_total_num_parents m gd s = Ok x s' ->
    s' = s /\ match m with
              | None => ntrunc (nmul (children_percent gd) (nofZ (num_individ (population gd)))) = Some x
              | Some k => exists y, py_div (nmul (children_percent gd) (nofZ (num_individ (population gd)))) (nofZ k) = inr y /\ ntrunc y = Some x
              end.
  Proof.
    intros m gd s x s' H. unfold get_total_num_parents in H. bd H y s1 R1. apply lift_opt_ok in H. destruct H as [E ->]. destruct m.
    - apply lift_ok in R1. destruct R1 as [D ->]. split; auto. eauto.
    - apply ret_ok in R1. destruct R1 as [-> ->]. auto.
  Qed.
  (** Number of pairs asked for. *)
  Definition pairs_wanted (m : option Z) (gd : gadata) (x : Z) : Prop :=
    match m with
    | None => ntrunc (nmul (children_percent gd) (nofZ (num_individ (population gd)))) = Some x
    | Some k => exists y, py_div (nmul (children_percent gd) (nofZ (num_individ (population gd)))) (nofZ k) = inr y /\ ntrunc y = Some x
    end.
  Lemma tournament_ok : forall f m idx t gd s gd' s' (W : nat -> Prop),
    let l := members (population gd) in
    (forall s1 b s2, (forall r, In r l -> heap s1 r = heap s r) -> run_tournament idx t l s1 = Ok b s2 -> W b) ->
    (forall r, In r l -> (r < next s)%nat) ->
    tournament f m idx t gd s = Ok gd' s' ->
    exists x prs, pairs_wanted m gd x /\ length prs = Z.to_nat x /\
      gd' = set_parents (parents gd ++ seq (next s) (2 * length prs)) gd /\
      next s' = (next s + 2 * length prs)%nat /\ extends s s' /\
      Forall (fun p => In (fst p) l /\ In (snd p) l /\ W (fst p) /\ W (snd p) /\
                idx_individ (heap s (fst p)) <> idx_individ (heap s (snd p))) prs /\
      Forall2 (fun c p => heap s' c = heap s p) (seq (next s) (2 * length prs)) (flatten_pairs prs).
  Proof.
    intros f m idx t gd s gd' s' W l HW Hlt H. unfold tournament in H. bd H x s1 R1. apply total_ok in R1. destruct R1 as [-> Hx].
    bd H ps s2 R2. apply ret_ok in H. destruct H as [-> ->].
    apply (pairs_loop_ok _ l (fun p1 p2 => W p1 /\ W p2 /\ idx_individ (heap s p1) <> idx_individ (heap s p2)) s) in R2; auto.
    - destruct R2 as (prs & L & F & N & X & A & B). exists x, prs. rewrite L, <- F. repeat split; auto; try apply X.
    - intros s1 c s3 X R. assert (Hh : forall r, In r l -> heap s1 r = heap s r).
      { intros r Hr. destruct X as (_ & _ & _ & _ & Xh). apply Xh; auto. }
      apply (tournament_pair_ok f idx t l s1 c s3 W) in R.
      + destruct R as (p1 & p2 & Mp & I1 & I2 & W1 & W2 & D). exists p1, p2. rewrite <- (Hh p1), <- (Hh p2) by auto. tauto.
      + intros tp b s4 Rt. exact (HW (set_tape tp s1) _ _ Hh Rt).
      + intros r Hr. destruct X as (Xn & _). specialize (Hlt r Hr). lia.
    - apply extends_refl.
  Qed.
  Lemma base_execute_ok : forall gd s gd' s', base_execute gd s = Ok gd' s' ->
    gd' = set_parents [] gd /\ next s' = next s /\ log s' = log s /\ rnd_seed s' = rnd_seed s /\ prng s' = prng s /\
    forall r, heap s' r = match last_pos 0 (members (population gd)) r with
                          | None => heap s r | Some j => set_idx (Some j) (heap s r) end.
  Proof.
    intros gd s gd' s' H. unfold base_execute in H. bd H u s1 R1. apply reset_idx_ok in R1. destruct R1 as (N & L & S1 & S2 & _ & _ & Hh).
    bd H l s2 R2. apply ret_ok in H. destruct H as [-> ->]. unfold get_empty_copy in R2. bd R2 v s3 R3.
    apply ret_ok in R2. destruct R2 as [-> ->]. apply extends_do_seed in R3. destruct R3 as ((_ & L3 & S3 & P3 & _) & N3 & H3).
    split; auto. split; [congruence|]. split; [congruence|]. split; [congruence|]. split; [congruence|]. intros r. rewrite H3. apply Hh.
  Qed.
  (** The heap after renumbering the members. *)
  Definition renumbered (l : list nat) (s s' : st) : Prop :=
    forall r, heap s' r = match last_pos 0 l r with None => heap s r | Some j => set_idx (Some j) (heap s r) end.
  Lemma renumbered_core : forall l s s' r, renumbered l s s' -> same_core (heap s r) (heap s' r) /\ rank (heap s' r) = rank (heap s r).
  Proof. intros l s s' r H. rewrite H. destruct (last_pos 0 l r); repeat split; auto. Qed.
  Lemma renumbered_key : forall l s s' r idx, renumbered l s s' -> key_at idx (heap s' r) = key_at idx (heap s r).
  Proof. intros l s s' r idx H. rewrite H. destruct (last_pos 0 l r); reflexivity. Qed.
  Lemma can_win_key : forall s s' idx t l b, (forall r, In r l -> key_at idx (heap s' r) = key_at idx (heap s r)) ->
    can_win s idx t l b -> can_win s' idx t l b.
  Proof.
    intros s s' idx t l b E (q & others & Hq & ND & L & Hm). exists q, others. split; auto. split; auto. split; auto.
    intros p Hp. destruct (Hm p Hp) as (r & x & y & Hr & Hx & Hy & Hn). exists r, x, y.
    rewrite !E; auto; eapply nth_error_In; eauto.
  Qed.
  Lemma keys_ok_key : forall ok s s' idx l, (forall r, In r l -> key_at idx (heap s' r) = key_at idx (heap s r)) ->
    keys_ok ok s idx l -> keys_ok ok s' idx l.
  Proof. intros ok s s' idx l E K r Hr. rewrite E; auto. Qed.
  Lemma renumbered_distinct : forall l s s' p1 p2, renumbered l s s' -> In p1 l -> In p2 l ->
    (idx_individ (heap s' p1) <> idx_individ (heap s' p2) <-> p1 <> p2).
  Proof.
    intros l s s' p1 p2 H I1 I2. split; [congruence|]. intros D E. apply D. rewrite !H in E.
    destruct (last_pos 0 l p1) as [j1|] eqn:L1; [|apply (last_pos_in l 0) in I1; congruence].
    destruct (last_pos 0 l p2) as [j2|] eqn:L2; [|apply (last_pos_in l 0) in I2; congruence].
    cbn in E. inversion E; subst. eapply last_pos_inj; eauto.
  Qed.

  (** *** Tournament selection, one call *)
  Lemma check_size_ok : forall t n s u s', check_tournament_size t n s = Ok u s' -> 2 <= t < n /\ s' = s.
  Proof.
    intros t n s u s' H. unfold check_tournament_size in H. destruct ((t <? 2) || (n <=? t)) eqn:E; [discriminate|].
    apply orb_false_iff in E. destruct E as [E1 E2]. apply Z.ltb_ge in E1. apply Z.leb_gt in E2. apply ret_ok in H. destruct H as [_ ->]. split; [lia|reflexivity].
  Qed.
  Lemma tournament_execute_ok : forall f t gd s gd' s',
    let l := members (population gd) in
    (forall r, In r l -> (r < next s)%nat) ->
    selection_execute f (SelTournament t) gd s = Ok gd' s' ->
    2 <= t < num_individ (population gd) /\
    exists x prs, pairs_wanted None gd x /\ length prs = Z.to_nat x /\
      gd' = set_parents (seq (next s) (2 * length prs)) gd /\
      next s' = (next s + 2 * length prs)%nat /\ frame s s' /\
      Forall (fun p => In (fst p) l /\ In (snd p) l /\ fst p <> snd p) prs /\
      (forall (ok : num -> Prop), NumOrder NO ok -> keys_ok ok s None l -> t <= Z.of_nat (length l) ->
         Forall (fun p => can_win s None t l (fst p) /\ can_win s None t l (snd p)) prs) /\
      Forall2 (fun c p => same_core (heap s p) (heap s' c) /\ rank (heap s' c) = rank (heap s p))
              (seq (next s) (2 * length prs)) (flatten_pairs prs).
  Proof.
    intros f t gd s gd' s' l Hlt H. cbn [selection_execute] in H. bd H u s1 R1. apply check_size_ok in R1. destruct R1 as [Ht ->].
    bd H gd1 s2 R2. apply base_execute_ok in R2. destruct R2 as (-> & N2 & L2 & S2 & P2 & Rn).
    change (renumbered l s s2) in Rn. split; auto.
    assert (Hlt2 : forall r, In r l -> (r < next s2)%nat) by (intros r Hr; rewrite N2; auto).
    apply (tournament_ok f None None t _ s2 gd' s' (fun b => forall (ok : num -> Prop), NumOrder NO ok -> keys_ok ok s None l ->
             t <= Z.of_nat (length l) -> can_win s None t l b)) in H; auto.
    - destruct H as (x & prs & Hx & Lp & -> & N & X & F & F2). exists x, prs.
      cbn [population set_parents parents app members] in *. fold l in F, F2 |- *.
      split; [exact Hx|]. split; auto. rewrite <- N2. split; auto. split; auto.
      split.
      { apply frame_trans with s2; [|apply extends_frame; auto]. split; [lia|]. split; auto. split; auto. split; auto.
        intros r _. apply (renumbered_core l s s2 r Rn). }
      split.
      { eapply Forall_impl; [|exact F]. intros [p1 p2]. cbn. intros (I1 & I2 & _ & _ & D). split; auto. split; auto.
        eapply renumbered_distinct; eauto. }
      split.
      { intros ok NL K Hl. eapply Forall_impl; [|exact F]. intros [p1 p2]. cbn. intros (_ & _ & W1 & W2 & _). split; eauto. }
      eapply Forall2_impl; [|exact F2]. intros c p E. rewrite E. apply (renumbered_core l s s2 p Rn).
    - intros s3 b s4 Hh R ok NL K Hl. cbn [population set_parents] in *. fold l in Hh, R, K.
      assert (Ek : forall r, In r l -> key_at None (heap s3 r) = key_at None (heap s r)).
      { intros r Hr. rewrite Hh by auto. eapply renumbered_key; eauto. }
      assert (P : possible_in s3 (run_tournament None t l) (can_win s3 None t l)).
      { apply (run_tournament_possible ok); auto; [|lia]. apply (keys_ok_key ok s s3); auto. }
      apply (possible_in_sound _ _ _ _ _ P) in R. destruct R as [R _].
      apply (can_win_key s3 s); auto. intros r Hr. symmetry. auto.
  Qed.

  (** *** Safety *)
  Lemma run_tournament_safe : forall (ok : num -> Prop), NumOrder NO ok -> forall idx t l s, keys_ok ok s idx l ->
    1 <= t <= Z.of_nat (length l) -> exists b t', run_tournament idx t l s = Ok b (set_tape t' s).
  Proof.
    intros ok NL idx t l s K Ht. destruct (run_tournament_possible ok NL s idx t l K Ht) as [H _].
    destruct (H (tape s)) as (b & t' & E & _). rewrite set_tape_same in E. eauto.
  Qed.
  Lemma second_parent_safe : forall (ok : num -> Prop), NumOrder NO ok -> forall f idx t l first s, keys_ok ok s idx l ->
    1 <= t <= Z.of_nat (length l) -> safe (second_parent f idx t l first) s.
  Proof.
    intros ok NL. induction f as [|f IH]; intros idx t l first s K Ht; cbn [second_parent]; [apply safe_nofuel|].
    destruct (run_tournament_safe ok NL idx t l s K Ht) as (b & t' & E). unfold safe, bind, get. rewrite E.
    destruct (opt_eqb _ _ _); [|intros e; discriminate]. apply IH; auto.
  Qed.
  Lemma tournament_safe : forall (ok : num -> Prop), NumOrder NO ok -> forall f m idx t gd s,
    let l := members (population gd) in
    keys_ok ok s idx l -> 1 <= t <= Z.of_nat (length l) -> (forall r, In r l -> (r < next s)%nat) ->
    (exists x, pairs_wanted m gd x) -> safe (tournament f m idx t gd) s.
  Proof.
    intros ok NL f m idx t gd s l K Ht Hlt [x Hx]. unfold tournament. apply safe_bind.
    { unfold get_total_num_parents. destruct m as [k|]; cbn [pairs_wanted] in Hx.
      - destruct Hx as (y & D & E). apply safe_bind; [eapply safe_lift; eauto|]. intros a s1 R. apply lift_ok in R. destruct R as [R ->].
        rewrite D in R. inversion R; subst. eapply safe_lift_opt; eauto.
      - apply safe_bind; [apply safe_ret|]. intros a s1 R. apply ret_ok in R. destruct R as [-> ->]. eapply safe_lift_opt; eauto. }
    intros n s1 R1. apply total_ok in R1. destruct R1 as [-> _]. apply safe_bind; [|intros; apply safe_ret].
    assert (P0 : extends s s) by apply extends_refl.
    apply safe_mrepeat with (P := fun s1 => extends s s1); auto.
    assert (Hh : forall s1, extends s s1 -> forall r, In r l -> heap s1 r = heap s r).
    { intros s1 X r Hr. destruct X as (_ & _ & _ & _ & Xh). auto. }
    - intros s1 X. assert (K1 : keys_ok ok s1 idx l) by (apply (keys_ok_ext ok s s1); auto).
      unfold tournament_pair. fold l. destruct (run_tournament_safe ok NL idx t l s1 K1 Ht) as (b & t' & E).
      apply safe_bind; [intros e C; rewrite E in C; discriminate|]. intros p1 s2 R. rewrite E in R. inversion R; subst.
      apply safe_bind; [apply (second_parent_safe ok NL); auto|]. intros p2 s3 R2.
      apply safe_bind; [apply safe_get|]. intros. apply safe_bind; [apply safe_get|]. intros.
      apply safe_bind; [apply safe_alloc|]. intros. apply safe_bind; [apply safe_alloc|]. intros. apply safe_ret.
    - intros s1 c s2 X R. apply (tournament_pair_ok f idx t l s1 c s2 (fun _ => True)) in R; auto.
      + destruct R as (p1 & p2 & (_ & _ & X2 & _) & _). eapply extends_trans; eauto.
      + intros r Hr. destruct X as (Xn & _). specialize (Hlt r Hr). lia.
  Qed.
  Lemma base_execute_safe : forall gd s, safe (base_execute gd) s.
  Proof.
    intros. unfold base_execute, get_empty_copy. apply safe_bind; [apply reset_idx_safe|]. intros.
    apply safe_bind; [apply safe_bind; [apply safe_do_seed|intros; apply safe_ret]|intros; apply safe_ret].
  Qed.
  Lemma tournament_execute_safe : forall (ok : num -> Prop), NumOrder NO ok -> forall f t gd s,
    let l := members (population gd) in
    keys_ok ok s None l -> 2 <= t < num_individ (population gd) -> t <= Z.of_nat (length l) ->
    (forall r, In r l -> (r < next s)%nat) ->
    (exists x, pairs_wanted None gd x) -> safe (selection_execute f (SelTournament t) gd) s.
  Proof.
    intros ok NL f t gd s l K Ht Hl Hlt Hx. cbn [selection_execute]. apply safe_bind.
    { unfold check_tournament_size. destruct (t <? 2) eqn:E1; [apply Z.ltb_lt in E1; lia|].
      destruct (num_individ (population gd) <=? t) eqn:E2; [apply Z.leb_le in E2; lia|]. apply safe_ret. }
    intros u s1 R1. apply check_size_ok in R1. destruct R1 as [_ ->]. apply safe_bind; [apply base_execute_safe|].
    intros gd1 s2 R2. apply base_execute_ok in R2. destruct R2 as (-> & N2 & L2 & S2 & P2 & Rn).
    apply (tournament_safe ok NL); cbn [population set_parents]; fold l; try lia; auto.
    - apply (keys_ok_key ok s s2); auto. intros r Hr. eapply renumbered_key; exact Rn.
    - intros r Hr. rewrite N2. auto.
  Qed.
End SelectionProofs.
