(** Proofs about the proportional selections (balanced, ranked, VEGA variants). *)
From Coq Require Import String.
From Coq Require Import ZArith QArith Qabs List Bool Lia Lqa Permutation.
From Verif Require Import Spec Num State Binary Population GaData Selection ListLemmas Rnd Exec Laws CrossoverProofs PopulationProofs
  MutationProofs SelectionProofs TournamentProofs.
Import ListNotations.
Open Scope list_scope.
Open Scope Z_scope.

(** *** The roulette over the rationals *)
Section Roulette.
  Local Existing Instance Qops.

  Definition dist (c r : Q) : Q := @nabs Qops (c - r)%Q.
  Lemma dist_cases : forall c r, ((c < r)%Q /\ (dist c r == r - c)%Q) \/ ((r <= c)%Q /\ (dist c r == c - r)%Q).
  Proof.
    intros. unfold dist, nabs, Qops. destruct (Qltb (c - r) 0) eqn:E; [apply Qltb_iff in E|apply Qltb_iff_f in E].
    - left. split; lra.
    - right. split; lra.
  Qed.
  Lemma argmin_spec : forall r scores pre b cb, nth_error pre b = Some cb ->
    (forall j c, nth_error pre j = Some c -> (dist cb r <= dist c r)%Q) ->
    (forall j c, (j < b)%nat -> nth_error pre j = Some c -> (dist cb r < dist c r)%Q) ->
    exists b' cb', argmin_loop r scores (Z.of_nat (length pre)) (Z.of_nat b) (dist cb r) = Z.of_nat b' /\
      nth_error (pre ++ scores) b' = Some cb' /\
      (forall j c, nth_error (pre ++ scores) j = Some c -> (dist cb' r <= dist c r)%Q) /\
      (forall j c, (j < b')%nat -> nth_error (pre ++ scores) j = Some c -> (dist cb' r < dist c r)%Q).
  Proof.
    intros r scores. induction scores as [|c scores IH]; intros pre b cb Hb Hmin Hfst; cbn [argmin_loop].
    - exists b, cb. rewrite app_nil_r. auto.
    - change (@nabs Qops (@nsub Qops c r)) with (dist c r).
      replace (Z.of_nat (length pre) + 1) with (Z.of_nat (length (pre ++ [c]))) by (rewrite app_length; cbn; lia).
      replace (pre ++ c :: scores) with ((pre ++ [c]) ++ scores) by (rewrite <- app_assoc; reflexivity).
      assert (Hbl : (b < length pre)%nat) by (apply nth_error_Some; congruence).
      change (@nltb Qops (dist c r) (dist cb r)) with (Qltb (dist c r) (dist cb r)).
      destruct (Qltb (dist c r) (dist cb r)) eqn:E; [apply Qltb_iff in E|apply Qltb_iff_f in E].
      + apply IH.
        * rewrite nth_error_app2 by lia. rewrite Nat.sub_diag. reflexivity.
        * intros j c' Hj. destruct (lt_dec j (length pre)) as [L|L].
          { rewrite nth_error_app1 in Hj by auto. apply Hmin in Hj. lra. }
          { rewrite nth_error_app2 in Hj by lia. destruct (j - length pre)%nat as [|k]; [|destruct k; discriminate]. inversion Hj; subst. lra. }
        * intros j c' Hjb Hj. rewrite nth_error_app1 in Hj by auto. apply Hmin in Hj. lra.
      + apply IH.
        * rewrite nth_error_app1 by auto. auto.
        * intros j c' Hj. destruct (lt_dec j (length pre)) as [L|L].
          { rewrite nth_error_app1 in Hj by auto. apply Hmin in Hj. lra. }
          { rewrite nth_error_app2 in Hj by lia. destruct (j - length pre)%nat as [|k]; [|destruct k; discriminate]. inversion Hj; subst. lra. }
        * intros j c' Hjb Hj. rewrite nth_error_app1 in Hj by lia. eapply Hfst; eauto.
  Qed.
  (** On a strictly increasing list the index found is the one of the interval of r. *)
  Lemma index_for_interval : forall scores r i a b,
    (forall j k x y, (j < k)%nat -> nth_error scores j = Some x -> nth_error scores k = Some y -> (x < y)%Q) ->
    nth_error scores i = Some a -> nth_error scores (S i) = Some b -> (a <= r)%Q -> (r < b)%Q ->
    index_for scores r = inr (Z.of_nat i).
  Proof.
    intros scores r i a b Hs Ha Hb Har Hrb. unfold index_for. destruct scores as [|c cs]; [destruct i; discriminate|].
    destruct (argmin_spec r cs [c] 0 c) as (b' & cb' & E & Hn & Hmin & _).
    { reflexivity. }
    { intros [|j] c' Hj; [inversion Hj; subst; lra|destruct j; discriminate]. }
    { intros j c' Hj. lia. }
    cbn [length app] in *. change (Z.of_nat 1) with 1 in E. change (Z.of_nat 0) with 0 in E. unfold dist in E.
    change (@nabs Qops (@nsub Qops c r)) with (@nabs Qops (c - r)%Q). rewrite E, Nat2Z.id. change (@num Qops) with Q. rewrite Hn.
    assert (D : b' = i \/ b' = S i).
    { destruct (lt_eq_lt_dec b' i) as [[L|L]|L]; [exfalso|auto|].
      - pose proof (Hs b' i cb' a L Hn Ha) as Lt. pose proof (Hmin i a Ha) as Mn.
        destruct (dist_cases cb' r) as [[A1 A2]|[A1 A2]]; destruct (dist_cases a r) as [[B1 B2]|[B1 B2]]; lra.
      - destruct (Nat.eq_dec b' (S i)) as [|Ne]; [auto|exfalso].
        assert (L2 : (S i < b')%nat) by lia. pose proof (Hs (S i) b' b cb' L2 Hb Hn) as Lt. pose proof (Hmin (S i) b Hb) as Mn.
        destruct (dist_cases cb' r) as [[A1 A2]|[A1 A2]]; destruct (dist_cases b r) as [[B1 B2]|[B1 B2]]; lra. }
    change (@nleb Qops cb' r) with (Qle_bool cb' r).
    destruct D as [-> | ->].
    - assert (cb' = a) by congruence. subst. assert (Q1 : Qle_bool a r = true) by (apply Qle_bool_iff; auto). rewrite Q1. reflexivity.
    - assert (cb' = b) by congruence. subst. destruct (Qle_bool b r) eqn:Q1; [apply Qle_bool_iff in Q1; lra|]. f_equal. lia.
  Qed.
  Lemma nsum_qsum : forall ws : list Q, (@nsum Qops ws == qsum ws)%Q.
  Proof.
    intros ws. unfold nsum. assert (K : forall (ws : list Q) (a : Q), (fold_left (@nadd Qops) ws a == a + qsum ws)%Q).
    { clear. induction ws as [|w ws IH]; intros a; cbn [fold_left qsum]; [lra|]. rewrite IH. change (@nadd Qops a w) with (a + w)%Q. lra. }
    rewrite K. change (@nzero Qops) with 0%Q. lra.
  Qed.
  Lemma cumul_ok : forall total (ws : list Q) acc, ~ (total == 0)%Q ->
    exists cs : list Q, cumul (total : @num Qops) acc ws = inr cs /\ length cs = length ws /\
      forall k c, nth_error cs k = Some c -> (c == acc + qsum (firstn (S k) ws) / total)%Q.
  Proof.
    intros total. induction ws as [|w ws IH]; intros acc Ht; cbn [cumul].
    - exists []. split; auto. split; auto. intros [|k] c H; discriminate.
    - unfold py_div. change (@neqb Qops total nzero) with (Qeq_bool total 0).
      destruct (Qeq_bool total 0) eqn:E; [apply Qeq_bool_iff in E; contradiction|].
      destruct (IH (@nadd Qops acc (@ndiv_raw Qops w total)) Ht) as (cs & Ec & L & H).
      rewrite Ec. eexists. split; [reflexivity|]. split; [cbn; f_equal; exact L|].
      intros [|k] c Hk; cbn [nth_error] in Hk.
      + inversion Hk; subst. cbn [firstn qsum]. change (@nadd Qops acc (@ndiv_raw Qops w total)) with (acc + w / total)%Q. field. auto.
      + apply H in Hk. rewrite Hk. cbn [firstn qsum]. change (@nadd Qops acc (@ndiv_raw Qops w total)) with (acc + w / total)%Q. field. auto.
  Qed.
  Lemma scores_ok : forall ws : list Q, ~ (qsum ws == 0)%Q -> exists cs : list Q, selection_scores (ws : list (@num Qops)) = inr cs /\
    length cs = S (length ws) /\ forall k c, nth_error cs k = Some c -> (c == cshare ws k)%Q.
  Proof.
    intros ws Hs. unfold selection_scores. destruct (cumul_ok (@nsum Qops ws) ws (@nzero Qops)) as (cs & E & L & H).
    { rewrite nsum_qsum. auto. }
    rewrite E. eexists. split; [reflexivity|]. split; [cbn; f_equal; exact L|].
    intros [|k] c Hk; cbn [nth_error] in Hk.
    - inversion Hk; subst. unfold cshare. cbn [firstn qsum]. change (@nzero Qops) with 0%Q. field. auto.
    - apply H in Hk. rewrite Hk. unfold cshare. rewrite nsum_qsum. change (@nzero Qops) with 0%Q. field. auto.
  Qed.
  Lemma qsum_app : forall a b, (qsum (a ++ b) == qsum a + qsum b)%Q.
  Proof. induction a; intros; cbn [qsum app]; [lra|]. rewrite IHa. lra. Qed.
  Lemma cshare_step : forall ws k, (k < length ws)%nat -> ~ (qsum ws == 0)%Q -> (cshare ws (S k) == cshare ws k + share ws k)%Q.
  Proof.
    intros ws k Hk Hs. unfold cshare, share. assert (E : firstn (S k) ws = firstn k ws ++ [nth k ws 0%Q]).
    { clear Hs. revert k Hk. induction ws as [|w ws IH]; intros k Hk; [cbn in Hk; lia|]. destruct k; [reflexivity|].
      cbn [length] in Hk. cbn [firstn app nth]. f_equal. change (firstn (S k) ws = firstn k ws ++ [nth k ws 0%Q]). apply IH. lia. }
    rewrite E, qsum_app. cbn [qsum]. field. auto.
  Qed.
  Lemma cshare_0 : forall ws, (cshare ws 0 == 0)%Q.
  Proof. intros. unfold cshare. cbn [firstn qsum]. unfold Qdiv. lra. Qed.
  Lemma cshare_end : forall ws, ~ (qsum ws == 0)%Q -> (cshare ws (length ws) == 1)%Q.
  Proof. intros. unfold cshare. rewrite firstn_all. field. auto. Qed.
  Lemma cshare_lt : forall ws j k, (j < k <= length ws)%nat -> ~ (qsum ws == 0)%Q ->
    (forall i, (i < length ws)%nat -> (0 < share ws i)%Q) -> (cshare ws j < cshare ws k)%Q.
  Proof.
    intros ws j k Hk Hs Hp. replace k with (j + S (k - j - 1))%nat by lia. assert (B : (j + S (k - j - 1) <= length ws)%nat) by lia.
    revert B. generalize (k - j - 1)%nat as d. clear k Hk. induction d as [|d IH]; intros B.
    - replace (j + 1)%nat with (S j) by lia. rewrite cshare_step by (auto; lia). specialize (Hp j). assert (0 < share ws j)%Q by (apply Hp; lia). lra.
    - replace (j + S (S d))%nat with (S (j + S d)) by lia. rewrite cshare_step by (auto; lia). assert (0 < share ws (j + S d))%Q by (apply Hp; lia).
      assert (cshare ws j < cshare ws (j + S d))%Q by (apply IH; lia). lra.
  Qed.
  (** All shares positive: exact roulette. *)
  Lemma roulette : forall (ws : list Q) (r : Q), ~ (qsum ws == 0)%Q ->
    (forall i, (i < length ws)%nat -> (0 < share ws i)%Q) -> (0 <= r)%Q -> (r < 1)%Q ->
    exists (scores : list Q) i, selection_scores (ws : list (@num Qops)) = inr scores /\ index_for scores (r : @num Qops) = inr (Z.of_nat i) /\
      (i < length ws)%nat /\ (cshare ws i <= r)%Q /\ (r < cshare ws (S i))%Q.
  Proof.
    intros ws r Hs Hp H0 H1. destruct (scores_ok ws Hs) as (cs & E & L & Hc). exists cs.
    assert (X : exists i, (i < length ws)%nat /\ (cshare ws i <= r)%Q /\ (r < cshare ws (S i))%Q).
    { assert (K : forall n, (n <= length ws)%nat -> (r < cshare ws n)%Q -> exists i, (i < n)%nat /\ (cshare ws i <= r)%Q /\ (r < cshare ws (S i))%Q).
      { induction n as [|n IH]; intros Hn Hr; [rewrite cshare_0 in Hr; lra|].
        destruct (Qlt_le_dec r (cshare ws n)) as [C|C].
        - destruct IH as (i & Hi & A & B); auto; [lia|]. exists i. split; [lia|auto].
        - exists n. split; [lia|auto]. }
      destruct (K (length ws)) as (i & Hi & A & B); [lia|rewrite cshare_end; auto|]. eauto. }
    destruct X as (i & Hi & A & B). exists i. split; auto. split; [|auto].
    destruct (nth_error cs i) as [a|] eqn:Ea; [|apply nth_error_None in Ea; lia].
    destruct (nth_error cs (S i)) as [b|] eqn:Eb; [|apply nth_error_None in Eb; lia].
    apply (index_for_interval cs r i a b); auto.
    - intros j k x y Hjk Hx Hy. apply Hc in Hx as Hx'. apply Hc in Hy as Hy'. rewrite Hx', Hy'. apply cshare_lt; auto.
      assert (k < length cs)%nat by (apply nth_error_Some; congruence). lia.
    - apply Hc in Ea. rewrite Ea. auto.
    - apply Hc in Eb. rewrite Eb. auto.
  Qed.
  Lemma interval_unique : forall (ws : list Q) (r : Q) i j, ~ (qsum ws == 0)%Q ->
    (forall i, (i < length ws)%nat -> (0 < share ws i)%Q) -> (i < length ws)%nat -> (j < length ws)%nat ->
    (cshare ws i <= r)%Q -> (r < cshare ws (S i))%Q -> (cshare ws j <= r)%Q -> (r < cshare ws (S j))%Q -> i = j.
  Proof.
    intros ws r i j Hs Hp Hi Hj A B C D. destruct (lt_eq_lt_dec i j) as [[L|]|L]; auto; exfalso.
    - assert (cshare ws (S i) <= cshare ws j)%Q.
      { destruct (Nat.eq_dec (S i) j) as [<-|]; [lra|]. apply Qlt_le_weak, cshare_lt; auto. lia. } lra.
    - assert (cshare ws (S j) <= cshare ws i)%Q.
      { destruct (Nat.eq_dec (S j) i) as [<-|]; [lra|]. apply Qlt_le_weak, cshare_lt; auto. lia. } lra.
  Qed.
  Lemma qsum_pos : forall ws, ws <> [] -> Forall (fun w => 0 < w)%Q ws -> (0 < qsum ws)%Q.
  Proof.
    intros [|w ws] H F; [congruence|]. inversion F; subst. cbn [qsum].
    assert (K : (0 <= qsum ws)%Q). { clear - H3. induction H3; cbn [qsum]; lra. } lra.
  Qed.
  Lemma share_pos : forall ws, ws <> [] -> Forall (fun w => 0 < w)%Q ws ->
    ~ (qsum ws == 0)%Q /\ forall i, (i < length ws)%nat -> (0 < share ws i)%Q.
  Proof.
    intros ws H F. pose proof (qsum_pos ws H F) as P. split; [lra|]. intros i Hi. unfold share.
    rewrite Forall_forall in F. specialize (F (nth i ws 0%Q) (nth_In _ _ Hi)). cbv beta in F.
    apply Qlt_shift_div_l; auto. lra.
  Qed.
  Lemma qsum_neg : forall ws, ws <> [] -> Forall (fun w => w < 0)%Q ws -> (qsum ws < 0)%Q.
  Proof.
    intros [|w ws] H F; [congruence|]. inversion F; subst. cbn [qsum].
    assert (K : (qsum ws <= 0)%Q). { clear - H3. induction H3; cbn [qsum]; lra. } lra.
  Qed.
  Lemma div_neg : forall a b : Q, (b < 0)%Q -> (a / b == (- a) / (- b))%Q.
  Proof. intros a b H. field. lra. Qed.
  Lemma share_neg : forall ws, ws <> [] -> Forall (fun w => w < 0)%Q ws ->
    ~ (qsum ws == 0)%Q /\ (forall i, (i < length ws)%nat -> (0 < share ws i)%Q) /\
    (forall i j, (i < length ws)%nat -> (j < length ws)%nat -> (nth i ws 0 < nth j ws 0)%Q -> (share ws j < share ws i)%Q).
  Proof.
    intros ws H F. pose proof (qsum_neg ws H F) as P. split; [lra|]. unfold share. split.
    - intros i Hi. rewrite Forall_forall in F. specialize (F (nth i ws 0%Q) (nth_In _ _ Hi)). cbv beta in F.
      rewrite div_neg by auto. apply Qlt_shift_div_l; lra.
    - intros i j Hi Hj L. rewrite (div_neg (nth j ws 0%Q)), (div_neg (nth i ws 0%Q)) by auto.
      unfold Qdiv. apply Qmult_lt_compat_r; [|lra]. apply Qinv_lt_0_compat. lra.
  Qed.
End Roulette.

(** *** One pass of the balanced selection *)
Section Pass.
  Context {NO : NumOps}.

  (** The index i is drawn for some value of random(). *)
  Definition drawn (scores : list num) (i : Z) : Prop := exists k, 0 <= k < 2 ^ 53 /\ index_for scores (nrand k) = inr i.
  Lemma get_index_ok : forall scores s i s', get_index scores s = Ok i s' -> drawn scores i /\ s' = set_tape (tape s') s.
  Proof.
    intros scores s i s' H. split.
    - unfold get_index in H. bd H r s1 R. apply lift_ok in H. destruct H as [E ->].
      destruct possible_random as [P _]. destruct (P s) as (a & t & Ea & k & Hk & ->). rewrite Ea in R. inversion R; subst. exists k. auto.
    - revert H. apply rnd_only_bind; [apply rnd_only_random|]. intros. apply rnd_only_lift.
  Qed.
  Lemma second_index_ok : forall f scores first s i s', second_index f scores first s = Ok i s' ->
    drawn scores i /\ i <> first /\ s' = set_tape (tape s') s.
  Proof.
    induction f as [|f IH]; intros scores first s i s' H; [discriminate|]. cbn [second_index] in H. bd H j s1 R.
    apply get_index_ok in R. destruct R as [D E]. destruct (j =? first) eqn:Q.
    - apply IH in H. destruct H as (D' & N & E'). split; auto. split; auto. rewrite E', E. reflexivity.
    - apply ret_ok in H. destruct H as [-> ->]. apply Z.eqb_neq in Q. auto.
  Qed.
  Lemma pop_at_ok : forall l i s d s', pop_at l i s = Ok d s' -> exists r, py_nth l i = Some r /\ d = heap s r /\ s' = s.
  Proof.
    intros l i s d s' H. unfold pop_at in H. bd H r s1 R. apply lift_opt_ok in R. destruct R as [E ->]. apply get_ok in H. destruct H as [-> ->]. eauto.
  Qed.
  Definition index_pair (scores : list num) (l : list nat) (p1 p2 : nat) : Prop :=
    exists i1 i2, i1 <> i2 /\ drawn scores i1 /\ drawn scores i2 /\ py_nth l i1 = Some p1 /\ py_nth l i2 = Some p2.
  Lemma balanced_pair_ok : forall f scores l s c s', (forall r, In r l -> (r < next s)%nat) -> balanced_pair f scores l s = Ok c s' ->
    exists p1 p2, made_pair s s' c p1 p2 /\ In p1 l /\ In p2 l /\ index_pair scores l p1 p2.
  Proof.
    intros f scores l s c s' Hlt H. unfold balanced_pair in H. bd H i1 s1 R1. apply get_index_ok in R1. destruct R1 as [D1 E1].
    bd H i2 s2 R2. apply second_index_ok in R2. destruct R2 as (D2 & Ne & E2). rewrite E1 in E2. rewrite set_tape_set in E2.
    bd H d1 s3 R3. apply pop_at_ok in R3. destruct R3 as (p1 & P1 & -> & ->). bd H c1 s4 R4. bd H d2 s5 R5.
    apply pop_at_ok in R5. destruct R5 as (p2 & P2 & -> & ->). bd H c2 s6 R6. apply ret_ok in H. destruct H as [-> ->].
    destruct (two_allocs _ _ _ _ _ _ _ R4 R6) as (-> & -> & N & X & H1 & H2).
    assert (I1 : In p1 l) by (eapply py_nth_in; eauto). assert (I2 : In p2 l) by (eapply py_nth_in; eauto).
    apply extends_alloc in R4. destruct R4 as (_ & _ & _ & _ & R4).
    rewrite E2 in *. cbn [next heap set_tape] in *. rewrite R4 in H2 by (apply Hlt; auto). exists p1, p2.
    split; [|split; [auto|split; [auto|exists i1, i2; auto]]].
    split; [reflexivity|]. split; [exact N|]. split; [|auto].
    eapply extends_trans; [|exact X]. repeat split; auto.
  Qed.
  Lemma balanced_selection_ok : forall f m scores gd s gd' s',
    let l := members (population gd) in
    (forall r, In r l -> (r < next s)%nat) ->
    balanced_selection f m scores gd s = Ok gd' s' ->
    exists x prs, pairs_wanted m gd x /\ length prs = Z.to_nat x /\
      gd' = set_parents (parents gd ++ seq (next s) (2 * length prs)) gd /\
      next s' = (next s + 2 * length prs)%nat /\ extends s s' /\
      Forall (fun p => In (fst p) l /\ In (snd p) l /\ index_pair scores l (fst p) (snd p)) prs /\
      Forall2 (fun c p => heap s' c = heap s p) (seq (next s) (2 * length prs)) (flatten_pairs prs).
  Proof.
    intros f m scores gd s gd' s' l Hlt H. unfold balanced_selection in H. bd H x s1 R1. apply total_ok in R1. destruct R1 as [-> Hx].
    bd H ps s2 R2. apply ret_ok in H. destruct H as [-> ->].
    apply (pairs_loop_ok _ l (index_pair scores l) s) in R2; auto.
    - destruct R2 as (prs & L & F & N & X & A & B). exists x, prs. rewrite L, <- F. repeat split; auto; try apply X.
    - intros s1 c s3 X R. apply (balanced_pair_ok f scores l s1 c s3) in R; auto.
      intros r Hr. destruct X as (Xn & _). specialize (Hlt r Hr). lia.
    - apply extends_refl.
  Qed.

  (** Only rank annotations of the members of l differ. *)
  Definition annotated (l : list nat) (s s' : st) : Prop :=
    next s' = next s /\ log s' = log s /\ rnd_seed s' = rnd_seed s /\ prng s' = prng s /\ tape s' = tape s /\ ent s' = ent s /\
    (forall r, ~ In r l -> heap s' r = heap s r) /\ (forall r, exists v, heap s' r = set_rank v (heap s r)).
  Lemma annotated_refl : forall l s, annotated l s s.
  Proof. intros. repeat split; auto. intros r. exists (rank (heap s r)). destruct (heap s r); reflexivity. Qed.
  Lemma annotated_trans : forall l a b c, annotated l a b -> annotated l b c -> annotated l a c.
  Proof.
    intros l a b c (A1 & A2 & A3 & A4 & A5 & A6 & A7 & A8) (B1 & B2 & B3 & B4 & B5 & B6 & B7 & B8).
    unfold annotated. rewrite B1, B2, B3, B4, B5, B6. repeat (split; [assumption|]). split.
    - intros r Hr. rewrite B7, A7; auto.
    - intros r. destruct (A8 r) as [v Hv]. destruct (B8 r) as [w Hw]. exists w. rewrite Hw, Hv. reflexivity.
  Qed.
  Lemma annotated_frame : forall l s s', annotated l s s' -> frame s s'.
  Proof.
    intros l s s' (A1 & A2 & A3 & A4 & A5 & A6 & A7 & A8). split; [lia|]. split; auto. split; auto. split; auto.
    intros r _. destruct (A8 r) as [v ->]. repeat split; auto.
  Qed.
  Definition rank_at (idx : option Z) (i : individ) : option num :=
    match idx, rank i with
    | None, Some (SV1 x) => Some x
    | Some j, Some (SVL l) => py_nth l j
    | _, _ => None
    end.
  Lemma put_rank_ok : forall idx l i v s u s', put_rank idx l i v s = Ok u s' ->
    exists r, py_nth l i = Some r /\ annotated l s s' /\ rank_at idx (heap s' r) = Some v /\
      forall r', r' <> r -> heap s' r' = heap s r'.
  Proof.
    intros idx l i v s u s' H. unfold put_rank in H. bd H r s1 R. apply lift_opt_ok in R. destruct R as [E ->]. exists r. split; auto.
    assert (K : forall w s', modify r (set_rank w) s = Ok u s' -> annotated l s s' /\ rank (heap s' r) = w /\ forall r', r' <> r -> heap s' r' = heap s r').
    { clear H. intros w s2 H. apply modify_ok in H. subst. split; [|split].
      - repeat split; cbn [heap set_heap]; auto.
        + intros r' Hr'. unfold upd. destruct (Nat.eqb_spec r' r); auto. subst. exfalso. apply Hr'. eapply py_nth_in; eauto.
        + intros r'. unfold upd. destruct (Nat.eqb_spec r' r); [subst; eauto|]. exists (rank (heap s r')). destruct (heap s r'); reflexivity.
      - cbn [heap set_heap]. unfold upd. rewrite Nat.eqb_refl. reflexivity.
      - intros r' Hr'. cbn [heap set_heap]. unfold upd. destruct (Nat.eqb_spec r' r); congruence. }
    destruct idx as [j|].
    - bd H ind s1 R. apply get_ok in R. destruct R as [-> ->]. destruct (rank (heap s r)) as [[|x|lst]|] eqn:Er; try discriminate.
      destruct ((0 <=? j) && (j <? Z.of_nat (length lst))) eqn:B; [|discriminate].
      apply andb_true_iff in B. destruct B as [B1 B2]. apply Z.leb_le in B1. apply Z.ltb_lt in B2.
      apply K in H. destruct H as (A & Er' & O). split; auto. split; auto. unfold rank_at. rewrite Er'.
      rewrite py_nth_nat by (rewrite list_set_length; lia). rewrite list_set_nth_error by lia. rewrite Nat.eqb_refl. reflexivity.
    - apply K in H. destruct H as (A & Er' & O). split; auto. split; auto. unfold rank_at. rewrite Er'. reflexivity.
  Qed.
  Lemma weight_ok : forall k idx r s w s', weight k idx r s = Ok w s' ->
    s' = s /\ (match k with KRank => rank_at idx | KScore => key_at idx end) (heap s r) = Some w.
  Proof.
    intros k idx r s w s' H. unfold weight in H. bd H i s1 R. apply get_ok in R. destruct R as [-> ->].
    bd H v s1 R. apply lift_opt_ok in R. destruct R as [E ->]. unfold rank_at, key_at, key_of in *.
    destruct idx as [j|].
    - destruct v as [|x|lst]; try discriminate. cbn [sv_at] in H. apply lift_opt_ok in H. destruct H as [E' ->]. split; auto.
      destruct k; [inversion E as [E1]; rewrite E1; auto|rewrite E; auto].
    - destruct v as [|x|lst]; try discriminate. apply ret_ok in H. destruct H as [-> ->]. split; auto.
      destruct k; [inversion E as [E1]; rewrite E1; auto|rewrite E; auto].
  Qed.
  Lemma weights_ok : forall k idx l s ws s', mmap (weight k idx) l s = Ok ws s' ->
    s' = s /\ Forall2 (fun r w => (match k with KRank => rank_at idx | KScore => key_at idx end) (heap s r) = Some w) l ws.
  Proof.
    intros k idx. induction l as [|r l IH]; intros s ws s' H; cbn [mmap] in H.
    - apply ret_ok in H. destruct H as [-> ->]. auto.
    - bd H w s1 R. apply weight_ok in R. destruct R as [-> E]. bd H ws' s2 R2. apply IH in R2. destruct R2 as [-> F].
      apply ret_ok in H. destruct H as [-> ->]. auto.
  Qed.
  Lemma probabilities_ok : forall k idx l s scores s', add_probabilities k idx l s = Ok scores s' ->
    s' = s /\ exists ws, selection_scores ws = inr scores /\
      Forall2 (fun r w => (match k with KRank => rank_at idx | KScore => key_at idx end) (heap s r) = Some w) l ws.
  Proof.
    intros k idx l s scores s' H. unfold add_probabilities in H. bd H ws s1 R. apply weights_ok in R. destruct R as [-> F].
    apply lift_ok in H. destruct H as [E ->]. eauto.
  Qed.
  Lemma put_group_annotated : forall idx l a b c s u s', put_group idx l a b c s = Ok u s' -> annotated l s s'.
  Proof.
    intros idx l a b c s u s' H. unfold put_group in H.
    apply (miter_inv _ (fun _ s1 => annotated l s s1)) in H; auto; [apply annotated_refl|].
    intros d x rest s1 s2 _ A R. apply put_rank_ok in R. destruct R as (r & _ & A' & _). eapply annotated_trans; eauto.
  Qed.
  Lemma rank_score_ok : forall idx l i s v s', rank_score idx l i s = Ok v s' ->
    s' = s /\ exists r, py_nth l i = Some r /\
      match idx with None => v = score (heap s r) | Some _ => exists x, key_at idx (heap s r) = Some x /\ v = SV1 x end.
  Proof.
    intros idx l i s v s' H. unfold rank_score in H. bd H d s1 R. apply pop_at_ok in R. destruct R as (r & E & -> & ->).
    destruct idx as [j|].
    - bd H x s1 R. apply ret_ok in H. destruct H as [-> ->]. unfold sv_at in R. destruct (score (heap s r)) eqn:Es; try discriminate.
      apply lift_opt_ok in R. destruct R as [E' ->]. split; auto. exists r. split; auto. exists x. split; auto.
      unfold key_at. rewrite Es. auto.
    - apply ret_ok in H. destruct H as [-> ->]. split; auto. exists r. auto.
  Qed.
  Lemma rank_step_annotated : forall idx l pc i s pc' s', rank_step idx l pc i s = Ok pc' s' -> annotated l s s'.
  Proof.
    intros idx l [prev count] i s pc' s' H. unfold rank_step in H. bd H u s1 R1. apply put_rank_ok in R1. destruct R1 as (r & _ & A & _).
    bd H sc s2 R2. apply rank_score_ok in R2. destruct R2 as [-> _]. destruct (sv_eqb sc prev).
    - bd H u' s3 R3. apply ret_ok in H. destruct H as [-> ->]. destruct (i + 1 =? Z.of_nat (length l)).
      + apply put_group_annotated in R3. eapply annotated_trans; eauto.
      + apply ret_ok in R3. destruct R3 as [_ ->]. auto.
    - destruct (1 <? count).
      + bd H u' s3 R3. apply ret_ok in H. destruct H as [-> ->]. apply put_group_annotated in R3. eapply annotated_trans; eauto.
      + apply ret_ok in H. destruct H as [-> ->]. auto.
  Qed.
  Lemma assign_annotated : forall idx l s u s', assign_selection_ranks idx l s = Ok u s' -> annotated l s s'.
  Proof.
    intros idx l s u s' H. unfold assign_selection_ranks in H. bd H pc s1 R. apply ret_ok in H. destruct H as [_ ->].
    apply (mfold_inv _ (fun _ _ s1 => annotated l s s1)) in R; auto; [apply annotated_refl|].
    intros d x rest a1 s2 a2 s3 _ A R'. apply rank_step_annotated in R'. eapply annotated_trans; eauto.
  Qed.
  (** Key or rank used as weight after the annotations of a pass. *)
  Lemma balanced_pass_ok : forall f ranked m idx gd s gd' s',
    let l := members (population gd) in
    (forall r, In r l -> (r < next s)%nat) ->
    balanced_pass f ranked m idx gd s = Ok gd' s' ->
    exists s1 s2 ws scores x prs, renumbered l s s1 /\ next s1 = next s /\ (if ranked then assign_selection_ranks idx l s1 = Ok tt s2 else s2 = s1) /\
      annotated l s1 s2 /\ frame s s2 /\
      Forall2 (fun r w => (if ranked then rank_at idx else key_at idx) (heap s2 r) = Some w) l ws /\ selection_scores ws = inr scores /\
      pairs_wanted m gd x /\ length prs = Z.to_nat x /\
      gd' = set_parents (seq (next s) (2 * length prs)) gd /\
      next s' = (next s + 2 * length prs)%nat /\ extends s2 s' /\
      Forall (fun p => In (fst p) l /\ In (snd p) l /\ index_pair scores l (fst p) (snd p)) prs /\
      Forall2 (fun c p => heap s' c = heap s2 p) (seq (next s) (2 * length prs)) (flatten_pairs prs).
  Proof.
    intros f ranked m idx gd s gd' s' l Hlt H. unfold balanced_pass in H. bd H gd1 s1 R1. apply base_execute_ok in R1.
    destruct R1 as (-> & N1 & L1 & S1 & P1 & Rn). cbn [population set_parents] in H. fold l in H, Rn.
    bd H u s2 R2. bd H scores s3 R3. apply probabilities_ok in R3. destruct R3 as (-> & ws & Es & F).
    assert (A : annotated l s1 s2 /\ (if ranked then assign_selection_ranks idx l s1 = Ok tt s2 else s2 = s1)).
    { destruct ranked; [destruct u; split; auto; eapply assign_annotated; eauto|]. apply ret_ok in R2. destruct R2 as [_ ->]. split; auto. apply annotated_refl. }
    destruct A as [A Ha]. assert (N2 : next s2 = next s) by (destruct A; congruence).
    apply balanced_selection_ok in H; [|cbn [population set_parents]; rewrite N2; auto].
    destruct H as (x & prs & Hx & L & -> & N & X & F1 & F2). exists s1, s2, ws, scores, x, prs. rewrite N2 in *.
    cbn [population set_parents members parents app] in *. fold l in F1.
    split; [exact Rn|]. split; [exact N1|]. split; [exact Ha|]. split; [exact A|]. split.
    { apply frame_trans with s1; [|eapply annotated_frame; eauto]. split; [lia|]. split; auto. split; auto. split; auto.
      intros r _. apply (renumbered_core l s s1 r Rn). }
    split; [destruct ranked; exact F|]. auto 10.
  Qed.
End Pass.

(** *** The ranks of ranked selection *)
Section Ranks.
  Context {NO : NumOps}.

  Lemma zrange_at : forall a b d x rest, zrange a b = d ++ x :: rest -> x = a + Z.of_nat (length d) /\ x < b.
  Proof.
    intros a b d x rest H. assert (I : In x (zrange a b)) by (rewrite H; apply in_elt). apply in_zrange in I.
    rewrite zrange_eq in H. assert (E : nth_error (map (fun i => a + Z.of_nat i) (seq 0 (Z.to_nat (b - a)))) (length d) = Some x).
    { rewrite H, nth_error_app2 by lia. rewrite Nat.sub_diag. reflexivity. }
    assert (L : (length d < Z.to_nat (b - a))%nat).
    { apply (f_equal (@length Z)) in H. rewrite map_length, seq_length, app_length in H. cbn in H. lia. }
    rewrite nth_error_map in E. rewrite nth_error_nth' with (d := 0%nat) in E by (rewrite seq_length; auto).
    rewrite seq_nth in E by auto. cbn in E. inversion E. lia.
  Qed.

  Definition rank_of (idx : option Z) (l : list nat) (s : st) (j : Z) : option num :=
    match nth_error l (Z.to_nat j) with Some r => rank_at idx (heap s r) | None => None end.
  Lemma put_rank_pos : forall idx l i v s u s', NoDup l -> 0 <= i < Z.of_nat (length l) -> put_rank idx l i v s = Ok u s' ->
    annotated l s s' /\ forall j, 0 <= j < Z.of_nat (length l) -> rank_of idx l s' j = if j =? i then Some v else rank_of idx l s j.
  Proof.
    intros idx l i v s u s' ND Hi H. apply put_rank_ok in H. destruct H as (r & E & A & Er & O). split; auto.
    rewrite py_nth_nat in E by auto. intros j Hj. unfold rank_of. destruct (Z.eqb_spec j i) as [->|Ne]; [rewrite E; auto|].
    destruct (nth_error l (Z.to_nat j)) as [r'|] eqn:E'; auto. rewrite O; auto. intros ->.
    assert (Z.to_nat j = Z.to_nat i) by (eapply NoDup_nth_error; [exact ND|apply nth_error_Some; congruence|congruence]). lia.
  Qed.
  Lemma put_group_pos : forall idx l a b c s u s', NoDup l -> 0 <= a -> b <= Z.of_nat (length l) -> put_group idx l a b c s = Ok u s' ->
    annotated l s s' /\ forall j, 0 <= j < Z.of_nat (length l) ->
      rank_of idx l s' j = if (a <=? j) && (j <? b) then Some (mid_rank a b c) else rank_of idx l s j.
  Proof.
    intros idx l a b c s u s' ND Ha Hb H. unfold put_group in H.
    apply (miter_inv _ (fun d s1 => annotated l s s1 /\ forall j, 0 <= j < Z.of_nat (length l) ->
      rank_of idx l s1 j = if (a <=? j) && (j <? a + Z.of_nat (length d)) then Some (mid_rank a b c) else rank_of idx l s j)) in H.
    - destruct H as [A H]. split; auto. intros j Hj. rewrite H by auto. rewrite zrange_length_Z.
      assert (K : (a <=? j) && (j <? a + Z.max 0 (b - a)) = (a <=? j) && (j <? b)).
      { destruct (a <=? j) eqn:E; auto. cbn. apply Z.leb_le in E. destruct (j <? b) eqn:E'.
        - apply Z.ltb_lt in E'. apply Z.ltb_lt. lia.
        - apply Z.ltb_ge in E'. apply Z.ltb_ge. lia. }
      rewrite K. reflexivity.
    - split; [apply annotated_refl|]. intros j Hj. cbn [length]. destruct (a <=? j) eqn:E; auto. cbn [andb].
      apply Z.leb_le in E. destruct (Z.ltb_spec j (a + Z.of_nat 0)); auto. lia.
    - intros d x rest s1 s2 Ed (A & Hd) R. destruct (zrange_at _ _ _ _ _ Ed) as [Ex Lx]. apply put_rank_pos in R; auto; [|lia].
      destruct R as [A' Hr]. split; [eapply annotated_trans; eauto|]. intros j Hj. rewrite Hr, Hd by auto. rewrite app_length. cbn [length].
      destruct (Z.eqb_spec j x) as [->|Ne].
      + destruct (Z.leb_spec a x); [|lia]. cbn [andb]. destruct (Z.ltb_spec x (a + Z.of_nat (length d + 1))); [auto|lia].
      + destruct (Z.leb_spec a j); auto. cbn [andb]. destruct (Z.ltb_spec j (a + Z.of_nat (length d))); destruct (Z.ltb_spec j (a + Z.of_nat (length d + 1))); auto; lia.
  Qed.

  (** Score at position j, and whether it equals the previous one (-1 before the first). *)
  Definition score_pos (idx : option Z) (l : list nat) (s : st) (j : Z) : option sval :=
    match nth_error l (Z.to_nat j) with
    | Some r => match idx with None => Some (score (heap s r)) | Some _ => option_map SV1 (key_at idx (heap s r)) end
    | None => None
    end.
  Definition linked (idx : option Z) (l : list nat) (s : st) (j : Z) : bool :=
    match score_pos idx l s j, (if j =? 0 then Some (SV1 (nofZ (-1))) else score_pos idx l s (j - 1)) with
    | Some v, Some w => sv_eqb v w
    | _, _ => false
    end.
  Lemma score_pos_annotated : forall idx l s s' j, annotated l s s' -> score_pos idx l s' j = score_pos idx l s j.
  Proof.
    intros idx l s s' j A. unfold score_pos. destruct (nth_error l (Z.to_nat j)) as [r|]; auto.
    destruct A as (_ & _ & _ & _ & _ & _ & _ & A). destruct (A r) as [v ->]. reflexivity.
  Qed.
  Lemma rank_score_pos : forall idx l i s v s', 0 <= i < Z.of_nat (length l) -> rank_score idx l i s = Ok v s' ->
    s' = s /\ score_pos idx l s i = Some v.
  Proof.
    intros idx l i s v s' Hi H. apply rank_score_ok in H. destruct H as (-> & r & E & H). split; auto.
    rewrite py_nth_nat in E by auto. unfold score_pos. rewrite E. destruct idx as [j|].
    - destruct H as (x & Ek & ->). rewrite Ek. reflexivity.
    - subst. reflexivity.
  Qed.
  Definition is_run (n : Z) (lk : Z -> bool) (a b : Z) : Prop :=
    0 <= a < b /\ b <= n /\ (forall j, a < j < b -> lk j = true) /\ lk a = false /\ (b < n -> lk b = false).
  Definition run_rank (a b j : Z) : num := if b - a =? 1 then nofZ (j + 1) else mid_rank a b (b - a).

  Definition rank_inv (idx : option Z) (l : list nat) (s0 : st) (i : Z) (pc : sval * Z) (s : st) : Prop :=
    let n := Z.of_nat (length l) in let lk := linked idx l s0 in
    annotated l s0 s /\ 1 <= snd pc /\
    (i = 0 -> pc = (SV1 (nofZ (-1)), 1)) /\
    (0 < i -> score_pos idx l s0 (i - 1) = Some (fst pc) /\ snd pc <= i /\ lk (i - snd pc) = false /\
       (forall j, i - snd pc < j < i -> lk j = true) /\
       (forall j, 0 <= j < i - snd pc -> exists a b, is_run n lk a b /\ a <= j < b /\ rank_of idx l s j = Some (run_rank a b j)) /\
       (forall j, i - snd pc <= j < i -> rank_of idx l s j = Some (if (i =? n) && (1 <? snd pc) then mid_rank (i - snd pc) i (snd pc) else nofZ (j + 1)))).

  Lemma rank_step_inv : forall idx l s0 i pc s pc' s', NoDup l -> 0 <= i < Z.of_nat (length l) -> linked idx l s0 0 = false ->
    rank_inv idx l s0 i pc s -> rank_step idx l pc i s = Ok pc' s' -> rank_inv idx l s0 (i + 1) pc' s'.
  Proof.
    intros idx l s0 i [prev count] s pc' s' ND Hi L0 (A & C1 & I0 & I1) H. cbn [fst snd] in *. unfold rank_step in H.
    bd H u s1 R1. apply put_rank_pos in R1; auto. destruct R1 as [A1 P1]. bd H sc s2 R2. apply rank_score_pos in R2; auto. destruct R2 as [-> Esc].
    assert (A01 : annotated l s0 s1) by (eapply annotated_trans; eauto).
    rewrite (score_pos_annotated _ _ _ _ _ A01) in Esc.
    assert (Lk : linked idx l s0 i = sv_eqb sc prev).
    { unfold linked. rewrite Esc. destruct (Z.eqb_spec i 0) as [->|Ne].
      - specialize (I0 eq_refl). inversion I0; subst. reflexivity.
      - destruct I1 as (-> & _); [lia|]. reflexivity. }
    assert (Old : forall j, 0 <= j < i -> rank_of idx l s1 j = rank_of idx l s j).
    { intros j Hj. rewrite P1 by lia. destruct (Z.eqb_spec j i); [lia|auto]. }
    assert (New : rank_of idx l s1 i = Some (nofZ (i + 1))).
    { rewrite P1 by lia. rewrite Z.eqb_refl. auto. }
    set (n := Z.of_nat (length l)) in *.
    destruct (sv_eqb sc prev) eqn:Eq.
    - (* same score as the previous one: then i > 0 *)
      assert (Hpos : 0 < i). { destruct (Z.eq_dec i 0) as [->|]; [congruence|lia]. }
      destruct I1 as (Ep & Cb & La & Lr & Done & Cur); auto.
      bd H u' s3 R3. apply ret_ok in H. destruct H as [-> ->].
      assert (A3 : annotated l s0 s3 /\ forall j, 0 <= j < n -> rank_of idx l s3 j =
                if (i + 1 =? n) && (i - count <=? j) && (j <? i + 1) then Some (mid_rank (i - count) (i + 1) (count + 1)) else rank_of idx l s1 j).
      { destruct (i + 1 =? n) eqn:En.
        - apply put_group_pos in R3; auto; try (unfold n in *; lia).
          destruct R3 as [A3 P3]. split; [eapply annotated_trans; eauto|]. intros j Hj. rewrite P3 by auto. cbn [andb].
          replace (i + 1 - (count + 1)) with (i - count) by lia. reflexivity.
        - apply ret_ok in R3. destruct R3 as [_ ->]. auto. }
      destruct A3 as [A3 P3]. split; auto. cbn [fst snd]. split; [lia|]. split; [lia|]. intros _.
      replace (i + 1 - 1) with i by lia. replace (i + 1 - (count + 1)) with (i - count) by lia.
      split; auto. split; [lia|]. split; auto. split.
      { intros j Hj. destruct (Z.eq_dec j i) as [->|]; [auto|]. apply Lr. lia. }
      split.
      { intros j Hj. destruct (Done j) as (a & b & Hr & Hab & E); auto. exists a, b. split; auto. split; auto. rewrite P3 by lia.
        destruct (Z.leb_spec (i - count) j); [lia|]. rewrite andb_false_r. cbn [andb]. rewrite Old; auto. lia. }
      { intros j Hj. rewrite P3 by lia. destruct (Z.leb_spec (i - count) j); [|lia]. destruct (Z.ltb_spec j (i + 1)); [|lia].
        destruct (Z.ltb_spec 1 (count + 1)); [|lia]. fold n. rewrite !andb_true_r. destruct (i + 1 =? n) eqn:En; auto.
        destruct (Z.eq_dec j i) as [->|]; auto. rewrite Old by lia. rewrite Cur by lia. destruct (Z.eqb_spec i n); [lia|]. reflexivity. }
    - destruct (Z.eq_dec i 0) as [->|Ne].
      + specialize (I0 eq_refl). inversion I0; subst. cbn in H. apply ret_ok in H. destruct H as [-> ->].
        split; auto. cbn [fst snd]. split; [lia|]. split; [lia|]. intros _. replace (0 + 1 - 1) with 0 by lia. split; auto. split; [lia|]. split; auto.
        split; [intros; lia|]. split; [intros; lia|]. intros j Hj. replace j with 0 by lia. rewrite andb_false_r. auto.
      + destruct I1 as (Ep & Cb & La & Lr & Done & Cur); [lia|].
        assert (Rn : is_run n (linked idx l s0) (i - count) i). { split; [lia|]. split; [lia|]. split; auto. }
        assert (X : exists s3, annotated l s0 s3 /\ pc' = (sc, 1) /\ s' = s3 /\ forall j, 0 <= j < n -> rank_of idx l s3 j =
                if (1 <? count) && (i - count <=? j) && (j <? i) then Some (mid_rank (i - count) i count) else rank_of idx l s1 j).
        { destruct (Z.ltb_spec 1 count) as [Lc|Lc].
          - bd H u' s3 R3. apply ret_ok in H. destruct H as [-> ->]. apply put_group_pos in R3; auto; try (unfold n in *; lia).
            destruct R3 as [A3 P3]. exists s3. split; [eapply annotated_trans; eauto|]. split; auto.
          - apply ret_ok in H. destruct H as [-> ->]. exists s1. split; auto. split; [f_equal; lia|]. split; auto. }
        destruct X as (s3 & A3 & -> & -> & P3). split; auto. cbn [fst snd]. split; [lia|]. split; [lia|]. intros _.
        replace (i + 1 - 1) with i by lia. split; auto. split; [lia|]. split; auto. split; [intros; lia|]. split.
        { intros j Hj. rewrite P3 by lia. destruct (Z.ltb_spec j i); [|lia]. rewrite andb_true_r. destruct (Z.leb_spec (i - count) j) as [G|G].
          - exists (i - count), i. split; auto. split; [lia|]. rewrite andb_true_r. unfold run_rank. replace (i - (i - count)) with count by lia.
            destruct (Z.ltb_spec 1 count); destruct (Z.eqb_spec count 1); try lia; auto.
            rewrite Old by lia. rewrite Cur by lia. destruct (Z.eqb_spec i n); [lia|]. reflexivity.
          - rewrite andb_false_r. destruct (Done j) as (a & b & Hr & Hab & E); [lia|]. exists a, b. split; auto. split; auto. rewrite Old by lia. auto. }
        { intros j Hj. replace j with i by lia. rewrite P3 by lia. destruct (Z.ltb_spec i i); [lia|]. rewrite andb_false_r, New. cbn [Z.ltb]. rewrite andb_false_r. auto. }
  Qed.
  Lemma assign_ranks_ok : forall idx l s u s', NoDup l -> linked idx l s 0 = false ->
    assign_selection_ranks idx l s = Ok u s' ->
    annotated l s s' /\ forall j, 0 <= j < Z.of_nat (length l) -> exists a b, is_run (Z.of_nat (length l)) (linked idx l s) a b /\
      a <= j < b /\ rank_of idx l s' j = Some (run_rank a b j).
  Proof.
    intros idx l s u s' ND L0 H. unfold assign_selection_ranks in H. bd H pc s1 R. apply ret_ok in H. destruct H as [_ ->].
    apply (mfold_inv _ (fun d pc s1 => rank_inv idx l s (Z.of_nat (length d)) pc s1)) in R.
    - rewrite zrange_length_Z in R. replace (Z.max 0 (Z.of_nat (length l) - 0)) with (Z.of_nat (length l)) in R by lia.
      destruct R as (A & C & _ & I). split; auto. intros j Hj. destruct I as (_ & Cb & La & Lr & Done & Cur); [lia|].
      set (n := Z.of_nat (length l)) in *. destruct (Z_lt_le_dec j (n - snd pc)) as [G|G]; [apply Done; lia|].
      exists (n - snd pc), n. split; [|split; [lia|]].
      + split; [lia|]. split; [lia|]. split; auto. split; auto. lia.
      + rewrite Cur by lia. rewrite Z.eqb_refl. unfold run_rank. replace (n - (n - snd pc)) with (snd pc) by lia. cbn [andb].
        destruct (Z.ltb_spec 1 (snd pc)); destruct (Z.eqb_spec (snd pc) 1); try lia; auto.
    - split; [apply annotated_refl|]. cbn [fst snd length]. split; [lia|]. split; auto. cbn. lia.
    - intros d x rest a1 s2 a2 s3 E I R'. apply zrange_at in E. destruct E as [-> Lx]. rewrite app_length. cbn [length].
      rewrite Nat2Z.inj_add. cbn [Z.of_nat Pos.of_succ_nat]. replace (0 + Z.of_nat (length d)) with (Z.of_nat (length d)) in * by lia.
      eapply rank_step_inv; eauto. lia.
  Qed.
End Ranks.
