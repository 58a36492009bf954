(** Properties C49-C51: the penalty classes (exact arithmetic). *)
From Coq Require Import String.
From Coq Require Import ZArith QArith Qround Qpower Qabs Qminmax List Bool Lia Lqa.
From Verif Require Import Spec Num State Binary Population GaData Penalty Fitness Laws AssessProofs PropBest Demo.
Import ListNotations.
Open Scope string_scope.
Open Scope list_scope.
Open Scope Q_scope.
Local Existing Instance Qops.

(** *** The amount of a violation, written independently of the code *)
Definition known (c : string) : Prop := c = "!=" \/ c = "<=".
Definition excess (c : string) (v : Q) : Q := if String.eqb c "<=" then Qmax 0 v else Qabs v.
(** The sum of the excesses, each weighted by [w] (their powers). *)
Fixpoint total (w : Q -> Q) (conds : list string) (values : list Q) : Q :=
  match conds, values with
  | c :: cs, v :: vs => w (excess c v) + total w cs vs
  | _, _ => 0
  end.
(** What the theorems assume of an exponent: numbers from 0 on have a power [w x] that is
    from 0 on and does not decrease; for a positive exponent the power of 0 is 0 and the
    power increases. *)
Record exponent (e : expo) (w : Q -> Q) : Prop := {
  ex_value : forall x : Q, 0 <= x -> exists y : Q, e x = inr y /\ y == w x;
  ex_nonneg : forall x, 0 <= x -> 0 <= w x;
  ex_mono : forall x y, 0 <= x -> x <= y -> w x <= w y }.
Record positive_exponent (e : expo) (w : Q -> Q) : Prop := {
  px_exponent : exponent e w;
  px_zero : w 0 == 0;
  px_strict : forall x y, 0 <= x -> x < y -> w x < w y }.
Definition fulfilled (c : string) (v : Q) : Prop := if String.eqb c "<=" then v <= 0 else v == 0.

Lemma excess_nonneg : forall c v, 0 <= excess c v.
Proof. intros c v. unfold excess. destruct (String.eqb c "<="); [apply Q.le_max_l|apply Qabs_nonneg]. Qed.
Lemma excess_zero : forall c v, excess c v == 0 <-> fulfilled c v.
Proof.
  intros c v. unfold excess, fulfilled. destruct (String.eqb c "<=").
  - split; intros H.
    + pose proof (Q.le_max_r 0 v). lra.
    + apply Q.max_l. auto.
  - split; intros H; [|rewrite H; reflexivity]. destruct (Qlt_le_dec v 0) as [L|L]; [rewrite Qabs_neg in H by lra; lra|rewrite Qabs_pos in H by lra; lra].
Qed.
Lemma qpow_S : forall x k, x ^ Z.of_nat (S k) == x * x ^ Z.of_nat k.
Proof. intros x k. rewrite Nat2Z.inj_succ. unfold Z.succ. rewrite Z.add_comm. destruct (Qeq_dec x 0) as [E|E].
  - destruct k; [cbn; ring|]. rewrite E. rewrite Nat2Z.inj_succ. rewrite !Qpower_0 by lia. ring.
  - rewrite Qpower_plus by auto. rewrite Qpower_1_r. reflexivity.
Qed.
Lemma npow_qpow : forall (x : Q) k, npow (x : num) k == x ^ Z.of_nat k.
Proof. intros x k. induction k; [reflexivity|]. rewrite qpow_S, <- IHk. reflexivity. Qed.
Lemma qpow_nonneg : forall x k, 0 <= x -> 0 <= x ^ Z.of_nat k.
Proof. intros x k H. apply Qpower_0_le; auto. Qed.
Lemma qpow_mono : forall x y k, 0 <= x -> x <= y -> x ^ Z.of_nat k <= y ^ Z.of_nat k.
Proof.
  intros x y k H0 H. induction k; [cbn; lra|]. rewrite !qpow_S. pose proof (qpow_nonneg x k H0). apply Qle_trans with (x * y ^ Z.of_nat k).
  - rewrite !(Qmult_comm x). apply Qmult_le_compat_r; auto.
  - apply Qmult_le_compat_r; auto. lra.
Qed.
Lemma qpow_pos : forall x k, 0 < x -> 0 < x ^ Z.of_nat k.
Proof.
  intros x k H. induction k; [reflexivity|]. rewrite qpow_S. rewrite <- (Qmult_0_l (x ^ Z.of_nat k)). apply Qmult_lt_compat_r; auto.
Qed.
Lemma qpow_strict : forall x y k, (0 < k)%nat -> 0 <= x -> x < y -> x ^ Z.of_nat k < y ^ Z.of_nat k.
Proof.
  intros x y k Hk H0 H. destruct k as [|k]; [lia|]. rewrite !qpow_S. pose proof (qpow_mono x y k H0 ltac:(lra)). pose proof (qpow_pos y k ltac:(lra)).
  apply Qle_lt_trans with (x * y ^ Z.of_nat k).
  - rewrite !(Qmult_comm x). apply Qmult_le_compat_r; auto.
  - apply Qmult_lt_compat_r; auto.
Qed.
Lemma qpow_zero : forall x k, (0 < k)%nat -> x == 0 -> x ^ Z.of_nat k == 0.
Proof. intros x k Hk H. rewrite H. apply Qpower_0. lia. Qed.

(** Natural exponents. *)
Definition to_the (k : nat) (x : Q) : Q := x ^ Z.of_nat k.
Lemma natural_exponent : forall k, exponent (natural k) (to_the k).
Proof.
  intros k. split.
  - intros x H. exists (@npow Qops x k). split; [reflexivity|]. apply npow_qpow.
  - intros x H. apply qpow_nonneg; auto.
  - intros x y H L. apply qpow_mono; auto.
Qed.
Lemma natural_positive : forall k, (0 < k)%nat -> positive_exponent (natural k) (to_the k).
Proof.
  intros k Hk. split; [apply natural_exponent|apply qpow_zero; [auto|reflexivity]|]. intros x y H L. apply qpow_strict; auto.
Qed.
Lemma natural_live : forall k x, 0 < x -> 0 < to_the k x.
Proof. intros k x H. apply qpow_pos; auto. Qed.
Lemma exponent_eq : forall e w x y, exponent e w -> 0 <= x -> x == y -> w x == w y.
Proof.
  intros e w x y E H L. pose proof (ex_mono e w E x y H ltac:(lra)). pose proof (ex_mono e w E y x ltac:(lra) ltac:(lra)). lra.
Qed.
Lemma positive_zero : forall e w x, positive_exponent e w -> x == 0 -> w x == 0.
Proof. intros e w x P H. rewrite <- (px_zero e w P). symmetry. apply (exponent_eq e w); [apply P|lra|symmetry; exact H]. Qed.
Lemma positive_pos : forall e w x, positive_exponent e w -> 0 < x -> 0 < w x.
Proof. intros e w x P H. pose proof (px_strict e w P 0 x ltac:(lra) H). pose proof (px_zero e w P). lra. Qed.

Lemma total_nonneg : forall e w cs vs, exponent e w -> 0 <= total w cs vs.
Proof.
  intros e w cs vs E. revert vs. induction cs as [|c cs IH]; destruct vs as [|v vs]; cbn [total]; try lra. pose proof (ex_nonneg e w E _ (excess_nonneg c v)). pose proof (IH vs). lra.
Qed.
Lemma total_zero : forall e w cs vs, positive_exponent e w -> Forall2 fulfilled cs vs -> total w cs vs == 0.
Proof.
  intros e w cs vs P F. induction F as [|c v cs vs H F IH]; cbn [total]; [reflexivity|]. rewrite IH, (positive_zero e w _ P) by (apply excess_zero; auto). reflexivity.
Qed.
Lemma total_pos : forall e w cs vs, exponent e w -> (forall x, 0 < x -> 0 < w x) -> length cs = length vs -> ~ Forall2 fulfilled cs vs -> 0 < total w cs vs.
Proof.
  intros e w cs vs E1 P. revert vs. induction cs as [|c cs IH]; destruct vs as [|v vs]; intros L N; try discriminate; [destruct N; constructor|]. cbn [total].
  pose proof (excess_nonneg c v) as E0. pose proof (total_nonneg e w cs vs E1) as T0. pose proof (ex_nonneg e w E1 _ E0).
  destruct (Qeq_dec (excess c v) 0) as [E|E].
  - assert (0 < total w cs vs); [|lra]. apply IH; [inversion L; auto|]. intros F. apply N. constructor; auto. apply excess_zero; auto.
  - assert (0 < w (excess c v)); [|lra]. apply P. destruct (Qlt_le_dec 0 (excess c v)); auto. destruct E. lra.
Qed.
Definition no_worse (c : string) (v w : Q) : Prop := excess c v <= excess c w.
Lemma total_mono : forall e w cs vs ws, exponent e w -> Forall3 no_worse cs vs ws -> total w cs vs <= total w cs ws.
Proof.
  intros e w cs vs ws E F. induction F as [|c v x cs vs ws H F IH]; cbn [total]; [lra|]. pose proof (ex_mono e w E _ _ (excess_nonneg c v) H). lra.
Qed.

(** *** The sum the code computes *)
Lemma nabs_abs : forall x : Q, nabs (x : num) == Qabs x.
Proof. intros x. cbn. destruct (Qltb x 0) eqn:E; [apply Qltb_iff in E; rewrite Qabs_neg by lra; reflexivity|apply Qltb_iff_f in E; rewrite Qabs_pos by lra; reflexivity]. Qed.
Lemma nmax0_max : forall x : Q, nmax0 (x : num) == Qmax 0 x.
Proof.
  intros x. unfold nmax0. cbn. destruct (Qltb _ x) eqn:E; [apply Qltb_iff in E|apply Qltb_iff_f in E]; unfold inject_Z in *;
  [rewrite Q.max_r by lra|rewrite Q.max_l by lra]; reflexivity.
Qed.
Lemma sum_value : forall e w cs vs acc, exponent e w -> length cs = length vs -> Forall known cs ->
  exists s, sum_violations e (acc : num) cs vs = inr s /\ s == acc + total w cs vs.
Proof.
  intros e w cs vs acc E. revert vs acc. induction cs as [|c cs IH]; destruct vs as [|v vs]; intros acc L K; try discriminate; cbn [sum_violations total].
  - exists acc. split; auto. change (@num Qops) with Q in *. ring.
  - inversion K as [|? ? Kc K']; subst. inversion L as [L'].
    assert (P : exists y : Q, (if String.eqb c "!=" then e (nabs v) else e (nmax0 v)) = inr y /\ y == w (excess c v)).
    { pose proof (excess_nonneg c v) as N. unfold excess in *. destruct Kc as [-> | ->]; cbn [String.eqb Ascii.eqb Bool.eqb] in *.
      - destruct (ex_value e w E (@nabs Qops v)) as (y & Ey & Hy); [rewrite nabs_abs; exact N|]. exists y. split; [exact Ey|]. rewrite Hy. apply (exponent_eq e w); auto; rewrite nabs_abs; auto. reflexivity.
      - destruct (ex_value e w E (@nmax0 Qops v)) as (y & Ey & Hy); [rewrite nmax0_max; exact N|]. exists y. split; [exact Ey|]. rewrite Hy. apply (exponent_eq e w); auto; rewrite nmax0_max; auto. reflexivity. }
    destruct P as (y & Ey & Hy). destruct (IH vs (nadd acc y) L' K') as (s & Es & Hs). exists s. split; [|rewrite Hs; cbn [nadd Qops]; rewrite Hy; ring].
    destruct Kc as [-> | ->]; cbn [String.eqb Ascii.eqb Bool.eqb] in *; rewrite Ey; exact Es.
Qed.
Lemma sum_unknown : forall e w cs vs (acc : num), exponent e w -> length cs = length vs -> ~ Forall known cs -> sum_violations e acc cs vs = inl bad_sign.
Proof.
  intros e w cs vs acc X. revert vs acc. induction cs as [|c cs IH]; destruct vs as [|v vs]; intros acc L N; try discriminate; [destruct N; constructor|]. inversion L as [L']. cbn [sum_violations].
  destruct (String.eqb c "!=") eqn:E1.
  - destruct (ex_value e w X (@nabs Qops v)) as (y & Ey & _); [rewrite nabs_abs; apply Qabs_nonneg|]. change (@num Qops) with Q in *. rewrite Ey. apply IH; auto. intros F. apply N. constructor; auto. left. apply String.eqb_eq; auto.
  - destruct (String.eqb c "<=") eqn:E2; auto. destruct (ex_value e w X (@nmax0 Qops v)) as (y & Ey & _); [rewrite nmax0_max; apply Q.le_max_l|]. change (@num Qops) with Q in *. rewrite Ey. apply IH; auto. intros F. apply N. constructor; auto. right. apply String.eqb_eq; auto.
Qed.

(** *** C49 *)
(** The dynamic penalty is delta * (c * generation) ** alpha * sum of the powers of
    the excesses. *)
Theorem C49_value : forall (delta c : Q) (alpha betta : expo) w conds (values : list Q) gen best (y : Q),
  exponent betta w -> alpha ((c * inject_Z gen)%Q : num) = inr y -> length conds = length values -> Forall known conds ->
  exists p, penalty_execute (Dynamic (delta : num) c alpha betta) conds values gen best = inr p /\
    p == delta * y * total w conds values.
Proof.
  intros delta c alpha betta w conds values gen best y E A L K. unfold penalty_execute. change (@num Qops) with Q. rewrite (proj2 (Nat.eqb_eq _ _) L). cbn [negb].
  destruct (sum_value betta w conds values 0 E L K) as (s & Es & Hs). change (@nzero Qops) with (0 : Q). rewrite Es. cbn [nmul nofZ Qops]. change (@num Qops) with Q in *. rewrite A.
  eexists. split; [reflexivity|]. cbn [nmul Qops]. rewrite Hs. ring.
Qed.
(** With natural exponents. *)
Corollary C49_natural : forall (delta c : Q) alpha betta conds (values : list Q) gen best,
  length conds = length values -> Forall known conds ->
  exists p, penalty_execute (Dynamic (delta : num) c (natural alpha) (natural betta)) conds values gen best = inr p /\
    p == delta * (c * inject_Z gen) ^ Z.of_nat alpha * total (fun x => x ^ Z.of_nat betta) conds values.
Proof.
  intros delta c alpha betta conds values gen best L K.
  destruct (C49_value delta c (natural alpha) (natural betta) (to_the betta) conds values gen best (@npow Qops (c * inject_Z gen)%Q alpha) (natural_exponent betta) eq_refl L K) as (p & Ep & Hp).
  exists p. split; auto. rewrite Hp, npow_qpow. reflexivity.
Qed.
Theorem C49_rejected : forall (delta c : Q) alpha betta w conds (values : list Q) gen best,
  (length conds <> length values -> exists t, penalty_execute (Dynamic (delta : num) c alpha betta) conds values gen best = inl (PyException t)) /\
  (exponent betta w -> length conds = length values -> ~ Forall known conds -> exists t, penalty_execute (Dynamic (delta : num) c alpha betta) conds values gen best = inl (PyException t)).
Proof.
  intros delta c alpha betta w conds values gen best. unfold penalty_execute. change (@num Qops) with Q. split.
  - intros N. rewrite (proj2 (Nat.eqb_neq _ _) N). cbn [negb]. eauto.
  - intros E L N. rewrite (proj2 (Nat.eqb_eq _ _) L). cbn [negb]. change (list Q) with (list (@num Qops)) in values. rewrite (sum_unknown betta w) by auto. unfold bad_sign. eauto.
Qed.
Lemma known_dec : forall conds, {Forall known conds} + {~ Forall known conds}.
Proof. intros conds. apply Forall_dec. intros x. unfold known. destruct (string_dec x "!="), (string_dec x "<="); auto. right. intros [C|C]; auto. Qed.
Lemma dyn_inv : forall (delta c : Q) alpha betta wa wb conds (values : list Q) gen best p,
  exponent alpha wa -> exponent betta wb -> 0 <= c -> (0 <= gen)%Z ->
  penalty_execute (Dynamic (delta : num) c alpha betta) conds values gen best = inr p ->
  length conds = length values /\ Forall known conds /\ p == delta * wa (c * inject_Z gen) * total wb conds values.
Proof.
  intros delta c alpha betta wa wb conds values gen best p Ea Eb Hc Hg H.
  destruct (Nat.eq_dec (length conds) (length values)) as [L|L]; [|destruct (proj1 (C49_rejected delta c alpha betta wb conds values gen best) L) as (t & E); congruence].
  destruct (known_dec conds) as [K|K]; [|destruct (proj2 (C49_rejected delta c alpha betta wb conds values gen best) Eb L K) as (t & E); congruence].
  assert (B0 : 0 <= c * inject_Z gen) by (apply Qmult_le_0_compat; [auto|change 0 with (inject_Z 0); rewrite <- Zle_Qle; auto]).
  destruct (ex_value alpha wa Ea _ B0) as (y & Ey & Hy).
  destruct (C49_value delta c alpha betta wb conds values gen best y Eb Ey L K) as (p' & E & Hp). rewrite H in E. inversion E; subst. split; auto. split; auto. rewrite Hp, Hy. reflexivity.
Qed.
(** Never negative; zero when every condition holds and in generation 0; positive as
    soon as a condition is violated in a later generation. *)
Theorem C49_sign : forall (delta c : Q) alpha betta wa wb conds (values : list Q) gen best p,
  0 < delta -> 0 < c -> positive_exponent alpha wa -> positive_exponent betta wb -> (0 <= gen)%Z ->
  penalty_execute (Dynamic (delta : num) c alpha betta) conds values gen best = inr p ->
  0 <= p /\ (p == 0 <-> gen = 0%Z \/ Forall2 fulfilled conds values) /\ (0 < p <-> (0 < gen)%Z /\ ~ Forall2 fulfilled conds values).
Proof.
  intros delta c alpha betta wa wb conds values gen best p Hd Hc Pa Pb Hg H. pose proof (px_exponent _ _ Pa) as Ea. pose proof (px_exponent _ _ Pb) as Eb.
  apply (dyn_inv delta c alpha betta wa wb) in H; auto; [|lra]. destruct H as (L & K & Hp).
  assert (G0 : 0 <= inject_Z gen) by (change 0 with (inject_Z 0); rewrite <- Zle_Qle; auto).
  assert (B0 : 0 <= c * inject_Z gen) by (apply Qmult_le_0_compat; lra).
  pose proof (ex_nonneg _ _ Ea _ B0) as P0. pose proof (total_nonneg betta wb conds values Eb) as T0.
  assert (D0 : 0 <= delta * wa (c * inject_Z gen)) by (apply Qmult_le_0_compat; lra).
  assert (N0 : 0 <= p) by (rewrite Hp; apply Qmult_le_0_compat; auto).
  assert (Z0 : gen = 0%Z \/ Forall2 fulfilled conds values -> p == 0).
  { intros [-> |F]; rewrite Hp.
    - rewrite (positive_zero alpha wa (c * inject_Z 0) Pa); [ring|]. change (inject_Z 0) with 0. ring.
    - rewrite (total_zero betta wb conds values Pb F). ring. }
  assert (P : (0 < gen)%Z /\ ~ Forall2 fulfilled conds values -> 0 < p).
  { intros [Hg' N]. rewrite Hp. pose proof (total_pos betta wb conds values Eb (fun x => positive_pos betta wb x Pb) L N) as T.
    assert (G : 0 < inject_Z gen) by (change 0 with (inject_Z 0); rewrite <- Zlt_Qlt; auto).
    assert (B : 0 < c * inject_Z gen) by (rewrite <- (Qmult_0_l (inject_Z gen)); apply Qmult_lt_compat_r; auto).
    pose proof (positive_pos alpha wa _ Pa B) as Pw. assert (D : 0 < delta * wa (c * inject_Z gen)) by (rewrite <- (Qmult_0_l (wa (c * inject_Z gen))); apply Qmult_lt_compat_r; auto).
    rewrite <- (Qmult_0_l (total wb conds values)). apply Qmult_lt_compat_r; auto. }
  assert (Dec : Forall2 fulfilled conds values \/ ~ Forall2 fulfilled conds values).
  { clear - L. revert values L. induction conds as [|x cs IH]; destruct values as [|v vs]; intros L; try discriminate; [left; constructor|].
    destruct (IH vs) as [F|F]; [inversion L; auto| |right; intros C; inversion C; auto].
    assert (X : fulfilled x v \/ ~ fulfilled x v) by (unfold fulfilled; destruct (String.eqb x "<="); [destruct (Qlt_le_dec 0 v); [right; lra|left; auto]|destruct (Qeq_dec v 0); auto]).
    destruct X; [left; constructor; auto|right; intros C; inversion C; auto]. }
  split; auto. split; split; auto.
  - intros E. destruct (Z.eq_dec gen 0); auto. destruct Dec as [F|F]; auto. assert (0 < p) by (apply P; split; auto; lia). lra.
  - intros Q. destruct (Z.eq_dec gen 0) as [E|E]; [rewrite Z0 in Q by auto; lra|]. destruct Dec as [F|F]; [rewrite Z0 in Q by auto; lra|]. split; auto. lia.
Qed.
(** Monotone in every violation and in the generation, strictly in the generation
    when a condition is violated. *)
Theorem C49_monotone : forall (delta c : Q) alpha betta wa wb conds (values values' : list Q) gen gen' best best' p p',
  0 < delta -> 0 < c -> exponent alpha wa -> exponent betta wb -> (0 <= gen <= gen')%Z -> Forall3 no_worse conds values values' ->
  penalty_execute (Dynamic (delta : num) c alpha betta) conds values gen best = inr p ->
  penalty_execute (Dynamic (delta : num) c alpha betta) conds values' gen' best' = inr p' ->
  p <= p' /\ (positive_exponent alpha wa -> (forall x, 0 < x -> 0 < wb x) -> (gen < gen')%Z -> ~ Forall2 fulfilled conds values' -> p < p').
Proof.
  intros delta c alpha betta wa wb conds values values' gen gen' best best' p p' Hd Hc Ea Eb Hg F H H'.
  apply (dyn_inv delta c alpha betta wa wb) in H; auto; [|lra|lia]. apply (dyn_inv delta c alpha betta wa wb) in H'; auto; [|lra|lia]. destruct H as (L & K & Hp), H' as (L' & _ & Hp').
  assert (G0 : 0 <= inject_Z gen) by (change 0 with (inject_Z 0); rewrite <- Zle_Qle; lia).
  assert (G1 : inject_Z gen <= inject_Z gen') by (rewrite <- Zle_Qle; lia).
  assert (B0 : 0 <= c * inject_Z gen) by (apply Qmult_le_0_compat; lra).
  assert (B1 : c * inject_Z gen <= c * inject_Z gen') by (rewrite !(Qmult_comm c); apply Qmult_le_compat_r; lra).
  pose proof (ex_mono _ _ Ea _ _ B0 B1) as P1. pose proof (ex_nonneg _ _ Ea _ B0) as P0. pose proof (total_mono betta wb _ _ _ Eb F) as T1.
  pose proof (total_nonneg betta wb conds values Eb) as T0.
  set (a := wa (c * inject_Z gen)) in *. set (b := wa (c * inject_Z gen')) in *.
  set (t := total wb conds values) in *. set (t' := total wb conds values') in *.
  assert (M1 : a * t <= b * t') by (apply Qle_trans with (a * t'); [rewrite !(Qmult_comm a); apply Qmult_le_compat_r; auto|apply Qmult_le_compat_r; auto; lra]).
  split.
  - rewrite Hp, Hp'. rewrite <- !Qmult_assoc. rewrite !(Qmult_comm delta). apply Qmult_le_compat_r; lra.
  - intros Pa Pb Hg' N. pose proof (total_pos betta wb conds values' Eb Pb L' N) as T.
    assert (G2 : inject_Z gen < inject_Z gen') by (rewrite <- Zlt_Qlt; lia).
    assert (B2 : c * inject_Z gen < c * inject_Z gen') by (rewrite !(Qmult_comm c); apply Qmult_lt_compat_r; lra).
    pose proof (px_strict _ _ Pa _ _ B0 B2) as P2. fold a b in P2.
    assert (M2 : a * t < b * t') by (apply Qle_lt_trans with (a * t'); [rewrite !(Qmult_comm a); apply Qmult_le_compat_r; auto|apply Qmult_lt_compat_r; auto]).
    rewrite Hp, Hp'. rewrite <- !Qmult_assoc. rewrite !(Qmult_comm delta). apply Qmult_lt_compat_r; auto.
Qed.
(** A larger violation of one condition is [no_worse] in that sense. *)
Theorem C49_excess_order : forall c v w, (c = "<=" -> v <= w -> no_worse c v w) /\ (c = "!=" -> Qabs v <= Qabs w -> no_worse c v w).
Proof.
  intros c v w. split; intros ->; unfold no_worse, excess; cbn [String.eqb Ascii.eqb Bool.eqb]; intros H; [|auto].
  apply Q.max_le_compat_l. auto.
Qed.
Example C49_case : exists p, penalty_execute (Dynamic (1 : num) (1#2) (natural 2) (natural 2)) ["<="; "!="; "<="] [3; -2; -7]%Q 4 BNone = inr p /\ p == 52.
Proof. eexists. split; [reflexivity|]. reflexivity. Qed.
Example C49_hypotheses : (0 < 1)%Q /\ (0 < 1#2)%Q /\ Forall known ["<="; "!="; "<="] /\ ~ Forall2 fulfilled ["<="; "!="; "<="] [3; -2; -7]%Q.
Proof.
  split; [lra|]. split; [lra|]. split; [constructor; [right; auto|constructor; [left; auto|constructor; [right; auto|constructor]]]|].
  intros C. inversion C; subst. unfold fulfilled in H2. cbn in H2. lra.
Qed.
(** The exponents need not be natural: a rounded square root. *)
Definition half : expo := fun x : Q => inr (inject_Z (Z.sqrt (Qfloor (x * 10000))) / 100).
Lemma half_exponent : exponent half (fun x => inject_Z (Z.sqrt (Qfloor (x * 10000))) / 100).
Proof.
  assert (D : forall x, 0 <= x -> (0 <= Qfloor (x * 10000))%Z).
  { intros x H. change 0%Z with (Qfloor 0). apply Qfloor_resp_le. lra. }
  split; [intros x H; eexists; split; reflexivity| |]; intros x; [intros H|intros y H L].
  - apply Qle_shift_div_l; [reflexivity|]. rewrite Qmult_0_l. change 0 with (inject_Z 0). rewrite <- Zle_Qle. apply Z.sqrt_nonneg.
  - unfold Qdiv. apply Qmult_le_compat_r; [|discriminate]. rewrite <- Zle_Qle. apply Z.sqrt_le_mono, Qfloor_resp_le. lra.
Qed.
Example C49_half : exists p, penalty_execute (Dynamic (1 : num) (1#2) (natural 2) half) ["<="; "!="; "<="] [9; -2; -7]%Q 4 BNone = inr p /\ p == 4 * (3 + (141 # 100)).
Proof. eexists. split; [vm_compute; reflexivity|]. vm_compute. reflexivity. Qed.
(** With betta = 0 the penalty counts the conditions, violated or not: positivity of
    the parameters is needed. *)
Example C49_betta_zero : exists p, penalty_execute (Dynamic (1 : num) (1#2) (natural 2) (natural 0)) ["<="; "<="] [-3; -7]%Q 4 BNone = inr p /\ p == 8.
Proof. eexists. split; [reflexivity|]. reflexivity. Qed.

(** *** C50 *)
Theorem C50_constructor : forall (delta b1 b2 : Q) betta,
  (b1 <= 1 -> new_adaptive (delta : num) b1 b2 betta = inl (PyException "betta_1")) /\
  (1 < b1 -> b2 <= 1 -> new_adaptive (delta : num) b1 b2 betta = inl (PyException "betta_2")) /\
  (1 < b1 -> 1 < b2 -> b1 == b2 -> new_adaptive (delta : num) b1 b2 betta = inl (PyException "betta_1 and betta_2 should not be equal")) /\
  (1 < b1 -> 1 < b2 -> ~ b1 == b2 -> new_adaptive (delta : num) b1 b2 betta = inr (Adaptive (delta : num) b1 b2 betta)).
Proof.
  intros delta b1 b2 betta. unfold new_adaptive. cbn [nleb neqb nofZ Qops]. change (inject_Z 1) with 1.
  assert (Gt : forall b, 1 < b -> Qle_bool b 1 = false) by (intros b H; destruct (Qle_bool b 1) eqn:E; [apply Qle_bool_iff in E; lra|reflexivity]).
  split; [|split; [|split]].
  - intros H. apply Qle_bool_iff in H. rewrite H. reflexivity.
  - intros H1 H. apply Qle_bool_iff in H. rewrite H, (Gt b1 H1). reflexivity.
  - intros H1 H2 H. apply Qeq_bool_iff in H. rewrite H, (Gt b1 H1), (Gt b2 H2). reflexivity.
  - intros H1 H2 H. rewrite (Gt b1 H1), (Gt b2 H2). destruct (Qeq_bool b1 b2) eqn:E; [apply Qeq_bool_iff in E; contradiction|reflexivity].
Qed.
(** The coefficient: 0 in generation 0, afterwards by the feasibility of the best
    solution known at that moment. *)
Definition coefficient (b1 b2 : Q) (gen : Z) (best : best_sol) (k : Q) : Prop :=
  (gen = 0%Z /\ k == 0) \/
  (gen <> 0%Z /\ exists i g, best = BSingle i g /\ k == (if feasible i then 10 / b1 else 10 * b2)).
Theorem C50_value : forall (delta b1 b2 : Q) betta w conds (values : list Q) gen best k,
  exponent betta w -> 1 < b1 -> 1 < b2 -> length conds = length values -> Forall known conds -> coefficient b1 b2 gen best k ->
  exists p, penalty_execute (Adaptive (delta : num) b1 b2 betta) conds values gen best = inr p /\
    p == delta * k * total w conds values.
Proof.
  intros delta b1 b2 betta w conds values gen best k Ew H1 H2 L K C. unfold penalty_execute. change (@num Qops) with Q. rewrite (proj2 (Nat.eqb_eq _ _) L). cbn [negb].
  destruct (sum_value betta w conds values 0 Ew L K) as (s & Es & Hs). change (@nzero Qops) with (0 : Q). rewrite Es.
  destruct C as [[-> Hk]|(Hg & i & g & -> & Hk)].
  - cbn [Z.eqb]. eexists. split; [reflexivity|]. cbn [nmul Qops]. rewrite Hk, Hs. ring.
  - rewrite (proj2 (Z.eqb_neq _ _) Hg). cbn [best_feasible]. destruct (feasible i).
    + unfold py_div. cbn [neqb Qops]. destruct (Qeq_bool b1 _) eqn:E; [apply Qeq_bool_iff in E; change (b1 == 0) in E; lra|].
      eexists. split; [reflexivity|]. cbn [nmul Qops ndiv_raw none_ nofZ]. rewrite Hk, Hs. unfold Qdiv. change (inject_Z 1) with 1. change (inject_Z 10) with 10. ring.
    + eexists. split; [reflexivity|]. cbn [nmul Qops nofZ]. rewrite Hk, Hs. change (inject_Z 10) with 10. ring.
Qed.
Theorem C50_rejected : forall (delta b1 b2 : Q) betta w conds (values : list Q) gen best,
  (length conds <> length values -> exists t, penalty_execute (Adaptive (delta : num) b1 b2 betta) conds values gen best = inl (PyException t)) /\
  (exponent betta w -> length conds = length values -> ~ Forall known conds -> exists t, penalty_execute (Adaptive (delta : num) b1 b2 betta) conds values gen best = inl (PyException t)) /\
  (exponent betta w -> length conds = length values -> Forall known conds -> gen <> 0%Z ->
     (best = BNone -> penalty_execute (Adaptive (delta : num) b1 b2 betta) conds values gen best = inl TypeError) /\
     (forall l g, best = BPareto l g -> penalty_execute (Adaptive (delta : num) b1 b2 betta) conds values gen best = inl KeyError)).
Proof.
  intros delta b1 b2 betta w conds values gen best. unfold penalty_execute. change (@num Qops) with Q. split; [|split].
  - intros N. rewrite (proj2 (Nat.eqb_neq _ _) N). cbn [negb]. eauto.
  - intros E L N. rewrite (proj2 (Nat.eqb_eq _ _) L). cbn [negb]. change (list Q) with (list (@num Qops)) in values. rewrite (sum_unknown betta w) by auto. unfold bad_sign. eauto.
  - intros E L K Hg. rewrite (proj2 (Nat.eqb_eq _ _) L). cbn [negb].
    destruct (sum_value betta w conds values 0 E L K) as (s & Es & Hs). change (@nzero Qops) with (0 : Q). rewrite Es.
    rewrite (proj2 (Z.eqb_neq _ _) Hg). split; [intros ->|intros l g ->]; reflexivity.
Qed.
(** Infeasible points are penalised, and more strongly while the best solution is
    infeasible. *)
Theorem C50_stronger : forall (delta b1 b2 : Q) betta w conds (values : list Q) gen gen' i i' g g' p p',
  exponent betta w -> (forall x, 0 < x -> 0 < w x) -> 0 < delta -> 1 < b1 -> 1 < b2 -> gen <> 0%Z -> gen' <> 0%Z -> ~ Forall2 fulfilled conds values ->
  feasible i = true -> feasible i' = false ->
  penalty_execute (Adaptive (delta : num) b1 b2 betta) conds values gen (BSingle i g) = inr p ->
  penalty_execute (Adaptive (delta : num) b1 b2 betta) conds values gen' (BSingle i' g') = inr p' ->
  0 < p /\ p < p' /\ p' == p * (b1 * b2).
Proof.
  intros delta b1 b2 betta w conds values gen gen' i i' g g' p p' Ew Pw Hd H1 H2 Hg Hg' N F F' E E'.
  assert (L : length conds = length values).
  { destruct (Nat.eq_dec (length conds) (length values)) as [|C]; auto. destruct (proj1 (C50_rejected delta b1 b2 betta w conds values gen (BSingle i g)) C). congruence. }
  assert (K : Forall known conds).
  { destruct (known_dec conds) as [|C]; auto. destruct (proj1 (proj2 (C50_rejected delta b1 b2 betta w conds values gen (BSingle i g))) Ew L C). congruence. }
  destruct (C50_value delta b1 b2 betta w conds values gen (BSingle i g) (10 / b1) Ew H1 H2 L K) as (q & Eq & Hq).
  { right. split; auto. exists i, g. split; auto. rewrite F. reflexivity. }
  destruct (C50_value delta b1 b2 betta w conds values gen' (BSingle i' g') (10 * b2) Ew H1 H2 L K) as (q' & Eq' & Hq').
  { right. split; auto. exists i', g'. split; auto. rewrite F'. reflexivity. }
  assert (q = p) by congruence. assert (q' = p') by congruence. subst q q'. pose proof (total_pos betta w conds values Ew Pw L N) as T. set (t := total w conds values) in *.
  assert (P : 0 < p).
  { rewrite Hq. assert (0 < 10 / b1) by (apply Qlt_shift_div_l; lra).
    assert (0 < delta * (10 / b1)) by (rewrite <- (Qmult_0_l (10 / b1)); apply Qmult_lt_compat_r; auto).
    rewrite <- (Qmult_0_l t). apply Qmult_lt_compat_r; auto. }
  assert (R : p' == p * (b1 * b2)) by (rewrite Hq, Hq'; field; lra).
  split; auto. split; auto. rewrite R.
  assert (B : 1 < b1 * b2) by (apply Qlt_trans with (1 * b2); [lra|apply Qmult_lt_compat_r; lra]).
  apply Qle_lt_trans with (1 * p); [lra|]. rewrite (Qmult_comm p). apply Qmult_lt_compat_r; auto.
Qed.
Definition feas (b : bool) : individ := mkInd [] None SVNone SVNone b None None.
Example C50_case : exists p p',
  penalty_execute (Adaptive (1 : num) (11#10) (12#10) (natural 2)) ["<="; "!="] [3; -2]%Q 4 (BSingle (feas true) 3) = inr p /\
  penalty_execute (Adaptive (1 : num) (11#10) (12#10) (natural 2)) ["<="; "!="] [3; -2]%Q 4 (BSingle (feas false) 3) = inr p' /\
  p == 1300 # 11 /\ p' == 156.
Proof. do 2 eexists. split; [reflexivity|]. split; [reflexivity|]. split; reflexivity. Qed.

(** *** C51 *)
Theorem C51_constructor : forall ei ec ii ic,
  (length ec <> length ei -> @new_static Qops ei ec ii ic = inl (PyException "equality lengths")) /\
  (length ec = length ei -> length ic <> length ii -> @new_static Qops ei ec ii ic = inl (PyException "inequality lengths")) /\
  (length ec = length ei -> length ic = length ii -> @new_static Qops ei ec ii ic = inr (Static ei ec ii ic)).
Proof.
  intros ei ec ii ic. unfold new_static. split; [|split].
  - intros H. rewrite (proj2 (Nat.eqb_neq _ _) H). reflexivity.
  - intros H1 H. rewrite (proj2 (Nat.eqb_eq _ _) H1), (proj2 (Nat.eqb_neq _ _) H). reflexivity.
  - intros E1 E2. rewrite (proj2 (Nat.eqb_eq _ _) E1), (proj2 (Nat.eqb_eq _ _) E2). reflexivity.
Qed.
(** The intervals given for a key. *)
Definition intervals (d : pydict (num * num)) (i : Z) (l : list (Q * Q)) : Prop := dict_get d i = inr l.
Definition inside (v : Q) (iv : Q * Q) : Prop := fst iv < v < snd iv.
Lemma inside_dec : forall v iv, {inside v iv} + {~ inside v iv}.
Proof. intros v [lo hi]. unfold inside. cbn. destruct (Qlt_le_dec lo v); [destruct (Qlt_le_dec v hi)|]; [left; auto|right; lra|right; lra]. Qed.
Lemma interval_outside : forall (coefs : exn + list num) (v w : Q) l idx res, ~ Forall (inside v) l -> exists e, interval_loop coefs (v : num) w idx l res = inl e.
Proof.
  induction l as [|[lo hi] l IH]; intros idx res N; [destruct N; constructor|]. cbn [interval_loop].
  destruct (@nltb Qops lo v && @nltb Qops v hi) eqn:E; [|eauto]. destruct coefs as [e|cl]; [eauto|]. destruct (py_nth cl idx); [|eauto].
  apply IH. intros F. apply N. constructor; auto. apply andb_true_iff in E. cbn in E. rewrite !Qltb_iff in E. exact E.
Qed.
Lemma interval_inside : forall (cl : list num) (v w : Q) l idx res r, interval_loop (inr cl) (v : num) w idx l res = inr r ->
  Forall (inside v) l /\ (l = [] /\ r = res \/ exists k, py_nth cl (idx + Z.of_nat (length l) - 1) = Some k /\ r = Some (nmul k w)).
Proof.
  induction l as [|[lo hi] l IH]; intros idx res r H; cbn [interval_loop] in H; [inversion H; auto|].
  destruct (@nltb Qops lo v && @nltb Qops v hi) eqn:E; [|discriminate]. destruct (py_nth cl idx) as [k|] eqn:Ek; [|discriminate].
  apply IH in H. destruct H as (F & H). split.
  - constructor; auto. apply andb_true_iff in E. cbn in E. rewrite !Qltb_iff in E. exact E.
  - right. destruct H as [[-> ->]|(k' & Ek' & ->)].
    + exists k. split; auto. cbn [length]. replace (idx + Z.of_nat 1 - 1)%Z with idx by lia. exact Ek.
    + exists k'. split; auto. cbn [length]. replace (idx + Z.of_nat (S (length l)) - 1)%Z with (idx + 1 + Z.of_nat (length l) - 1)%Z by lia. exact Ek'.
Qed.
Lemma interval_bad : forall e (v w : Q) l idx res r, l <> [] -> interval_loop (inl e) (v : num) w idx l res = inr r -> False.
Proof. intros e v w [|[lo hi] l] idx res r N H; [congruence|]. cbn [interval_loop] in H. destruct (@nltb Qops lo v && @nltb Qops v hi); discriminate. Qed.

(** A satisfied equality one of whose intervals leaves out 0, or a violated inequality
    one of whose intervals leaves out the value, makes the whole penalty raise. *)
Definition trap (ei ii : pydict (num * num)) (i : Z) (c : string) (v : Q) : Prop :=
  (c = "!=" /\ v == 0 /\ exists l, intervals ei i l /\ ~ Forall (inside v) l) \/
  (c = "<=" /\ 0 < v /\ exists l, intervals ii i l /\ ~ Forall (inside v) l).
Lemma static_trap : forall ei ec ii cs vs i res acc j c v, length cs = length vs ->
  nth_error cs j = Some c -> nth_error vs j = Some v -> trap ei ii (i + Z.of_nat j) c v ->
  exists e, static_sum ei ec ii i res (acc : num) cs vs = inl e.
Proof.
  induction cs as [|c0 cs IH]; destruct vs as [|v0 vs]; intros i res acc j c v L Hc Hv T; try discriminate; [destruct j; discriminate|].
  inversion L as [L']. cbn [static_sum]. destruct j as [|j].
  - cbn in Hc, Hv. inversion Hc; inversion Hv; subst c0 v0. rewrite Z.add_0_r in T. destruct T as [(-> & Hz & l & Hl & N)|(-> & Hz & l & Hl & N)].
    + cbn [String.eqb Ascii.eqb Bool.eqb]. cbn [neqb Qops]. replace (Qeq_bool v _) with true by (symmetry; apply Qeq_bool_iff; exact Hz). cbn [negb].
      unfold intervals in Hl. rewrite Hl. destruct (interval_outside (dict_get ec i) v (@nabs Qops v) l 0 res N) as (e & ->). eauto.
    + cbn [String.eqb Ascii.eqb Bool.eqb]. cbn [nleb Qops]. destruct (Qle_bool v _) eqn:E; [apply Qle_bool_iff in E; change (v <= 0) in E; lra|].
      unfold intervals in Hl. rewrite Hl. destruct (interval_outside (dict_get ec i) v (@nmax0 Qops v) l 0 res N) as (e & ->). eauto.
  - cbn in Hc, Hv. assert (T' : trap ei ii (i + 1 + Z.of_nat j) c v) by (replace (i + 1 + Z.of_nat j)%Z with (i + Z.of_nat (S j))%Z by lia; auto).
    destruct (String.eqb c0 "!=").
    + destruct (negb _); [eapply IH; eauto|]. destruct (dict_get ei i); [eauto|]. destruct (interval_loop _ _ _ _ _ _) as [e|[x|]]; [eauto| |eauto]. eapply IH; eauto.
    + destruct (String.eqb c0 "<="); [|eauto]. destruct (nleb _ _); [eapply IH; eauto|]. destruct (dict_get ii i); [eauto|].
      destruct (interval_loop _ _ _ _ _ _) as [e|[x|]]; [eauto| |eauto]. eapply IH; eauto.
Qed.
Theorem C51_raises : forall ei ec ii ic conds (values : list Q) gen best j c v,
  nth_error conds j = Some c -> nth_error values j = Some v -> trap ei ii (Z.of_nat j) c v ->
  exists e, penalty_execute (Static ei ec ii ic) conds values gen best = inl e.
Proof.
  intros ei ec ii ic conds values gen best j c v Hc Hv T. unfold penalty_execute. change (@num Qops) with Q. destruct (Nat.eqb (length conds) (length values)) eqn:E; cbn [negb]; [|eauto].
  apply Nat.eqb_eq in E. eapply static_trap; eauto.
Qed.
(** In particular a violated inequality with two disjoint intervals always raises,
    wherever the value lies, and so does a satisfied equality with an interval of
    positive numbers, as in the documentation's example. *)
Definition disjoint (iv iv' : Q * Q) : Prop := forall v, inside v iv -> inside v iv' -> False.
Theorem C51_inequality_raises : forall ei ec ii ic conds (values : list Q) gen best j v l iv iv',
  nth_error conds j = Some "<=" -> nth_error values j = Some v -> 0 < v ->
  intervals ii (Z.of_nat j) l -> In iv l -> In iv' l -> disjoint iv iv' ->
  exists e, penalty_execute (Static ei ec ii ic) conds values gen best = inl e.
Proof.
  intros ei ec ii ic conds values gen best j v l iv iv' Hc Hv Hp Hl I1 I2 D. eapply C51_raises; eauto. right. split; auto. split; auto. exists l. split; auto.
  intros F. rewrite Forall_forall in F. exact (D v (F _ I1) (F _ I2)).
Qed.
Theorem C51_equality_raises : forall ei ec ii ic conds (values : list Q) gen best j v l iv,
  nth_error conds j = Some "!=" -> nth_error values j = Some v -> v == 0 ->
  intervals ei (Z.of_nat j) l -> In iv l -> 0 <= fst iv ->
  exists e, penalty_execute (Static ei ec ii ic) conds values gen best = inl e.
Proof.
  intros ei ec ii ic conds values gen best j v l iv Hc Hv Hp Hl I1 D. eapply C51_raises; eauto. left. split; auto. split; auto. exists l. split; auto.
  intros F. rewrite Forall_forall in F. destruct (F _ I1) as [F1 _]. lra.
Qed.
(** What a penalty that does not raise is: only the violated inequalities count, each
    with the coefficient that belongs to the last interval in equality_r_coef, whatever
    inequality_r_coef says.  (Interval lists are not empty.) *)
Fixpoint counted (ec : pydict num) (ii : pydict (num * num)) (i : Z) (conds : list string) (values : list Q) (p : Q) : Prop :=
  match conds, values with
  | c :: cs, v :: vs =>
      if String.eqb c "<=" then
        if Qlt_le_dec 0 v then
          exists l cl k p', intervals ii i l /\ Forall (inside v) l /\ dict_get ec i = inr cl /\
            nth_error cl (length l - 1) = Some k /\ counted ec ii (i + 1) cs vs p' /\ p == (k * v) ^ 2 + p'
        else counted ec ii (i + 1) cs vs p
      else counted ec ii (i + 1) cs vs p
  | _, _ => p == 0
  end.
Definition no_empty {A} (d : pydict A) : Prop := Forall (fun kv => snd kv <> []) d.
Lemma dict_no_empty : forall {A} (d : pydict A) i l, no_empty d -> dict_get d i = inr l -> l <> [].
Proof.
  induction d as [|[k x] d IH]; intros i l N H; cbn in H; [discriminate|]. inversion N; subst. destruct (Z.eqb i k); [inversion H; subst; auto|]. eapply IH; eauto.
Qed.
Lemma counted_ext : forall ec ii cs i vs p p', p == p' -> counted ec ii i cs vs p -> counted ec ii i cs vs p'.
Proof.
  induction cs as [|c cs IH]; intros i vs p p' E H; cbn [counted] in *; [rewrite <- E; auto|]. destruct vs as [|v vs]; [rewrite <- E; auto|].
  destruct (String.eqb c "<="); [destruct (Qlt_le_dec 0 v)|]; try (eapply IH; eauto; fail).
  destruct H as (l & cl & k & p0 & A1 & A2 & A3 & A4 & A5 & A6). exists l, cl, k, p0. split; auto. split; auto. split; auto. split; auto. split; auto. rewrite <- E. auto.
Qed.
Lemma static_counted : forall ei ec ii, no_empty ei -> no_empty ii -> forall cs vs i res (acc : Q) s, length cs = length vs ->
  static_sum ei ec ii i res (acc : num) cs vs = inr s -> counted ec ii i cs vs (s - acc) /\ Forall known cs.
Proof.
  intros ei ec ii Ne Ni. induction cs as [|c cs IH]; destruct vs as [|v vs]; intros i res acc s L H; try discriminate; cbn [static_sum counted] in *.
  - inversion H; subst. split; [ring|constructor].
  - inversion L as [L']. destruct (String.eqb c "!=") eqn:E1.
    + apply String.eqb_eq in E1. subst c. cbn [String.eqb Ascii.eqb Bool.eqb]. destruct (negb _) eqn:En.
      * apply IH in H; auto. destruct H as [H K]. split; [auto|]. constructor; auto. left; auto.
      * apply negb_false_iff in En. cbn in En. apply Qeq_bool_iff in En. destruct (dict_get ei i) as [|l] eqn:Dl; [discriminate|].
        pose proof (dict_no_empty _ _ _ Ne Dl) as Nl.
        destruct (dict_get ec i) as [e|cl] eqn:Dc; [destruct (@interval_loop Qops (inl e) v (@nabs Qops v) 0 l res) as [|[x|]] eqn:Ei; [discriminate|destruct (interval_bad _ _ _ _ _ _ _ Nl Ei)|discriminate]|].
        destruct (@interval_loop Qops (inr cl) v (@nabs Qops v) 0 l res) as [|[x|]] eqn:Ei; try discriminate.
        apply interval_inside in Ei. destruct Ei as (_ & [[C _]|(k & _ & Ex)]); [contradiction|]. inversion Ex; subst x. apply IH in H; auto. destruct H as [H K].
        split; [|constructor; auto; left; auto]. eapply counted_ext; [|exact H]. cbn [nadd npow nmul Qops none_ nofZ]. rewrite (nabs_abs v). unfold inject_Z in *. rewrite En. cbn. ring.
    + destruct (String.eqb c "<=") eqn:E2; [|discriminate]. cbn [nleb Qops] in H. destruct (Qle_bool v _) eqn:En.
      * apply Qle_bool_iff in En. change (v <= 0) in En. destruct (Qlt_le_dec 0 v); [lra|]. apply IH in H; auto. destruct H as [H K]. split; auto. constructor; auto. right. apply String.eqb_eq; auto.
      * assert (Hv : 0 < v) by (destruct (Qlt_le_dec 0 v) as [|C]; auto; apply Qle_bool_iff in C; change (Qle_bool v 0 = false) in En; congruence).
        destruct (Qlt_le_dec 0 v); [|lra]. destruct (dict_get ii i) as [|l] eqn:Dl; [discriminate|]. pose proof (dict_no_empty _ _ _ Ni Dl) as Nl.
        destruct (dict_get ec i) as [e|cl] eqn:Dc; [destruct (@interval_loop Qops (inl e) v (@nmax0 Qops v) 0 l res) as [|[x|]] eqn:Ei; [discriminate|destruct (interval_bad _ _ _ _ _ _ _ Nl Ei)|discriminate]|].
        destruct (@interval_loop Qops (inr cl) v (@nmax0 Qops v) 0 l res) as [|[x|]] eqn:Ei; try discriminate.
        apply interval_inside in Ei. destruct Ei as (Fi & [[C _]|(k & Hk & Ex)]); [contradiction|]. inversion Ex; subst x. apply IH in H; auto. destruct H as [H K].
        split; [|constructor; auto; right; apply String.eqb_eq; auto].
        exists l, cl, k, (s - @nadd Qops acc (@npow Qops (@nmul Qops k (@nmax0 Qops v)) 2)). split; auto. split; auto. split; auto. split.
        { destruct l as [|a l]; [congruence|]. cbn [length] in *. rewrite Nat.sub_succ, Nat.sub_0_r. unfold py_nth in Hk.
          replace (0 + Z.of_nat (S (length l)) - 1)%Z with (Z.of_nat (length l)) in Hk by lia. rewrite (proj2 (Z.ltb_ge (Z.of_nat (length l)) 0)) in Hk by lia.
          destruct (_ || _); [discriminate|]. rewrite Nat2Z.id in Hk. exact Hk. }
        split; auto. rewrite npow_qpow. cbn [nadd nmul Qops]. rewrite (nmax0_max v). rewrite Q.max_r by lra. change (Z.of_nat 2) with 2%Z. ring.
Qed.
Theorem C51_value : forall ei ec ii ic conds (values : list Q) gen best p, no_empty ei -> no_empty ii ->
  penalty_execute (Static ei ec ii ic) conds values gen best = inr p -> counted ec ii 0 conds values p /\ Forall known conds.
Proof.
  intros ei ec ii ic conds values gen best p Ne Ni H. unfold penalty_execute in H. change (@num Qops) with Q in H. destruct (Nat.eqb (length conds) (length values)) eqn:E; cbn [negb] in H; [|discriminate].
  apply Nat.eqb_eq in E. apply (static_counted ei ec ii Ne Ni conds values 0 None 0 p E) in H. destruct H as [H K]. split; auto. eapply counted_ext; [|exact H]. ring.
Qed.
(** A violated equality costs nothing: with equalities only, all violated, the penalty
    is 0, with every configuration. *)
Theorem C51_equality_free : forall ei ec ii ic conds (values : list Q) gen best,
  Forall2 (fun c v => c = "!=" /\ ~ v == 0) conds values ->
  exists p, penalty_execute (Static ei ec ii ic) conds values gen best = inr p /\ p == 0.
Proof.
  intros ei ec ii ic conds values gen best F. unfold penalty_execute. change (@num Qops) with Q. assert (L : length conds = length values) by (clear - F; induction F; cbn; congruence). rewrite (proj2 (Nat.eqb_eq _ _) L). clear L. cbn [negb].
  exists (@nzero Qops). split; [|reflexivity]. generalize (@None Q) as res. generalize 0%Z as i. induction F as [|c v cs vs [-> N] F IH]; intros i res; cbn [static_sum]; [reflexivity|].
  cbn [String.eqb Ascii.eqb Bool.eqb]. cbn [neqb Qops]. destruct (Qeq_bool v _) eqn:E; [apply Qeq_bool_iff in E; contradiction|]. cbn [negb]. apply IH.
Qed.
(** The documentation's example (static_penalty.py:16-28), with 10^6 for inf: an
    inequality violated by 200 raises; the violated equality alone costs nothing. *)
Definition doc_eq : pydict (num * num) := [(1%Z, [(1#1000, 1#100); (1#100, 1#10); (1#10, 1000000)])].
Definition doc_eqc : pydict num := [(1%Z, [50; 100; 500])].
Definition doc_in : pydict (num * num) := [(0%Z, [(100, 300); (300, 610); (610, 1000000)])].
Definition doc_inc : pydict num := [(0%Z, [100; 400; 600])].
Example C51_case : penalty_execute (Static doc_eq doc_eqc doc_in doc_inc) ["<="; "!="] [200; 3]%Q 4 BNone = inl KeyError /\
  (exists p, penalty_execute (Static doc_eq doc_eqc doc_in doc_inc) ["<="; "!="] [-5; 3]%Q 4 BNone = inr p /\ p == 0) /\
  (exists t, penalty_execute (Static doc_eq doc_eqc doc_in doc_inc) ["<="; "!="] [-5; 0]%Q 4 BNone = inl (PyException t)).
Proof. split; [reflexivity|]. split; [eexists; split; reflexivity|]. eexists. reflexivity. Qed.
Example C51_hypotheses : intervals doc_in 0 [(100, 300); (300, 610); (610, 1000000)] /\ disjoint (100, 300) (300, 610) /\ no_empty doc_in.
Proof. split; [reflexivity|]. split; [intros v [A B] [C D]; cbn in *; lra|]. constructor; [discriminate|constructor]. Qed.
(** One interval per constraint: the inequality's excess 3 is multiplied by the
    equality's coefficient 5, not by its own 7. *)
Example C51_coefficient : exists p,
  penalty_execute (Static [(0%Z, [(-1, 1)])] [(0%Z, [5 : num])] [(0%Z, [(0, 10)])] [(0%Z, [7 : num])]) ["<="] [3]%Q 4 BNone = inr p /\ p == (5 * 3) ^ 2.
Proof. eexists. split; reflexivity. Qed.

Print Assumptions C49_value.
Print Assumptions C49_natural.
Print Assumptions C49_rejected.
Print Assumptions C49_sign.
Print Assumptions C49_monotone.
Print Assumptions C49_excess_order.
Print Assumptions C50_constructor.
Print Assumptions C50_value.
Print Assumptions C50_rejected.
Print Assumptions C50_stronger.
Print Assumptions C51_constructor.
Print Assumptions C51_raises.
Print Assumptions C51_inequality_raises.
Print Assumptions C51_equality_raises.
Print Assumptions C51_value.
Print Assumptions C51_equality_free.
