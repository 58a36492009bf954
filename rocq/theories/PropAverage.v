(** Statement C71: the average score of a population. *)
From Coq Require Import String.
From Coq Require Import ZArith QArith List Bool Lia Lqa Permutation Sorted.
From Verif Require Import Spec Num State Binary Population GaData Crossover Mutation Selection Penalty Fitness NewGeneration Driver
  ListLemmas Rnd Exec Laws NewGenProofs StepProofs RunProofs Runs PropRun Demo.
Import ListNotations.
Open Scope Z_scope.
Local Existing Instance Qops.

(** The sum of a list of fractions, written independently of the model. *)
Fixpoint total (l : list Q) : Q := match l with [] => 0%Q | x :: l' => (x + total l')%Q end.
Lemma nsum_total : forall (l : list Q), (@nsum Qops l == total l)%Q.
Proof.
  assert (G : forall (l : list Q) (a : Q), (fold_left (@nadd Qops) l a == a + total l)%Q).
  { induction l as [|x l IH]; intros a; cbn [fold_left total]; [ring|]. rewrite IH. cbn [nadd Qops]. ring. }
  intros l. unfold nsum. rewrite G. change (@nzero Qops) with 0%Q. ring.
Qed.
Definition scalar (s : st) (r : nat) : Prop := exists x : Q, score (heap s r) = SV1 x.
Lemma read_scores : forall l s, Forall (scalar s) l ->
  exists xs : list Q, mmap scalar_score l s = Ok xs s /\ map (fun r => score (heap s r)) l = map (@SV1 Qops) xs.
Proof.
  intros l s H. induction H as [|r l (x & Hx) H (xs & E1 & E2)]; [exists []; auto|].
  exists (x :: xs). cbn [mmap map]. unfold bind at 1. unfold scalar_score at 1, bind at 1, get. rewrite Hx. cbn [ret].
  unfold ret at 1, bind. rewrite E1. cbn. rewrite E2. auto.
Qed.
Lemma read_fails : forall l s, ~ Forall (scalar s) l -> mmap scalar_score l s = Err TypeError.
Proof.
  intros l s. induction l as [|r l IH]; intros H; [destruct H; constructor|]. cbn [mmap]. unfold bind at 1.
  unfold scalar_score at 1, bind at 1, get. destruct (score (heap s r)) as [|x|v] eqn:E; try reflexivity.
  unfold ret at 1, bind. rewrite IH; auto. intros C. apply H. constructor; auto. exists x. auto.
Qed.

(** C71, every outcome: the arithmetic mean of the scores, read without changing
    anything; ZeroDivisionError exactly on an empty population; TypeError exactly when
    a member is unscored or has a list of scores. *)
Theorem C71_average : forall gd s,
  match get_avg_score gd s with
  | Ok x s' => s' = s /\ members (population gd) <> [] /\
      exists xs : list Q, map (fun r => score (heap s r)) (members (population gd)) = map (@SV1 Qops) xs /\
        (x * inject_Z (Z.of_nat (length xs)) == total xs)%Q
  | Err ZeroDivisionError => members (population gd) = []
  | Err TypeError => exists r, In r (members (population gd)) /\ forall x : Q, score (heap s r) <> SV1 x
  | _ => False
  end.
Proof.
  intros gd s. unfold get_avg_score. set (l := members (population gd)).
  assert (D : Forall (scalar s) l \/ exists r, In r l /\ forall x : Q, score (heap s r) <> SV1 x).
  { clearbody l. induction l as [|r l IH]; [left; constructor|]. destruct (score (heap s r)) as [|x|v] eqn:E.
    - right. exists r. split; [left; auto|]. rewrite E. discriminate.
    - destruct IH as [IH|(r' & I & N)]; [left; constructor; auto; exists x; auto|right; exists r'; split; [right; auto|auto]].
    - right. exists r. split; [left; auto|]. rewrite E. discriminate. }
  unfold bind. destruct D as [D|(r & I & N)].
  - destruct (read_scores _ _ D) as (xs & -> & E).
    assert (L : length l = length xs) by (apply (f_equal (@length _)) in E; rewrite !map_length in E; auto).
    unfold lift, py_div. destruct (@neqb Qops (nofZ (Z.of_nat (length l))) nzero) eqn:Z0.
    + cbn. apply Qeq_bool_eq in Z0. unfold Qeq in Z0. cbn in Z0. destruct l; auto. cbn in Z0. lia.
    + cbn [raise ret]. unfold ret. split; auto. split; [intros C; rewrite C in Z0; discriminate|]. exists xs. split; auto.
      rewrite <- L. cbn [ndiv_raw nofZ Qops] in *. rewrite nsum_total. unfold Qdiv. rewrite <- Qmult_assoc, (Qmult_comm (/ _)), Qmult_inv_r; [ring|].
      intros C. apply Qeq_bool_iff in C. change (Qeq_bool (inject_Z (Z.of_nat (length l))) 0 = false) in Z0. congruence.
  - rewrite read_fails; [eauto|]. intros F. rewrite Forall_forall in F. destruct (F r I) as (x & Hx). exact (N x Hx).
Qed.
Lemma total_bounds : forall (xs : list Q) (a b : Q), Forall (fun x => a <= x <= b)%Q xs ->
  (a * inject_Z (Z.of_nat (length xs)) <= total xs <= b * inject_Z (Z.of_nat (length xs)))%Q.
Proof.
  intros xs a b H. induction H as [|x xs [Hx1 Hx2] H [IH1 IH2]]; [cbn; unfold inject_Z; split; ring_simplify; lra|]. cbn [total length].
  rewrite Nat2Z.inj_succ. unfold Z.succ. rewrite inject_Z_plus. change (inject_Z 1) with 1%Q. split; lra.
Qed.
Lemma total_top : forall (xs : list Q) (b : Q), Forall (fun x => x <= b)%Q xs ->
  (total xs <= b * inject_Z (Z.of_nat (length xs)))%Q /\
  (total xs == b * inject_Z (Z.of_nat (length xs)) -> Forall (fun x => x == b) xs)%Q.
Proof.
  intros xs b H. induction H as [|x xs Hx H [IH1 IH2]]; [cbn; split; [unfold inject_Z; ring_simplify; lra|constructor]|]. cbn [total length].
  rewrite Nat2Z.inj_succ. unfold Z.succ. rewrite inject_Z_plus. change (inject_Z 1) with 1%Q. split; [lra|].
  intros E. constructor; [lra|]. apply IH2. lra.
Qed.
(** The average lies between any bounds of the scores, and reaches the upper one only
    when all scores are equal to it. *)
Theorem C71_between : forall gd s x s' (a b : Q), get_avg_score gd s = Ok x s' ->
  (forall r y, In r (members (population gd)) -> score (heap s r) = SV1 y -> a <= y <= b)%Q ->
  (a <= x <= b)%Q /\ ((x == b)%Q -> forall r y, In r (members (population gd)) -> score (heap s r) = SV1 y -> (y == b)%Q).
Proof.
  intros gd s x s' a b H B. pose proof (C71_average gd s) as K. rewrite H in K. destruct K as (_ & Ne & xs & E & Ex). set (l := members (population gd)) in *.
  assert (L : length l = length xs) by (apply (f_equal (@length _)) in E; rewrite !map_length in E; auto).
  assert (P : (0 < inject_Z (Z.of_nat (length xs)))%Q).
  { rewrite <- L. change 0%Q with (inject_Z 0). rewrite <- Zlt_Qlt. destruct l; [congruence|cbn; lia]. }
  assert (F : Forall (fun y => a <= y <= b)%Q xs).
  { apply Forall_forall. intros y Hy. apply (in_map (@SV1 Qops)) in Hy. rewrite <- E in Hy. apply in_map_iff in Hy. destruct Hy as (r & Er & Hr). eauto. }
  pose proof (total_bounds _ _ _ F) as [T1 T2]. rewrite <- Ex in T1, T2. split.
  { change (@num Qops) with Q in *. split; [apply Qmult_le_r in T1; auto|apply Qmult_le_r in T2; auto]. }
  intros Eb r y Hr Hy. destruct (total_top xs b) as [_ T]; [eapply Forall_impl; [|exact F]; intros ? [_ ?]; auto|].
  rewrite <- Ex, Eb in T. specialize (T (Qeq_refl _)). rewrite Forall_forall in T. apply T.
  apply (in_map (fun r => score (heap s r))) in Hr. rewrite E, Hy in Hr. apply in_map_iff in Hr. destruct Hr as (z & Ez & Hz). inversion Ez; subst; auto.
Qed.
(** At every generation of a single-objective run the average is defined and lies between
    the worst member and the last recorded best. *)
Theorem C71_run : forall fuel c gd0 s0 k c' gd' s', single c -> started gd0 s0 -> at_generation fuel c gd0 s0 k c' gd' s' ->
  exists x xs y, get_avg_score gd' s' = Ok x s' /\ hist_best gd' = map SV1 (xs ++ [y]) /\ (x <= y)%Q /\
    ((x == y)%Q -> forall r z, In r (members (population gd')) -> score (heap s' r) = SV1 z -> (z == y)%Q) /\
    exists r w, In r (members (population gd')) /\ score (heap s' r) = SV1 w /\ (w <= x)%Q.
Proof.
  intros fuel c gd0 s0 k c' gd' s' Si St A.
  destruct (C36_best_never_decreases (fun _ => True) Qorder fuel c gd0 s0 Si (good_scores_any _ (proj1 Si)) St _ _ _ _ A)
    as (xs & y & i & g & bx & Eh & _ & _ & _ & _ & _ & _ & Mx & _).
  destruct (gen_inv _ Qorder fuel c gd0 s0 Si (good_scores_any _ (proj1 Si)) St (fun _ _ _ => True)) with (k := k) (c' := c') (gd' := gd') (s' := s') as (G & _); auto.
  destruct (get_avg_score gd' s') as [x s1|e|] eqn:E; pose proof (C71_average gd' s') as K; rewrite E in K; [|exfalso|destruct K].
  - destruct K as (-> & Ne & vs & Ev & Ex).
    set (l := members (population gd')) in *.
    assert (W : exists r w, In r l /\ score (heap s' r) = SV1 w /\ forall r' z, In r' l -> score (heap s' r') = SV1 z -> (w <= z)%Q).
    { clearbody l. clear - Ne Ev. revert vs Ev. induction l as [|r l IH]; intros vs Ev; [congruence|]. destruct vs as [|v vs]; [discriminate Ev|].
      cbn [map] in Ev. inversion Ev as [[E1 E2]]. destruct l as [|r1 l].
      - exists r, v. split; [left; auto|]. split; auto. intros r' z [->|[]] Hz. rewrite E1 in Hz. inversion Hz. apply Qle_refl.
      - destruct (IH ltac:(discriminate) vs E2) as (r0 & w & I0 & S0 & M0). destruct (Qlt_le_dec v w) as [C|C].
        + exists r, v. split; [left; auto|]. split; auto. intros r' z [->|I'] Hz; [rewrite E1 in Hz; inversion Hz; apply Qle_refl|].
          apply Qle_trans with w; [apply Qlt_le_weak; auto|eauto].
        + exists r0, w. split; [right; auto|]. split; auto. intros r' z [->|I'] Hz; [rewrite E1 in Hz; inversion Hz; subst; auto|eauto]. }
    destruct W as (r & w & Ir & Sr & Mr).
    destruct (C71_between gd' s' x s' w y E) as [[B1 B2] B3].
    { intros r' z I' Hz. split; [eauto|]. destruct (Mx r' I') as (z' & Ez & Nz). rewrite Hz in Ez. inversion Ez; subst. cbn in Nz. apply Qltb_iff_f in Nz. auto. }
    exists x, xs, y. split; auto. split; auto. split; auto. split; auto. exists r, w. auto.
  - destruct e; try contradiction.
    + exact (gi_ne _ _ _ G K).
    + destruct K as (r & Ir & N). destruct (gi_settled _ _ _ G r Ir) as [(z & Ez & _) _]. exact (N _ Ez).
Qed.
(** Three scored members; and the two failures. *)
Example C71_case :
  observe (fun x _ => Qred x) (get_avg_score (gd_of (cat_pop 3)) (world [ind [] (q (1#2)); ind [] (q 3); ind [] (q (-1))] [])) = Some (5#6)%Q /\
  get_avg_score (gd_of (cat_pop 0)) (world [] []) = Err ZeroDivisionError /\
  get_avg_score (gd_of (cat_pop 2)) (world [ind [] (q 1); ind [] SVNone] []) = Err TypeError.
Proof. split; [run|]. split; reflexivity. Qed.
(** A whole run (that of C36_case): the average is below the best. *)
Example C71_run_case : observe (fun r s => (observe (fun x _ => Qred x) (get_avg_score (fst r) s), last (hist_best (fst r)) SVNone))
  (categorical_ga 50 (demo_cf (LFloat (1#2)) 5 6 None) pools fresh_world) = Some (Some (-44#3), q (-1)).
Proof. run. Qed.

Print Assumptions C71_average.
Print Assumptions C71_between.
Print Assumptions C71_run.
