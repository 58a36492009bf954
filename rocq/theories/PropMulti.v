(** Multi-objective ranking (C53). *)
From Coq Require Import String.
From Coq Require Import ZArith QArith List Bool Lia Lqa.
From Verif Require Import Spec Num State Binary Population GaData Penalty Fitness ListLemmas Rnd Exec Laws
  PopulationProofs FitnessProofs RankingProofs Demo.
Import ListNotations.
Open Scope list_scope.
Open Scope Z_scope.

Section Ranks.
  Context {NO : NumOps}.

  (** Every member has a phenotype, and the objective called with that one argument
      always returns the same [m] numbers [F]. *)
  Definition rankable (ok : num -> Prop) (o : objfun) (F : list gv -> list num) (m : nat) (h : nat -> individ) (l : list nat) : Prop :=
    forall r, In r l -> phenotype (h r) = Some (Some (phen h r)) /\
      (forall k, one_arg o k (phen h r) = inr (OTuple (F (phen h r)))) /\
      length (F (phen h r)) = m /\ Forall ok (F (phen h r)).
  Theorem C53_ranks : forall ok, NumOrder NO ok -> forall o F m l s, NoDup l -> rankable ok o F m (heap s) l ->
    exists s', assign_ranks o l s = Ok tt s' /\
      (forall r, In r l -> exists ds, NoDup ds /\ (forall y, In y ds <-> In y l /\ beats F (heap s) y r) /\
         heap s' r = set_rank (Some (SV1 (ones (length ds)))) (heap s r)) /\
      (forall r, ~ In r l -> heap s' r = heap s r).
  Proof.
    intros ok NL o F m l s ND H.
    assert (H1 : forall r, In r l -> phenotype (heap s r) = Some (Some (phen (heap s) r))) by (intros r I; apply (H r I)).
    assert (H2 : forall r k, In r l -> one_arg o k (phen (heap s) r) = inr (OTuple (F (phen (heap s) r)))) by (intros r k I; apply (H r I)).
    assert (H3 : forall r, In r l -> length (F (phen (heap s) r)) = m /\ Forall ok (F (phen (heap s) r))) by (intros r I; apply (H r I)).
    destruct (assign_run ok NL o F (heap s) l m (phen (heap s)) H1 H2 H3 s eq_refl) as (s' & E & (R1 & R2) & _ & _).
    exists s'. split; auto. split; auto. intros r I. exists (filter (fun y => dom F (phen (heap s)) y r) l).
    split; [apply NoDup_filter; auto|]. split.
    - intros y. rewrite filter_In, dom_true. reflexivity.
    - rewrite R1 by auto. unfold occ. assert (O : count_occ Nat.eq_dec l r = 1%nat).
      { apply NoDup_count_occ' with (decA := Nat.eq_dec) in I; auto. }
      rewrite O, Nat.mul_1_l. reflexivity.
  Qed.

  (** A member that is in the list several times is counted as often, together with
      every occurrence of its dominators. *)
  Theorem C53_multiplicity : forall ok, NumOrder NO ok -> forall o F m l s, rankable ok o F m (heap s) l ->
    exists s', assign_ranks o l s = Ok tt s' /\
      forall r, In r l -> exists ds, (forall y, beats F (heap s) y r -> count_occ Nat.eq_dec ds y = count_occ Nat.eq_dec l y) /\
         (forall y, In y ds -> beats F (heap s) y r) /\
         heap s' r = set_rank (Some (SV1 (ones (count_occ Nat.eq_dec l r * length ds)))) (heap s r).
  Proof.
    intros ok NL o F m l s H.
    assert (H1 : forall r, In r l -> phenotype (heap s r) = Some (Some (phen (heap s) r))) by (intros r I; apply (H r I)).
    assert (H2 : forall r k, In r l -> one_arg o k (phen (heap s) r) = inr (OTuple (F (phen (heap s) r)))) by (intros r k I; apply (H r I)).
    assert (H3 : forall r, In r l -> length (F (phen (heap s) r)) = m /\ Forall ok (F (phen (heap s) r))) by (intros r I; apply (H r I)).
    destruct (assign_run ok NL o F (heap s) l m (phen (heap s)) H1 H2 H3 s eq_refl) as (s' & E & (R1 & R2) & _ & _).
    exists s'. split; auto. intros r I. exists (filter (fun y => dom F (phen (heap s)) y r) l). split; [|split].
    - intros y B. apply dom_true in B. clear - B. induction l as [|x l IH]; auto. cbn [filter]. destruct (dom F (phen (heap s)) x r) eqn:E.
      + cbn [count_occ]. destruct (Nat.eq_dec x y); rewrite IH; auto.
      + cbn [count_occ]. destruct (Nat.eq_dec x y); [congruence|auto].
    - intros y Hy. apply filter_In in Hy. apply dom_true. tauto.
    - rewrite R1 by auto. reflexivity.
  Qed.

  (** Ranking costs n (n - 1) calls of the objective, each on the phenotype of a
      member, and touches neither the references in use nor the generator. *)
  Theorem C53_calls : forall ok, NumOrder NO ok -> forall o F m l s, rankable ok o F m (heap s) l ->
    exists s' calls, assign_ranks o l s = Ok tt s' /\ log s' = rev calls ++ log s /\
      Z.of_nat (length calls) = Z.of_nat (length l) * (Z.of_nat (length l) - 1) /\
      (forall pt v, In (pt, v) calls -> v = OTuple (F pt) /\ exists r, In r l /\ phenotype (heap s r) = Some (Some pt)) /\
      next s' = next s /\ tape s' = tape s /\ ent s' = ent s.
  Proof.
    intros ok NL o F m l s H.
    assert (H1 : forall r, In r l -> phenotype (heap s r) = Some (Some (phen (heap s) r))) by (intros r I; apply (H r I)).
    assert (H2 : forall r k, In r l -> one_arg o k (phen (heap s) r) = inr (OTuple (F (phen (heap s) r)))) by (intros r k I; apply (H r I)).
    assert (H3 : forall r, In r l -> length (F (phen (heap s) r)) = m /\ Forall ok (F (phen (heap s) r))) by (intros r I; apply (H r I)).
    destruct (assign_run ok NL o F (heap s) l m (phen (heap s)) H1 H2 H3 s eq_refl) as (s' & E & _ & L & Q).
    exists s', (all_calls F (phen (heap s)) l). split; auto. split; auto. split; [apply all_calls_length|]. split.
    - assert (G : forall xs, incl xs l -> forall pt v, In (pt, v) (all_calls F (phen (heap s)) xs) -> v = OTuple (F pt) /\ exists r, In r l /\ phenotype (heap s r) = Some (Some pt)).
      { induction xs as [|x xs IH]; intros Inc pt v Hin; cbn [all_calls] in Hin; [destruct Hin|]. apply in_app_or in Hin. destruct Hin as [Hin|Hin].
        - apply in_flat_map in Hin. destruct Hin as (y & Hy & [Hin|[Hin|[]]]); inversion Hin; subst; split; auto.
          + exists x. split; [apply Inc; left; auto|apply H1; apply Inc; left; auto].
          + exists y. split; [apply Inc; right; auto|apply H1; apply Inc; right; auto].
        - apply IH; auto. intros z Hz. apply Inc. right; auto. }
      intros pt v Hin. apply (G l (incl_refl l)); auto.
    - unfold quiet in Q. destruct Q as (Q1 & Q2 & Q3 & Q4 & Q5). auto.
  Qed.

  (** Somebody is dominated by nobody; its rank is the initial 1. *)
  Theorem C53_first_front : forall ok, NumOrder NO ok -> forall o F m l s, l <> [] -> rankable ok o F m (heap s) l ->
    exists s' r, assign_ranks o l s = Ok tt s' /\ In r l /\ (forall y, In y l -> ~ beats F (heap s) y r) /\
      rank (heap s' r) = Some (SV1 none_).
  Proof.
    intros ok NL o F m l s N H.
    assert (H1 : forall r, In r l -> phenotype (heap s r) = Some (Some (phen (heap s) r))) by (intros r I; apply (H r I)).
    assert (H2 : forall r k, In r l -> one_arg o k (phen (heap s) r) = inr (OTuple (F (phen (heap s) r)))) by (intros r k I; apply (H r I)).
    assert (H3 : forall r, In r l -> length (F (phen (heap s) r)) = m /\ Forall ok (F (phen (heap s) r))) by (intros r I; apply (H r I)).
    destruct (assign_run ok NL o F (heap s) l m (phen (heap s)) H1 H2 H3 s eq_refl) as (s' & E & (R1 & R2) & _ & _).
    destruct (minimal ok NL F l m (phen (heap s)) H3 l (incl_refl l) N) as (r & Ir & Hr).
    exists s', r. split; auto. split; auto. split.
    - intros y Hy B. apply dom_true in B. rewrite Hr in B; auto. discriminate.
    - rewrite R1 by auto. cbn [rank set_rank]. apply dominators_0 in Hr. rewrite Hr, Nat.mul_0_r. reflexivity.
  Qed.
  (** Dominance is a strict order; equal points do not dominate each other. *)
  Theorem C53_strict_order : forall ok, NumOrder NO ok ->
    (forall a, Forall ok a -> ~ dominates a a) /\
    (forall a b, Forall ok a -> Forall ok b -> dominates a b -> ~ dominates b a) /\
    (forall a b c, length a = length b -> length b = length c -> Forall ok a -> Forall ok b -> Forall ok c ->
       dominates a b -> dominates b c -> dominates a c).
  Proof. intros ok NL. split; [apply dom_irrefl; auto|]. split; [apply dom_asym|]. intros; eapply dom_trans; eauto. Qed.
End Ranks.

(** *** Exact arithmetic: the rank is 1 plus the number of dominators *)
Section Exact.
  Local Existing Instance Qops.
  Lemma ones_value : forall n, (ones n == inject_Z (Z.of_nat n + 1))%Q.
  Proof.
    induction n as [|n IH]; [reflexivity|]. cbn [ones]. change (@nadd Qops) with Qplus. change (@none_ Qops) with 1%Q. rewrite IH.
    change 1%Q with (inject_Z 1). rewrite <- inject_Z_plus. unfold inject_Z, Qeq. cbn. lia.
  Qed.
  Theorem C53_exact : forall o F m l s, NoDup l -> rankable (fun _ => True) o F m (heap s) l ->
    exists s', assign_ranks o l s = Ok tt s' /\
      forall r, In r l -> exists ds x, NoDup ds /\ (forall y, In y ds <-> In y l /\ beats F (heap s) y r) /\
        rank (heap s' r) = Some (SV1 x) /\ (x == 1 + inject_Z (Z.of_nat (length ds)))%Q /\
        ((x == 1)%Q <-> forall y, In y l -> ~ beats F (heap s) y r).
  Proof.
    intros o F m l s ND H. destruct (C53_ranks _ Qorder o F m l s ND H) as (s' & E & R & _). exists s'. split; auto.
    intros r I. destruct (R r I) as (ds & Nd & D & Hr). exists ds, (ones (length ds)). split; auto. split; auto. split; [rewrite Hr; reflexivity|].
    assert (V : (ones (length ds) == 1 + inject_Z (Z.of_nat (length ds)))%Q).
    { rewrite ones_value, inject_Z_plus. change (inject_Z 1) with 1%Q. ring. }
    split; auto. change (@num Qops) with Q in *. rewrite V. split.
    - intros X y Hy B. assert (Hin : In y ds) by (apply D; auto). destruct ds as [|d ds]; [destruct Hin|].
      cbn [length] in X. assert (Y : (inject_Z (Z.of_nat (S (length ds))) == 0)%Q) by lra. unfold inject_Z, Qeq in Y. cbn in Y. lia.
    - intros N. destruct ds as [|d ds]; [cbn; reflexivity|]. destruct (N d); apply (D d); left; auto.
  Qed.

  (** Six individuals with two objectives, two of them with equal values: the hypotheses
      hold and the ranks come out as 1 + number of dominators. *)
  Definition six : list individ :=
    map (fun p : Z * Z => mkInd [GBit true] (Some (Some [GInt (fst p); GInt (snd p)])) SVNone SVNone true None None)
        [(1, 5); (3, 3); (5, 1); (3, 3); (4, 4); (6, 6)].
  Definition two_values (genes : list gv) : list num :=
    map (fun g => match g with GInt z => inject_Z z | _ => 0%Q end) genes.
  Definition two_obj : objfun := Obj1 (fun _ genes => inr (OTuple (two_values genes))).
  Example C53_rankable : rankable (fun _ => True) two_obj two_values 2 (heap (world six [])) (seq 0 6).
  Proof.
    intros r Hr. assert (L : (r < 6)%nat) by (apply in_seq in Hr; lia).
    do 6 (destruct r as [|r]; [split; [reflexivity|]; split; [intros; reflexivity|]; split; [reflexivity|]; apply Forall_forall; auto|]). lia.
  Qed.
  Example C53_ranks_of_six :
    observe (fun _ s' => (map (fun r => option_map (fun v => match v with SV1 x => Qred x | _ => 0%Q end) (rank (heap s' r))) (seq 0 6), length (log s')))
      (assign_ranks two_obj (seq 0 6) (world six [])) =
    Some (map Some [1; 1; 1; 1; 3; 6]%Q, 30%nat).
  Proof. run. Qed.
  (** Individual 4 is in the list twice: it is dominated by individuals 1 and 3 and gets
      1 + 2 * 2. *)
  Example C53_aliased_rank :
    observe (fun _ s' => (map (fun r => option_map (fun v => match v with SV1 x => Qred x | _ => 0%Q end) (rank (heap s' r))) (seq 0 6)))
      (assign_ranks two_obj [0; 1; 2; 3; 4; 5; 4]%nat (world six [])) =
    Some (map Some [1; 1; 1; 1; 5; 7]%Q).
  Proof. run. Qed.
End Exact.

Print Assumptions C53_ranks.
Print Assumptions C53_multiplicity.
Print Assumptions C53_calls.
Print Assumptions C53_first_front.
Print Assumptions C53_strict_order.
Print Assumptions C53_exact.
