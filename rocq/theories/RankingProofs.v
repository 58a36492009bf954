(** Ranking of a population by the multi-objective fitness classes (Fitness.v,
    assign_ranks). *)
From Coq Require Import String.
From Coq Require Import ZArith List Bool Lia.
From Verif Require Import Spec Num State Binary Population GaData Penalty Fitness ListLemmas Rnd Exec Laws PopulationProofs FitnessProofs.
Import ListNotations.
Open Scope list_scope.
Open Scope Z_scope.

Section RankingProofs.
  Context {NO : NumOps}.

  (** *** Pareto dominance, all values minimised, written independently of the code *)
  Fixpoint no_greater (a b : list num) : Prop :=
    match a, b with
    | x :: a', y :: b' => nltb y x = false /\ no_greater a' b'
    | _, _ => True
    end.
  Fixpoint some_less (a b : list num) : Prop :=
    match a, b with
    | x :: a', y :: b' => nltb x y = true \/ some_less a' b'
    | _, _ => False
    end.
  Definition dominates (a b : list num) : Prop := no_greater a b /\ some_less a b.
  Definition no_greater_dec : forall a b, {no_greater a b} + {~ no_greater a b}.
  Proof.
    induction a as [|x a IH]; destruct b as [|y b]; cbn; auto. destruct (nltb y x) eqn:E; [right; intros [C _]; discriminate|].
    destruct (IH b); [left; auto|right; intros [_ C]; auto].
  Defined.
  Definition some_less_dec : forall a b, {some_less a b} + {~ some_less a b}.
  Proof.
    induction a as [|x a IH]; destruct b as [|y b]; cbn; auto. destruct (nltb x y) eqn:E; auto.
    destruct (IH b); [left; auto|right; intros [C|C]; [discriminate|auto]].
  Defined.
  Definition dominates_dec : forall a b, {dominates a b} + {~ dominates a b}.
  Proof. intros a b. unfold dominates. destruct (no_greater_dec a b), (some_less_dec a b); auto; right; intros [? ?]; auto. Defined.

  Section Order.
    Context (ok : num -> Prop) (NL : NumOrder NO ok).
    Lemma dom_irrefl : forall a, Forall ok a -> ~ dominates a a.
    Proof.
      intros a F [_ H]. induction F as [|x a Ox F IH]; cbn in H; auto. destruct H as [H|H]; auto. rewrite (no_irrefl _ _ NL) in H by auto. discriminate.
    Qed.
    Lemma ng_less : forall a b, Forall ok a -> Forall ok b -> no_greater a b -> ~ some_less b a.
    Proof.
      induction a as [|x a IH]; destruct b as [|y b]; cbn; intros Fa Fb H C; auto. inversion Fa as [|? ? Ox Fa']; inversion Fb as [|? ? Oy Fb']; subst. destruct H as [N1 N2]. destruct C as [C|C]; [congruence|]. exact (IH b Fa' Fb' N2 C).
    Qed.
    Lemma dom_asym : forall a b, Forall ok a -> Forall ok b -> dominates a b -> ~ dominates b a.
    Proof. intros a b Fa Fb [H _] [_ C]. exact (ng_less a b Fa Fb H C). Qed.
    Lemma ng_trans : forall b a c, length a = length b -> length b = length c -> Forall ok a -> Forall ok b -> Forall ok c ->
      no_greater a b -> no_greater b c -> no_greater a c.
    Proof.
      induction b as [|y b IH]; intros [|x a] [|z c] L1 L2 Fa Fb Fc H1 H2; try discriminate; cbn in *; auto.
      inversion Fa; inversion Fb; inversion Fc; subst. destruct H1, H2. split; [|eapply IH; eauto].
      eapply (no_negtrans _ _ NL) with y; auto.
    Qed.
    Lemma less_ng : forall b a c, length a = length b -> length b = length c -> Forall ok a -> Forall ok b -> Forall ok c ->
      some_less a b -> no_greater a b -> no_greater b c -> some_less a c.
    Proof.
      induction b as [|y b IH]; intros [|x a] [|z c] L1 L2 Fa Fb Fc H1 H2 H3; try discriminate; cbn in *; auto.
      inversion Fa as [|? ? Ox Fa']; inversion Fb as [|? ? Oy Fb']; inversion Fc as [|? ? Oz Fc']; subst. destruct H2 as [N1 N2], H3 as [M1 M2].
      destruct H1 as [H1|H1]; [left|right; eapply IH; eauto].
      destruct (nltb x z) eqn:E; auto. exfalso.
      assert (nltb x y = false) by (eapply (no_negtrans _ _ NL) with z; auto). congruence.
    Qed.
    Lemma dom_trans : forall a b c, length a = length b -> length b = length c -> Forall ok a -> Forall ok b -> Forall ok c ->
      dominates a b -> dominates b c -> dominates a c.
    Proof.
      intros a b c L1 L2 Fa Fb Fc [A1 A2] [B1 B2]. split; [eapply ng_trans; eauto|eapply less_ng; eauto].
    Qed.

    (** *** inferior *)
    Lemma lst_eqb_refl : forall a, Forall ok a -> lst_eqb a a = true.
    Proof. induction 1; cbn; auto. rewrite (eq_refl_n NL) by auto. auto. Qed.
    Lemma lst_eqb_no : forall a b, length a = length b -> Forall ok a -> Forall ok b ->
      (lst_eqb a b = true <-> no_greater a b /\ no_greater b a).
    Proof.
      induction a as [|x a IH]; destruct b as [|y b]; intros L Fa Fb; try discriminate; cbn; [tauto|].
      inversion L; inversion Fa; inversion Fb; subst. rewrite andb_true_iff, (no_eq _ _ NL) by auto. rewrite (IH b) by auto. tauto.
    Qed.
    Lemma max_score_len : forall a b m, max_score a b = inr m -> length m = length a.
    Proof.
      induction a as [|x a IH]; destruct b as [|y b]; intros m H; cbn in H; try (inversion H; reflexivity).
      destruct (max_score a b) eqn:E; [discriminate|]. inversion H. cbn. f_equal. eapply IH; eauto.
    Qed.
    Lemma max_score_spec : forall a b, length a = length b -> Forall ok a -> Forall ok b ->
      exists m, max_score a b = inr m /\ (lst_eqb m a = true <-> no_greater b a) /\ (lst_eqb m b = true <-> no_greater a b).
    Proof.
      induction a as [|x a IH]; destruct b as [|y b]; intros L Fa Fb; try discriminate; cbn [max_score].
      - exists []. cbn. tauto.
      - inversion L as [L']; inversion Fa as [|? ? Ox Fa']; inversion Fb as [|? ? Oy Fb']; subst. destruct (IH b L' Fa' Fb') as (m & -> & H1 & H2).
        eexists. split; [reflexivity|]. cbn [lst_eqb no_greater]. rewrite !andb_true_iff, H1, H2. destruct (nltb x y) eqn:E.
        + rewrite (no_eq _ _ NL y x) by auto. rewrite (eq_refl_n NL) by auto. pose proof (lt_asym NL _ _ Ox Oy E). intuition congruence.
        + rewrite (eq_refl_n NL) by auto. rewrite (no_eq _ _ NL x y) by auto. intuition congruence.
    Qed.
    Lemma ng_cases : forall a b, length a = length b -> Forall ok a -> Forall ok b -> no_greater a b -> ~ (no_greater a b /\ no_greater b a) -> dominates a b.
    Proof.
      intros a b L Fa Fb H N. split; auto. revert b L Fb H N. induction Fa as [|x a Ox Fa IH]; intros [|y b] L Fb H N; try discriminate; cbn in *; [destruct N; auto|].
      destruct H as [H1 H2]. inversion Fb; subst. destruct (nltb x y) eqn:E; auto. right. apply IH; auto. intros [_ C]. apply N. auto.
    Qed.
    Lemma dominates_spec : forall a b, length a = length b -> Forall ok a -> Forall ok b ->
      (dominates a b <-> no_greater a b /\ ~ no_greater b a).
    Proof.
      intros a b L Fa Fb. split.
      - intros [H1 H2]. split; auto. intros C. exact (ng_less b a Fb Fa C H2).
      - intros [H1 H2]. apply ng_cases; auto. tauto.
    Qed.
  End Order.

  (** The phenotype of the individual [r]. *)
  Definition phen (h : nat -> individ) (r : nat) : list gv :=
    match phenotype (h r) with Some (Some pt) => pt | _ => [] end.
  (** Member [x] dominates member [y]. *)
  Definition beats (F : list gv -> list num) (h : nat -> individ) (x y : nat) : Prop := dominates (F (phen h x)) (F (phen h y)).

  (** *** The objective as the ranking calls it: one argument *)
  Definition one_arg (o : objfun) (k : nat) (genes : list gv) : exn + oval :=
    match o with Obj1 f | Obj12 f _ => f k genes | Obj2 _ => inl TypeError end.
  Lemma call1_value : forall o genes s v, one_arg o (length (log s)) genes = inr v -> call1 o genes s = Ok v (set_log ((genes, v) :: log s) s).
  Proof. intros o genes s v H. destruct o; cbn in *; unfold call_logged; try discriminate; rewrite H; reflexivity. Qed.

  (** n times 1 + 1 + ... *)
  Fixpoint ones (n : nat) : num := match n with O => none_ | S n' => nadd (ones n') none_ end.
  Definition bump (c : nat -> nat) (r : nat) : nat -> nat := fun r' => if Nat.eqb r' r then S (c r') else c r'.
  (** The individuals of [l] with rank 1 + c. *)
  Definition ranks (l : list nat) (c : nat -> nat) (h h' : nat -> individ) : Prop :=
    (forall r, In r l -> h' r = set_rank (Some (SV1 (ones (c r)))) (h r)) /\ (forall r, ~ In r l -> h' r = h r).

  Section Ranking.
    Context (ok : num -> Prop) (NL : NumOrder NO ok).
    Context (o : objfun) (F : list gv -> list num) (h : nat -> individ) (l : list nat) (m : nat) (ph : nat -> list gv).
    (* every member has a phenotype, on which the objective returns a tuple of m
       comparable values that depend only on the phenotype *)
    Hypothesis Hph : forall r, In r l -> phenotype (h r) = Some (Some (ph r)).
    Hypothesis HF : forall r k, In r l -> one_arg o k (ph r) = inr (OTuple (F (ph r))).
    Hypothesis Hm : forall r, In r l -> length (F (ph r)) = m /\ Forall ok (F (ph r)).
    Definition dom (x y : nat) : bool := if dominates_dec (F (ph x)) (F (ph y)) then true else false.

    Lemma dom_true : forall x y, dom x y = true <-> dominates (F (ph x)) (F (ph y)).
    Proof. intros x y. unfold dom. destruct (dominates_dec _ _); split; auto; discriminate. Qed.
    Lemma phen_run : forall x c s, In x l -> ranks l c h (heap s) -> phen_of x s = Ok (ph x) s.
    Proof.
      intros x c s I (R & _). unfold phen_of, bind, get. rewrite (R x I). cbn [phenotype set_rank]. rewrite Hph by auto. reflexivity.
    Qed.
    Lemma list_run : forall x s, In x l -> call_list o (ph x) s = Ok (F (ph x)) (set_log ((ph x, OTuple (F (ph x))) :: log s) s).
    Proof. intros x s I. unfold call_list, bind. rewrite (call1_value _ _ _ _ (HF x _ I)). reflexivity. Qed.
    Lemma ranks_log : forall c s lg, ranks l c h (heap s) -> ranks l c h (heap (set_log lg s)).
    Proof. auto. Qed.
    Lemma inferior_run : forall x y c s, In x l -> In y l -> ranks l c h (heap s) ->
      inferior o x y s = Ok (if dom y x then Some x else if dom x y then Some y else None)
        (set_log ((ph y, OTuple (F (ph y))) :: (ph x, OTuple (F (ph x))) :: log s) s).
    Proof.
      intros x y c s Ix Iy R. unfold inferior. unfold bind at 1. rewrite (phen_run x c) by auto. unfold bind at 1. rewrite list_run by auto.
      unfold bind at 1. rewrite (phen_run y c) by auto. unfold bind at 1. rewrite list_run by auto. cbn [log set_log].
      set (sf := set_log _ _). destruct (Hm x Ix) as [Lx Ox]. destruct (Hm y Iy) as [Ly Oy].
      assert (L : length (F (ph x)) = length (F (ph y))) by congruence.
      pose proof (lst_eqb_no ok NL _ _ L Ox Oy) as Eq. pose proof (dominates_spec ok _ _ L Ox Oy) as D1.
      pose proof (dominates_spec ok _ _ (eq_sym L) Oy Ox) as D2. unfold dom.
      destruct (lst_eqb (F (ph x)) (F (ph y))) eqn:E.
      - destruct (dominates_dec (F (ph y)) (F (ph x))) as [D|D]; [apply D2 in D; tauto|]. destruct (dominates_dec (F (ph x)) (F (ph y))) as [D'|D']; [apply D1 in D'; tauto|]. reflexivity.
      - destruct (max_score_spec ok NL _ _ L Ox Oy) as (ms & -> & M1 & M2). unfold bind, lift, ret. f_equal.
        assert (NE : ~ (no_greater (F (ph x)) (F (ph y)) /\ no_greater (F (ph y)) (F (ph x)))) by (intros C; apply Eq in C; discriminate C).
        destruct (lst_eqb ms (F (ph x))) eqn:E1.
        + destruct (dominates_dec (F (ph y)) (F (ph x))) as [D|D]; auto. destruct D. apply D2. tauto.
        + destruct (dominates_dec (F (ph y)) (F (ph x))) as [D|D]; [apply D2 in D; destruct M1 as [_ M1]; specialize (M1 (proj1 D)); discriminate M1|].
          destruct (lst_eqb ms (F (ph y))) eqn:E2.
          * destruct (dominates_dec (F (ph x)) (F (ph y))) as [D'|D']; auto. destruct D'. apply D1. tauto.
          * destruct (dominates_dec (F (ph x)) (F (ph y))) as [D'|D']; auto. apply D1 in D'. destruct M2 as [_ M2]. specialize (M2 (proj1 D')). discriminate M2.
    Qed.
    Lemma incr_run : forall x c s, In x l -> ranks l c h (heap s) ->
      exists s', incr_rank x s = Ok tt s' /\ ranks l (bump c x) h (heap s') /\ log s' = log s /\ quiet s s'.
    Proof.
      intros x c s I (R & N). unfold incr_rank, bind, get. assert (E : rank (heap s x) = Some (SV1 (ones (c x)))) by (rewrite (R x I); reflexivity). rewrite E. clear E. unfold modify. eexists. split; [reflexivity|].
      split; [|split; [reflexivity|repeat split]]. cbn [heap set_heap]. split.
      - intros r Ir. unfold upd, bump. destruct (Nat.eqb r x) eqn:E; [apply Nat.eqb_eq in E; subst r; rewrite (R x I); reflexivity|apply R; auto].
      - intros r Ir. unfold upd. destruct (Nat.eqb r x) eqn:E; [apply Nat.eqb_eq in E; subst r; contradiction|apply N; auto].
    Qed.
    Definition pair_count (c : nat -> nat) (x y : nat) : nat -> nat :=
      if dom y x then bump c x else if dom x y then bump c y else c.
    Lemma pair_run : forall x y c s, In x l -> In y l -> ranks l c h (heap s) ->
      exists s', compare_pair o x y s = Ok tt s' /\ ranks l (pair_count c x y) h (heap s') /\
        log s' = (ph y, OTuple (F (ph y))) :: (ph x, OTuple (F (ph x))) :: log s /\ quiet s s'.
    Proof.
      intros x y c s Ix Iy R. unfold compare_pair, bind. rewrite (inferior_run x y c) by auto. unfold pair_count.
      destruct (dom y x); [|destruct (dom x y)].
      - destruct (incr_run x c (set_log ((ph y, OTuple (F (ph y))) :: (ph x, OTuple (F (ph x))) :: log s) s) Ix R) as (s' & E & R' & L & Q). exists s'. auto.
      - destruct (incr_run y c (set_log ((ph y, OTuple (F (ph y))) :: (ph x, OTuple (F (ph x))) :: log s) s) Iy R) as (s' & E & R' & L & Q). exists s'. auto.
      - eexists. split; [reflexivity|]. split; auto. split; [reflexivity|]. repeat split.
    Qed.
    Lemma row_run : forall x ys c s, In x l -> incl ys l -> ranks l c h (heap s) ->
      exists s', miter (compare_pair o x) ys s = Ok tt s' /\ ranks l (fold_left (fun c y => pair_count c x y) ys c) h (heap s') /\
        log s' = rev (flat_map (fun y => [(ph x, OTuple (F (ph x))); (ph y, OTuple (F (ph y)))]) ys) ++ log s /\ quiet s s'.
    Proof.
      induction ys as [|y ys IH]; intros c s Ix I R; cbn [miter fold_left flat_map].
      - exists s. split; auto. split; auto. split; auto. apply quiet_refl.
      - destruct (pair_run x y c s Ix (I y (or_introl eq_refl)) R) as (s1 & E1 & R1 & L1 & Q1).
        destruct (IH _ s1 Ix (fun z Hz => I z (or_intror Hz)) R1) as (s2 & E2 & R2 & L2 & Q2).
        exists s2. unfold bind. rewrite E1. split; auto. split; auto. split; [|eapply quiet_trans; eauto].
        rewrite L2, L1. cbn [rev app]. rewrite <- !app_assoc. reflexivity.
    Qed.
    Fixpoint all_count (c : nat -> nat) (xs : list nat) : nat -> nat :=
      match xs with [] => c | x :: xs' => all_count (fold_left (fun c y => pair_count c x y) xs' c) xs' end.
    Fixpoint all_calls (xs : list nat) : list (list gv * oval) :=
      match xs with [] => [] | x :: xs' => flat_map (fun y => [(ph x, OTuple (F (ph x))); (ph y, OTuple (F (ph y)))]) xs' ++ all_calls xs' end.
    Lemma all_run : forall xs c s, incl xs l -> ranks l c h (heap s) ->
      exists s', compare_all o xs s = Ok tt s' /\ ranks l (all_count c xs) h (heap s') /\ log s' = rev (all_calls xs) ++ log s /\ quiet s s'.
    Proof.
      induction xs as [|x xs IH]; intros c s I R; cbn [compare_all all_count all_calls].
      - exists s. split; auto. split; auto. split; auto. apply quiet_refl.
      - destruct (row_run x xs c s (I x (or_introl eq_refl)) (fun z Hz => I z (or_intror Hz)) R) as (s1 & E1 & R1 & L1 & Q1).
        destruct (IH _ s1 (fun z Hz => I z (or_intror Hz)) R1) as (s2 & E2 & R2 & L2 & Q2).
        exists s2. unfold bind. rewrite E1. split; auto. split; auto. split; [|eapply quiet_trans; eauto].
        rewrite L2, L1, rev_app_distr, <- app_assoc. reflexivity.
    Qed.

    (** *** Counting *)
    Definition occ (xs : list nat) (r : nat) : nat := count_occ Nat.eq_dec xs r.
    Definition dominators (xs : list nat) (r : nat) : nat := length (filter (fun y => dom y r) xs).
    Lemma dom_asym_r : forall x y, In x l -> In y l -> dom x y = true -> dom y x = false.
    Proof.
      intros x y Ix Iy H. apply dom_true in H. destruct (dom y x) eqn:E; auto. apply dom_true in E. exfalso.
      exact (dom_asym ok _ _ (proj2 (Hm x Ix)) (proj2 (Hm y Iy)) H E).
    Qed.
    Lemma dom_irrefl_r : forall x, In x l -> dom x x = false.
    Proof. intros x I. destruct (dom x x) eqn:E; auto. apply dom_true in E. destruct (dom_irrefl ok NL _ (proj2 (Hm x I)) E). Qed.
    Lemma pair_count_eq : forall c x y r, In x l -> In y l ->
      pair_count c x y r = (c r + (if Nat.eq_dec x r then if dom y r then 1 else 0 else 0) + (if Nat.eq_dec y r then if dom x r then 1 else 0 else 0))%nat.
    Proof.
      intros c x y r Ix Iy. unfold pair_count, bump. destruct (dom y x) eqn:E1.
      - pose proof (dom_asym_r _ _ Iy Ix E1) as E2. destruct (Nat.eqb_spec r x) as [->|N].
        + destruct (Nat.eq_dec x x); [|congruence]. rewrite E1. destruct (Nat.eq_dec y x) as [->|]; [|lia]. rewrite (dom_irrefl_r x Ix) in E1. discriminate.
        + destruct (Nat.eq_dec x r); [congruence|]. destruct (Nat.eq_dec y r) as [->|]; [rewrite E2|]; lia.
      - destruct (dom x y) eqn:E2.
        + destruct (Nat.eqb_spec r y) as [->|N].
          * destruct (Nat.eq_dec y y); [|congruence]. rewrite E2. destruct (Nat.eq_dec x y) as [->|]; [rewrite (dom_irrefl_r y Iy) in E2; discriminate|lia].
          * destruct (Nat.eq_dec y r); [congruence|]. destruct (Nat.eq_dec x r) as [->|]; [rewrite E1|]; lia.
        + destruct (Nat.eq_dec x r) as [->|]; [rewrite E1|]; destruct (Nat.eq_dec y r) as [->|]; try rewrite E2; lia.
    Qed.
    Lemma row_count_eq : forall x r ys c, In x l -> incl ys l ->
      fold_left (fun c y => pair_count c x y) ys c r = (c r + (if Nat.eq_dec x r then dominators ys r else 0) + (if dom x r then occ ys r else 0))%nat.
    Proof.
      intros x r. induction ys as [|y ys IH]; intros c Ix I; cbn [fold_left].
      - unfold dominators, occ. cbn. destruct (Nat.eq_dec x r), (dom x r); lia.
      - rewrite IH; auto; [|intros z Hz; apply I; right; auto]. rewrite pair_count_eq by (auto; apply I; left; auto).
        unfold dominators, occ. cbn [filter count_occ]. destruct (dom y r) eqn:Ey; cbn [length]; destruct (Nat.eq_dec x r), (Nat.eq_dec y r), (dom x r); lia.
    Qed.
    Lemma all_count_eq : forall r xs c, incl xs l -> all_count c xs r = (c r + occ xs r * dominators xs r)%nat.
    Proof.
      intros r. induction xs as [|x xs IH]; intros c I; cbn [all_count].
      - unfold occ. cbn. lia.
      - rewrite IH by (intros z Hz; apply I; right; auto). rewrite row_count_eq; [|apply I; left; auto|intros z Hz; apply I; right; auto].
        unfold dominators, occ. cbn [filter count_occ]. destruct (Nat.eq_dec x r) as [->|N].
        + rewrite dom_irrefl_r by (apply I; left; auto). lia.
        + destruct (dom x r); cbn [length]; lia.
    Qed.

    Lemma reset_run : forall xs s, incl xs l ->
      exists s', miter (fun r => modify r (set_rank (Some (SV1 none_)))) xs s = Ok tt s' /\
        (forall r, In r xs -> heap s' r = set_rank (Some (SV1 none_)) (heap s r)) /\ (forall r, ~ In r xs -> heap s' r = heap s r) /\
        log s' = log s /\ quiet s s'.
    Proof.
      induction xs as [|x xs IH]; intros s I; cbn [miter].
      - exists s. split; auto. split; [intros r []|]. split; auto. split; auto. apply quiet_refl.
      - unfold bind, modify at 1. set (s1 := set_heap _ s). destruct (IH s1 (fun z Hz => I z (or_intror Hz))) as (s2 & E & A & B & L & Q).
        exists s2. split; auto. split; [|split; [|split]].
        + intros r Hr. destruct (in_dec Nat.eq_dec r xs) as [Ir|Ir].
          * rewrite A by auto. unfold s1. cbn [heap set_heap]. unfold upd. destruct (Nat.eqb r x) eqn:Ex; [apply Nat.eqb_eq in Ex; subst; reflexivity|reflexivity].
          * destruct Hr as [->|Hr]; [|contradiction]. rewrite B by auto. unfold s1. cbn [heap set_heap]. unfold upd. rewrite Nat.eqb_refl. reflexivity.
        + intros r Hr. rewrite B by (intros C; apply Hr; right; auto). unfold s1. cbn [heap set_heap]. unfold upd.
          destruct (Nat.eqb r x) eqn:Ex; [|reflexivity]. apply Nat.eqb_eq in Ex. subst. destruct Hr. left; auto.
        + rewrite L. reflexivity.
        + eapply quiet_trans; [|exact Q]. repeat split.
    Qed.
    Lemma assign_run : forall s, heap s = h ->
      exists s', assign_ranks o l s = Ok tt s' /\ ranks l (fun r => occ l r * dominators l r)%nat h (heap s') /\
        log s' = rev (all_calls l) ++ log s /\ quiet s s'.
    Proof.
      intros s Eh. unfold assign_ranks. destruct (reset_run l s (incl_refl l)) as (s1 & E1 & A & B & L1 & Q1).
      assert (R0 : ranks l (fun _ => 0%nat) h (heap s1)).
      { rewrite Eh in A, B. split; auto. }
      destruct (all_run l (fun _ => 0%nat) s1 (incl_refl l) R0) as (s2 & E2 & (R1 & R2) & L2 & Q2).
      exists s2. unfold bind. rewrite E1. split; auto. split; [split; auto|].
      - intros r Hr. rewrite R1 by auto. rewrite all_count_eq by apply incl_refl. reflexivity.
      - split; [rewrite L2, L1; auto|eapply quiet_trans; eauto].
    Qed.
    Lemma all_calls_length : forall xs, Z.of_nat (length (all_calls xs)) = Z.of_nat (length xs) * (Z.of_nat (length xs) - 1).
    Proof.
      induction xs as [|x xs IH]; cbn [all_calls length]; [lia|]. rewrite app_length.
      assert (E : length (flat_map (fun y => [(ph x, OTuple (F (ph x))); (ph y, OTuple (F (ph y)))]) xs) = (2 * length xs)%nat).
      { clear. induction xs; cbn [flat_map length app]; lia. }
      rewrite E. nia.
    Qed.

    (** A non-empty population has a member nobody dominates. *)
    Lemma dom_trans_r : forall x y z, In x l -> In y l -> In z l -> dom x y = true -> dom y z = true -> dom x z = true.
    Proof.
      intros x y z Ix Iy Iz H1 H2. apply dom_true in H1, H2. apply dom_true.
      destruct (Hm x Ix) as [Lx Ox]. destruct (Hm y Iy) as [Ly Oy]. destruct (Hm z Iz) as [Lz Oz].
      eapply (dom_trans ok NL) with (b := F (ph y)); auto; congruence.
    Qed.
    Lemma minimal : forall xs, incl xs l -> xs <> [] -> exists r, In r xs /\ forall y, In y xs -> dom y r = false.
    Proof.
      induction xs as [|x xs IH]; intros I N; [congruence|]. assert (Ix : In x l) by (apply I; left; auto).
      assert (I' : incl xs l) by (intros z Hz; apply I; right; auto).
      destruct xs as [|x' xs].
      - exists x. split; [left; auto|]. intros y [<-|[]]. apply dom_irrefl_r; auto.
      - destruct (IH I') as (r & Ir & Hr); [discriminate|]. destruct (dom x r) eqn:E.
        + exists x. split; [left; auto|]. intros y [<-|Hy]; [apply dom_irrefl_r; auto|]. destruct (dom y x) eqn:E2; auto.
          assert (dom y r = true) by (eapply dom_trans_r; eauto). rewrite Hr in H by auto. discriminate.
        + exists r. split; [right; auto|]. intros y [<-|Hy]; auto.
    Qed.
    Lemma dominators_0 : forall xs r, dominators xs r = 0%nat <-> forall y, In y xs -> dom y r = false.
    Proof.
      intros xs r. unfold dominators. split.
      - intros H y Hy. apply length_zero_iff_nil in H. destruct (dom y r) eqn:E; auto. assert (In y (filter (fun y => dom y r) xs)) by (apply filter_In; auto). rewrite H in H0. destruct H0.
      - intros H. induction xs as [|x xs IH]; auto. cbn [filter]. rewrite (H x) by (left; auto). apply IH. intros; apply H; right; auto.
    Qed.
  End Ranking.
End RankingProofs.
