(** Property C60, the whole operator: what ranked selection, and VEGA ranked selection in
    particular, chooses on a population in any order. *)
From Coq Require Import String.
From Coq Require Import ZArith QArith Qabs List Bool Lia Lqa Permutation.
From Verif Require Import Spec Num State Rnd Binary Population GaData Crossover Mutation Selection
  ListLemmas Exec Laws CrossoverProofs PopulationProofs SelectionProofs TournamentProofs BalancedProofs RankProofs VegaProofs Float Demo PropSelection PropProportional.
Import ListNotations.
Open Scope list_scope.
Open Scope Z_scope.
Local Existing Instance Qops.

(** Positions a .. b-1 (from 0) hold equal values and cannot be extended. *)
Definition maximal_run (xs : list Q) (a b : nat) : Prop :=
  (a < b <= length xs)%nat /\ (forall j, (a <= j < b)%nat -> (nth j xs 0 == nth a xs 0)%Q) /\
  (forall a', S a' = a -> ~ (nth a' xs 0 == nth a xs 0)%Q) /\ ((b < length xs)%nat -> ~ (nth b xs 0 == nth a xs 0)%Q).
(** The rank of a position: the mean of the positions a+1 .. b (from 1) of its run. *)
Definition run_ranks (xs rs : list Q) : Prop :=
  length rs = length xs /\
  forall j, (j < length xs)%nat -> exists a b, maximal_run xs a b /\ (a <= j < b)%nat /\
    (nth j rs 0 == (inject_Z (Z.of_nat a) + inject_Z (Z.of_nat b) + 1) / 2)%Q.

Lemma range_total : forall n a acc, 2 * fold_left Z.add (zrange a (a + Z.of_nat n)) acc = 2 * acc + Z.of_nat n * (2 * a + Z.of_nat n - 1).
Proof.
  induction n as [|n IH]; intros a acc.
  - rewrite zrange_eq. replace (Z.to_nat (a + Z.of_nat 0 - a)) with 0%nat by lia. cbn. lia.
  - rewrite zrange_eq in *. replace (Z.to_nat (a + Z.of_nat (S n) - a)) with (S n) by lia. cbn [seq map fold_left].
    specialize (IH (a + 1) (acc + (a + Z.of_nat 0))). rewrite zrange_eq in IH. replace (Z.to_nat (a + 1 + Z.of_nat n - (a + 1))) with n in IH by lia.
    rewrite <- seq_shift, map_map. erewrite map_ext; [rewrite IH; nia|]. intros x. lia.
Qed.

Theorem C60_runs : forall idx l (xs : list Q) s u s', NoDup l ->
  keys_of s idx l (xs : list (@num Qops)) -> ~ (nth 0 xs 0 == -1)%Q ->
  assign_selection_ranks idx l s = Ok u s' ->
  exists rs, run_ranks xs rs /\
    Forall2 (fun r w => match idx, rank (heap s' r) with
                        | None, Some (SV1 v) => v = w
                        | Some k, Some (SVL vs) => py_nth vs k = Some (w : @num Qops)
                        | _, _ => False
                        end) l rs.
Proof.
  intros idx l xs s u s' ND F N1 H. assert (Ln : length l = length xs) by (eapply Forall2_length; exact F).
  destruct (list_eq_dec Nat.eq_dec l []) as [El|Ne].
  { subst l. destruct xs; [|discriminate]. exists []. split; [split; [reflexivity|intros; cbn in *; lia]|constructor]. }
  assert (SP : forall j, (j < length xs)%nat -> score_pos idx l s (Z.of_nat j) = Some (SV1 (nth j xs 0%Q : @num Qops))).
  { clear - F Ln. intros j Hj. unfold score_pos. rewrite Nat2Z.id. destruct (nth_error l j) as [r|] eqn:E; [|apply nth_error_None in E; lia].
    assert (K : key_at idx (heap s r) = Some (nth j xs 0%Q : @num Qops)).
    { clear - F E. revert j E. induction F as [|r0 x l xs Hx F IH]; intros j E; [destruct j; discriminate|]. destruct j; cbn in *; [inversion E; subst; auto|auto]. }
    unfold key_at in *. destruct idx; [rewrite K; reflexivity|]. destruct (score (heap s r)); try discriminate. inversion K; subst. reflexivity. }
  assert (LK0 : linked idx l s 0 = false).
  { unfold linked. change 0 with (Z.of_nat 0) at 1. rewrite SP by (destruct l; [congruence|cbn in Ln; lia]). cbn [Z.eqb sv_eqb].
    change (@neqb Qops) with Qeq_bool. destruct (Qeq_bool (nth 0 xs 0%Q) (@nofZ Qops (-1))) eqn:E; auto. apply Qeq_bool_iff in E. contradiction. }
  assert (LKS : forall j, (0 < j < length xs)%nat -> linked idx l s (Z.of_nat j) = Qeq_bool (nth j xs 0%Q) (nth (j - 1) xs 0%Q)).
  { intros j Hj. unfold linked. rewrite SP by lia. destruct (Z.eqb_spec (Z.of_nat j) 0); [lia|]. replace (Z.of_nat j - 1) with (Z.of_nat (j - 1)) by lia.
    rewrite SP by lia. reflexivity. }
  apply assign_ranks_ok in H; auto. destruct H as [_ H].
  assert (X : forall j, (j < length xs)%nat -> exists w : Q, rank_of idx l s' (Z.of_nat j) = Some (w : @num Qops) /\
    exists a b, maximal_run xs a b /\ (a <= j < b)%nat /\ (w == (inject_Z (Z.of_nat a) + inject_Z (Z.of_nat b) + 1) / 2)%Q).
  { intros j Hj. destruct (H (Z.of_nat j)) as (a & b & (R1 & R2 & R3 & R4 & R5) & Hab & E); [lia|]. eexists. split; [exact E|].
    exists (Z.to_nat a), (Z.to_nat b). assert (Eq : forall j, (Z.to_nat a <= j < Z.to_nat b)%nat -> (nth j xs 0 == nth (Z.to_nat a) xs 0)%Q).
    { induction j0 as [|k IH]; intros Hk; [replace (Z.to_nat a) with 0%nat by lia; reflexivity|].
      destruct (Nat.eq_dec (S k) (Z.to_nat a)) as [->|]; [reflexivity|]. rewrite <- IH by lia.
      assert (L : linked idx l s (Z.of_nat (S k)) = true) by (apply R3; lia). rewrite LKS in L by lia. apply Qeq_bool_iff in L.
      replace (S k - 1)%nat with k in L by lia. exact L. }
    split; [|split; [lia|]].
    - split; [lia|]. split; [exact Eq|]. split.
      + intros a' Ha C. rewrite <- (Z2Nat.id a) in R4 by lia. rewrite LKS in R4 by lia. replace (Z.to_nat a - 1)%nat with a' in R4 by lia.
        symmetry in C. apply Qeq_bool_iff in C. congruence.
      + intros Hb C. assert (R5' : linked idx l s b = false) by (apply R5; lia). rewrite <- (Z2Nat.id b) in R5' by lia. rewrite LKS in R5' by lia.
        rewrite <- (Eq (Z.to_nat b - 1)%nat) in C by lia. apply Qeq_bool_iff in C. congruence.
    - rewrite !Z2Nat.id by lia. unfold run_rank, mid_rank. destruct (Z.eqb_spec (b - a) 1) as [E1|E1].
      + replace (Z.of_nat j) with a by lia. replace b with (a + 1) by lia. cbn [nofZ Qops]. rewrite !inject_Z_plus. change (inject_Z 1) with 1%Q. field.
      + assert (T : 2 * fold_left Z.add (zrange a b) 0 = (b - a) * (a + b - 1)).
        { pose proof (range_total (Z.to_nat (b - a)) a 0) as T. rewrite !Z2Nat.id in T by lia. replace (a + (b - a)) with b in T by lia. rewrite T. ring. }
        cbn [nofZ ndiv_raw Qops]. set (f := fold_left Z.add (zrange a b) 0) in *.
        assert (P : ~ (inject_Z (b - a) == 0)%Q). { intros C. unfold Qeq, inject_Z in C. cbn [Qnum Qden] in C. lia. }
        assert (TQ : (2 * inject_Z f == inject_Z (b - a) * (inject_Z a + inject_Z b - 1))%Q).
        { change 2%Q with (inject_Z 2). rewrite <- inject_Z_mult, T, inject_Z_mult. apply Qmult_comp; [reflexivity|].
          unfold Z.sub. rewrite !inject_Z_plus. reflexivity. }
        rewrite inject_Z_plus. assert (G : (inject_Z f == inject_Z (b - a) * (inject_Z a + inject_Z b - 1) / 2)%Q).
        { rewrite <- TQ. field. } rewrite G. field. exact P. }
  assert (Y : forall k, (k <= length l)%nat -> exists rs : list Q, Forall2 (fun r w => rank_at idx (heap s' r) = Some (w : @num Qops)) (firstn k l) rs /\
    length rs = k /\ forall j, (j < k)%nat -> exists a b, maximal_run xs a b /\ (a <= j < b)%nat /\ (nth j rs 0 == (inject_Z (Z.of_nat a) + inject_Z (Z.of_nat b) + 1) / 2)%Q).
  { induction k as [|k IH]; intros Hk; [exists []; cbn; repeat split; auto; intros; lia|]. destruct IH as (rs & F' & Lr & E'); [lia|].
    destruct (X k) as (w & Ew & Mw); [lia|]. exists (rs ++ [w]). unfold rank_of in Ew. rewrite Nat2Z.id in Ew. destruct (nth_error l k) as [r|] eqn:Er; [|discriminate].
    split; [|split; [rewrite app_length; cbn; lia|]].
    - assert (Ef : firstn (S k) l = firstn k l ++ [r]).
      { clear - Er. revert k Er. induction l as [|y l IH]; intros k Er; [destruct k; discriminate|]. destruct k; cbn in *; [inversion Er; reflexivity|]. f_equal. apply IH. auto. }
      rewrite Ef. apply Forall2_app; auto.
    - intros j Hj. destruct (Nat.eq_dec j k) as [->|].
      + destruct Mw as (a & b & M1 & M2 & M3). exists a, b. split; auto. split; auto. rewrite app_nth2 by lia. rewrite Lr, Nat.sub_diag. exact M3.
      + rewrite app_nth1 by lia. apply E'. lia. }
  destruct (Y (length l)) as (rs & F' & Lr & E'); [lia|]. rewrite firstn_all in F'. exists rs. split.
  - split; [congruence|]. intros j Hj. apply E'. lia.
  - eapply Forall2_impl; [|exact F']. cbv beta. intros r w Hw. unfold rank_at in Hw. destruct idx; destruct (rank (heap s' r)) as [[| |]|]; try discriminate; [exact Hw|congruence].
Qed.

(** VEGA ranked selection: a roulette on the run ranks of the last objective, for whose
    size and order nothing is assumed. *)
Theorem C60_vega_roulette : forall f m gd s gd' s' (xs : list Q), allocated gd s -> 1 <= m -> NoDup (members (population gd)) ->
  keys_of s (Some (m - 1)) (members (population gd)) (xs : list (@num Qops)) -> ~ (nth 0 xs 0 == -1)%Q ->
  selection_execute f (SelVegaRanked m) gd s = Ok gd' s' ->
  exists prs rs, run_ranks xs rs /\
    length prs = Z.to_nat (Qtrunc (children_percent gd * inject_Z (num_individ (population gd)) / inject_Z m)) /\
    Forall (fun p => roulette_pair rs (members (population gd)) (fst p) (snd p)) prs /\
    Forall2 (fun c p => same_core (heap s p) (heap s' c)) (parents gd') (flat_map (fun p => [fst p; snd p]) prs).
Proof.
  intros f m gd s gd' s' xs Hlt Hm ND K N1 H. apply C30_ranked_last in H; auto.
  destruct H as (prs & s1 & s2 & ws & scores & Lp & Fr & Ha & Fw & Es & Fp & F2). set (l := members (population gd)) in *.
  assert (K1 : keys_of s1 (Some (m - 1)) l xs). { apply (keys_core s); auto. intros r Hr. apply Fr, Hlt, Hr. }
  destruct (C60_runs _ _ _ _ _ _ ND K1 N1 Ha) as (rs & Rr & Fq).
  assert (ws = rs).
  { clear - Fw Fq. revert rs Fq. induction Fw as [|r w l ws (v & Hv & Hw) Fw IH]; intros rs Fq; inversion Fq; subst; auto. rewrite Hv in *. f_equal; [congruence|auto]. }
  subst ws. exists prs, rs. split; auto. split; auto. split; auto.
  assert (Pos : Forall (fun w => 0 < w)%Q rs).
  { destruct Rr as [Lr Rr]. apply Forall_forall. intros w Hw. apply (In_nth _ _ 0%Q) in Hw. destruct Hw as (j & Hj & <-). destruct (Rr j) as (a & b & _ & Hab & ->); [lia|].
    assert (0 <= Z.of_nat a) as A by lia. assert (0 <= Z.of_nat b) as B by lia. rewrite Zle_Qle in A, B. change (inject_Z 0) with 0%Q in *.
    apply Qlt_shift_div_l; lra. }
  destruct rs as [|r0 rs].
  { inversion Fw as [E|]. rewrite <- E in Fp. eapply Forall_impl; [|exact Fp]. cbv beta. intros p (z1 & z2 & _ & _ & _ & P1 & _). exfalso. revert P1.
    unfold py_nth. cbn [length]. destruct z1; cbn; try destruct (Pos.to_nat _); try discriminate; try (destruct (_ <? _)); try discriminate. }
  destruct (share_pos (r0 :: rs)) as [Hs Hp]; [discriminate|exact Pos|]. eapply Forall_impl; [|exact Fp]. cbv beta. intros p Ip.
  eapply pass_roulette; eauto. eapply Forall2_length; exact Fw.
Qed.

(** In particular, when neighbours differ in the last objective, the weights are 1, ..., n:
    the member at position j (from 0) is chosen with share 2 (j + 1) / (n (n + 1)) whatever
    the values of the objective are. *)
Theorem C60_positions : forall (xs rs : list Q), run_ranks xs rs ->
  (forall j, (S j < length xs)%nat -> ~ (nth j xs 0 == nth (S j) xs 0)%Q) ->
  forall j, (j < length xs)%nat -> (nth j rs 0 == inject_Z (Z.of_nat j + 1))%Q.
Proof.
  intros xs rs [_ Rr] Df j Hj. destruct (Rr j Hj) as (a & b & (R1 & R2 & _) & Hab & ->).
  assert (b = S a). { destruct (Nat.eq_dec b (S a)); auto. exfalso. apply (Df a); [lia|]. symmetry. apply R2. lia. }
  assert (j = a) by lia. subst j b. rewrite Nat2Z.inj_succ. unfold Z.succ. rewrite !inject_Z_plus. change (inject_Z 1) with 1%Q. field.
Qed.

(** The second objective of these four is 5, 5, 1, 5: ranks 3/2, 3/2, 3, 4.  The first two
    and the last tie, and the third is worse than all of them, but its interval is twice
    as long as theirs. *)
Definition flat_duo : list individ := [ind (ints [1]) (vec [9; 5]%Q); ind (ints [2]) (vec [8; 5]%Q); ind (ints [3]) (vec [7; 1]%Q); ind (ints [4]) (vec [6; 5]%Q)].
Example C60_runs_example : observe (fun gd s => (map (fun c => genotype (heap s c)) (parents gd), map (fun r => rank (heap s r)) (members (population gd))))
    (selection_execute 3 (SelVegaRanked 2) (gd4 (1#2)) (world_ent flat_duo [[2 ^ 50; 2 ^ 52]; [2 ^ 50; 2 ^ 52]])) =
  Some ([ints [1]; ints [3]], [Some (vec [1; 3#2]%Q); Some (vec [2; 3#2]%Q); Some (vec [3; 3]%Q); Some (vec [4; 4]%Q)]).
Proof. run. Qed.
Example C60_runs_meets : keys_of (world_ent flat_duo []) (Some 1) [0; 1; 2; 3]%nat ([5; 5; 1; 5]%Q : list (@num Qops)) /\ run_ranks [5; 5; 1; 5]%Q [3#2; 3#2; 3; 4]%Q.
Proof.
  split; [repeat constructor|]. split; [reflexivity|]. intros j Hj. cbn in Hj.
  assert (C : (j = 0 \/ j = 1 \/ j = 2 \/ j = 3)%nat) by lia. destruct C as [->|[->|[->| ->]]]; [exists 0%nat, 2%nat|exists 0%nat, 2%nat|exists 2%nat, 3%nat|exists 3%nat, 4%nat];
    (split; [split; [cbn; lia|]; split; [|split]|split; [lia|reflexivity]]).
  all: try (intros a' E; solve [discriminate E|apply eq_add_S in E; subst a'; intros C; vm_compute in C; discriminate C]).
  all: try (intros _ C; vm_compute in C; discriminate C).
  all: try (intros C; cbn in C; lia).
  all: intros k Hk; assert (D : (k = 0 \/ k = 1 \/ k = 2 \/ k = 3)%nat) by lia; destruct D as [->|[->|[->| ->]]]; try lia; reflexivity.
Qed.

Print Assumptions C60_runs.
Print Assumptions C60_vega_roulette.
Print Assumptions C60_positions.
