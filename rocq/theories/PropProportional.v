(** Properties C27-C30: balanced, ranked and VEGA selection. *)
From Coq Require Import String.
From Coq Require Import ZArith QArith Qabs List Bool Lia Lqa Permutation.
From Verif Require Import Spec Num State Rnd Binary Population GaData Crossover Mutation Selection
  ListLemmas Exec Laws CrossoverProofs PopulationProofs SelectionProofs TournamentProofs BalancedProofs RankProofs VegaProofs Float Demo PropSelection.
Import ListNotations.
Open Scope list_scope.
Open Scope Z_scope.
Local Existing Instance Qops.

(** *** C27 *)
(** The position chosen for a value r of random(): the one whose interval of cumulative
    shares contains r. *)
Definition on_interval (ws : list Q) (r : Q) (i : nat) : Prop :=
  (i < length ws)%nat /\ (cshare ws i <= r)%Q /\ (r < cshare ws (S i))%Q.
Lemma roulette_iff : forall (ws scores : list Q) (r : Q) (z : Z), ~ (qsum ws == 0)%Q -> (forall i, (i < length ws)%nat -> (0 < share ws i)%Q) ->
  selection_scores (ws : list (@num Qops)) = inr scores -> (0 <= r)%Q -> (r < 1)%Q ->
  (index_for (scores : list (@num Qops)) (r : @num Qops) = inr z <-> exists i, z = Z.of_nat i /\ on_interval ws r i).
Proof.
  intros ws scores r z Hs Hp Es H0 H1. destruct (roulette ws r Hs Hp H0 H1) as (sc & i & E & Ei & Hi & A & B).
  assert (sc = scores) by congruence. subst sc. split.
  - intros E'. rewrite Ei in E'. inversion E'. exists i. split; auto. split; auto.
  - intros (j & -> & Hj & C & D). rewrite Ei. do 2 f_equal. apply (interval_unique ws r i j); auto.
Qed.
Theorem C27_roulette : forall ws : list Q, ws <> [] -> Forall (fun w => 0 < w)%Q ws ->
  exists scores : list Q, selection_scores (ws : list (@num Qops)) = inr scores /\
    forall r : Q, (0 <= r)%Q -> (r < 1)%Q ->
      (exists i, on_interval ws r i) /\
      forall z, index_for (scores : list (@num Qops)) (r : @num Qops) = inr z <-> exists i, z = Z.of_nat i /\ on_interval ws r i.
Proof.
  intros ws Ne F. destruct (share_pos ws Ne F) as [Hs Hp]. destruct (scores_ok ws Hs) as (cs & E & _). exists cs. split; auto.
  intros r H0 H1. split; [|intros z; apply roulette_iff; auto].
  destruct (roulette ws r Hs Hp H0 H1) as (sc & i & _ & _ & Hi & A & B). exists i. split; auto.
Qed.
(** The intervals are disjoint, and the length of the i-th is the share of entry i. *)
Theorem C27_intervals : forall ws : list Q, ws <> [] -> Forall (fun w => 0 < w)%Q ws ->
  (forall r i j, on_interval ws r i -> on_interval ws r j -> i = j) /\
  forall i, (i < length ws)%nat -> (cshare ws (S i) - cshare ws i == nth i ws 0 / qsum ws)%Q /\
    (0 <= cshare ws i)%Q /\ (cshare ws (S i) <= 1)%Q.
Proof.
  intros ws Ne F. destruct (share_pos ws Ne F) as [Hs Hp]. split.
  - intros r i j (Hi & A & B) (Hj & C & D). apply (interval_unique ws r i j); auto.
  - intros i Hi. split; [rewrite cshare_step by auto; unfold share; lra|]. split.
    + destruct i; [rewrite cshare_0; lra|]. apply Qlt_le_weak. rewrite <- (cshare_0 ws). apply cshare_lt; auto. lia.
    + destruct (Nat.eq_dec (S i) (length ws)) as [->|]; [rewrite cshare_end by auto; lra|]. apply Qlt_le_weak. rewrite <- (cshare_end ws) by auto. apply cshare_lt; auto. lia.
Qed.
(** The whole operator: parents come in pairs of copies of members at two different
    positions, each on its interval for the value r = k / 2^53 drawn for it. *)
Definition roulette_pair (ws : list Q) (l : list nat) (p1 p2 : nat) : Prop :=
  exists i1 i2 k1 k2, i1 <> i2 /\ nth_error l i1 = Some p1 /\ nth_error l i2 = Some p2 /\ 0 <= k1 < 2 ^ 53 /\ 0 <= k2 < 2 ^ 53 /\
    on_interval ws (k1 # 2 ^ 53) i1 /\ on_interval ws (k2 # 2 ^ 53) i2.
Lemma drawn_interval : forall (ws scores : list Q) z, ~ (qsum ws == 0)%Q -> (forall i, (i < length ws)%nat -> (0 < share ws i)%Q) ->
  selection_scores (ws : list (@num Qops)) = inr scores -> drawn (scores : list (@num Qops)) z ->
  exists i k, z = Z.of_nat i /\ 0 <= k < 2 ^ 53 /\ on_interval ws (k # 2 ^ 53) i.
Proof.
  intros ws scores z Hs Hp E (k & Hk & Ei). change (@nrand Qops k) with (k # 2 ^ 53) in Ei.
  apply (roulette_iff ws scores) in Ei; auto.
  - destruct Ei as (i & -> & O). exists i, k. auto.
  - unfold Qle. cbn [Qnum Qden]. lia.
  - unfold Qlt. cbn [Qnum Qden]. change (Zpos (2 ^ 53)) with (2 ^ 53). lia.
Qed.
Lemma pass_roulette : forall (ws scores : list Q) l p1 p2, length l = length ws ->
  ~ (qsum ws == 0)%Q -> (forall i, (i < length ws)%nat -> (0 < share ws i)%Q) ->
  selection_scores (ws : list (@num Qops)) = inr scores -> index_pair (scores : list (@num Qops)) l p1 p2 -> roulette_pair ws l p1 p2.
Proof.
  intros ws scores l p1 p2 Ll Hs Hp E (z1 & z2 & Ne & D1 & D2 & P1 & P2).
  destruct (drawn_interval ws scores z1 Hs Hp E D1) as (i1 & k1 & -> & K1 & O1). destruct (drawn_interval ws scores z2 Hs Hp E D2) as (i2 & k2 & -> & K2 & O2).
  assert (L1 : (i1 < length l)%nat) by (rewrite Ll; apply O1). assert (L2 : (i2 < length l)%nat) by (rewrite Ll; apply O2).
  rewrite py_nth_nat in P1, P2 by lia. rewrite Nat2Z.id in P1, P2. exists i1, i2, k1, k2.
  split; [intros ->; apply Ne; reflexivity|]. auto 10.
Qed.
Lemma keys_core : forall s s' idx l (ks : list (@num Qops)), (forall r, In r l -> same_core (heap s r) (heap s' r)) -> keys_of s idx l ks -> keys_of s' idx l ks.
Proof.
  intros s s' idx l ks C K. unfold keys_of in *. induction K as [|r k l ks Hk K IH]; constructor.
  - unfold key_at in *. destruct (C r (or_introl eq_refl)) as (_ & _ & E & _). rewrite <- E. exact Hk.
  - apply IH. intros; apply C; right; auto.
Qed.
Lemma keys_frame : forall s s' idx l (ks : list (@num Qops)), (forall r, In r l -> (r < next s)%nat) -> keys_of s idx l ks -> frame s s' -> keys_of s' idx l ks.
Proof. intros s s' idx l ks Hlt K Fr. apply (keys_core s); auto. intros r Hr. apply Fr. auto. Qed.
Theorem C27_operator : forall f gd s gd' s' (ws : list Q), allocated gd s ->
  keys_of s None (members (population gd)) (ws : list (@num Qops)) -> Forall (fun w => 0 < w)%Q ws ->
  selection_execute f SelBalanced gd s = Ok gd' s' ->
  exists x prs, ntrunc (nmul (children_percent gd) (nofZ (num_individ (population gd)))) = Some x /\ length prs = Z.to_nat x /\
    Forall (fun p => roulette_pair ws (members (population gd)) (fst p) (snd p)) prs /\
    Forall2 (fun c p => same_core (heap s p) (heap s' c)) (parents gd') (flat_map (fun p => [fst p; snd p]) prs).
Proof.
  intros f gd s gd' s' ws Hlt K Pos H. cbn [selection_execute] in H. apply balanced_pass_ok in H; auto. set (l := members (population gd)) in *.
  destruct H as (s1 & s2 & ws' & scores & x & prs & Rn & _ & -> & _ & Fr & F & Es & Hx & Lp & -> & _ & _ & Fp & F2).
  assert (ws' = ws).
  { assert (K1 : keys_of s1 None l ws). { eapply keys_frame; [|exact K|exact Fr]. intros r Hr. apply Hlt. exact Hr. }
    clear - F K1. unfold keys_of in K1. revert ws K1. induction F as [|r w l ws' Hw F IH]; intros ws K1; inversion K1; subst; auto. f_equal; [congruence|auto]. }
  subst ws'. exists x, prs. split; [exact Hx|]. split; auto. cbn [parents set_parents]. split.
  - assert (Ll : length l = length ws) by (eapply Forall2_length; eauto).
    eapply Forall_impl; [|exact Fp]. cbv beta. intros p (I1 & I2 & Ip).
    assert (Ne : ws <> []). { intros ->. destruct l; [contradiction I1|discriminate]. }
    destruct (share_pos ws Ne Pos) as [Hs Hp]. eapply pass_roulette; eauto.
  - assert (Hin : Forall (fun p => In p l) (flatten_pairs prs)).
    { clear - Fp. induction Fp as [|[a b] prs (I1 & I2 & _) Fp IH]; [constructor|]. rewrite flatten_cons. repeat constructor; auto. }
    fold (flatten_pairs prs). revert F2 Hin. generalize (seq (next s) (2 * length prs)) as cs. generalize (flatten_pairs prs) as ps.
    induction ps as [|p ps IH]; intros cs F2 Hin; inversion F2 as [|c ? ? ? Hc F2']; subst; constructor.
    + rewrite Hc. destruct Fr as (_ & _ & _ & _ & Fr). apply Fr. apply Hlt. inversion Hin; auto.
    + apply IH; auto. inversion Hin; auto.
Qed.
(** Doubles: with ten equal scores and the largest value of random() the index is 10,
    and the selection ends in population[10], IndexError. *)
Definition ten_doubles (draws : list Z) : @st Fops :=
  @mkSt Fops (fun _ => @mkInd Fops [] None (@SV1 Fops (@nofZ Fops 1)) (@SVNone Fops) true None None) 10 (fun _ => 0)
    (fun _ => papp draws (fun _ => 0)) None (fun _ _ => 0) [].
Definition ten_gd : @gadata Fops :=
  @new_gadata Fops false 10 (@nofZ Fops 1) (Some 10) (@mkPop Fops (seq 0 10) false 10 (@GenCat Fops []) []).
Theorem C27_float_index_error :
  (match @selection_scores Fops (repeat (@nofZ Fops 1) 10) with
   | inr scores => @index_for Fops scores (@nrand Fops (2 ^ 53 - 1))
   | inl e => inl e
   end) = inr 10 /\
  @selection_execute Fops 3 SelBalanced ten_gd (ten_doubles [0; 2 ^ 53 - 1]) = Err IndexError.
Proof. split; run. Qed.

Section Examples27.
  Definition bal4 := observe (fun gd s => map (fun c => genotype (heap s c)) (parents gd))
      (selection_execute 3 SelBalanced (gd4 (1#4)) (world_ent four [[2 ^ 50; 2 ^ 50; 2 ^ 52]])).
  (** Scores 1,2,3,4: r = 1/8 is on [1/10, 3/10), a repeated r is drawn again, r = 1/2
      is on [3/10, 6/10). *)
  Example C27_run : bal4 = Some [ints [2]; ints [3]].
  Proof. run. Qed.
  Example C27_meets : keys_of (world_ent four []) None (members (population (gd4 (1#4)))) ([1; 2; 3; 4]%Q : list (@num Qops)) /\
    Forall (fun w => 0 < w)%Q [1; 2; 3; 4]%Q /\ on_interval [1; 2; 3; 4]%Q (1 # 8) 1.
  Proof. split; [repeat constructor|]. split; [repeat constructor|]. split; [cbn; lia|]. split; vm_compute; congruence. Qed.
End Examples27.

(** *** C28 *)
(** All scores negative: still a roulette, but the worse the score the larger the
    interval. *)
Theorem C28_negative : forall ws : list Q, ws <> [] -> Forall (fun w => w < 0)%Q ws ->
  (exists scores : list Q, selection_scores (ws : list (@num Qops)) = inr scores /\
    forall r : Q, (0 <= r)%Q -> (r < 1)%Q ->
      (exists i, on_interval ws r i) /\
      forall z, index_for (scores : list (@num Qops)) (r : @num Qops) = inr z <-> exists i, z = Z.of_nat i /\ on_interval ws r i) /\
  (forall i j, (i < length ws)%nat -> (j < length ws)%nat -> (nth i ws 0 < nth j ws 0)%Q ->
    (cshare ws (S j) - cshare ws j < cshare ws (S i) - cshare ws i)%Q).
Proof.
  intros ws Ne F. destruct (share_neg ws Ne F) as (Hs & Hp & Hl). split.
  - destruct (scores_ok ws Hs) as (cs & E & _). exists cs. split; auto.
    intros r H0 H1. split; [|intros z; apply roulette_iff; auto].
    destruct (roulette ws r Hs Hp H0 H1) as (sc & i & _ & _ & Hi & A & B). exists i. split; auto.
  - intros i j Hi Hj L. rewrite (cshare_step ws i), (cshare_step ws j) by auto. specialize (Hl i j Hi Hj L). lra.
Qed.
(** A non-empty population whose scores sum to zero: ZeroDivisionError. *)
Theorem C28_zero_sum : forall ws : list Q, ws <> [] -> (qsum ws == 0)%Q ->
  selection_scores (ws : list (@num Qops)) = inl ZeroDivisionError.
Proof.
  intros [|w ws] Ne Hs; [congruence|]. unfold selection_scores. cbn [cumul]. unfold py_div.
  replace (@neqb Qops (@nsum Qops (w :: ws)) (@nzero Qops)) with true; [reflexivity|]. symmetry. apply Qeq_bool_iff. rewrite (nsum_qsum (w :: ws)). exact Hs.
Qed.
Theorem C28_zero_sum_execute : forall f gd s (ws : list Q), allocated gd s ->
  keys_of s None (members (population gd)) (ws : list (@num Qops)) -> ws <> [] -> (qsum ws == 0)%Q ->
  forall gd' s', selection_execute f SelBalanced gd s <> Ok gd' s'.
Proof.
  intros f gd s ws Hlt K Ne Hs gd' s' H. cbn [selection_execute] in H. apply balanced_pass_ok in H; auto.
  destruct H as (s1 & s2 & ws' & scores & x & prs & Rn & _ & -> & _ & Fr & F & Es & _).
  assert (ws' = ws).
  { assert (K1 : keys_of s1 None (members (population gd)) ws). { eapply keys_frame; [|exact K|exact Fr]. exact Hlt. }
    clear - F K1. unfold keys_of in K1. revert ws K1. induction F as [|r w l ws' Hw F IH]; intros ws K1; inversion K1; subst; auto. f_equal; [congruence|auto]. }
  subst ws'. rewrite C28_zero_sum in Es by auto. discriminate.
Qed.
(** A member with score zero, the others' being zero or positive, can be selected. *)
Theorem C28_zero_score : exists ws scores r, Forall (fun w => 0 <= w)%Q ws /\ selection_scores (ws : list (@num Qops)) = inr scores /\
  (0 <= r)%Q /\ (r < 1)%Q /\ index_for scores (r : @num Qops) = inr 0 /\ (nth 0 ws 0 == 0)%Q /\ ~ (qsum ws == 0)%Q.
Proof.
  exists [0; 0; 1]%Q, [0; 0; 0; 1]%Q, (3 # 10)%Q. split; [repeat constructor; discriminate|]. split; [reflexivity|].
  split; [discriminate|]. split; [reflexivity|]. split; [reflexivity|]. split; [reflexivity|]. vm_compute. discriminate.
Qed.
Section Examples28.
  Example C28_meets : Forall (fun w => w < 0)%Q [-4; -3; -1]%Q /\ (share [-4; -3; -1]%Q 0 == 1 # 2)%Q /\ (share [-4; -3; -1]%Q 2 == 1 # 8)%Q.
  Proof. split; [repeat constructor|]. split; reflexivity. Qed.
  Definition sum0 : list individ := [ind (ints [1]) (q (-1)); ind (ints [2]) (q 1); ind (ints [3]) (q 0)].
  Example C28_sum0_run : selection_execute 3 SelBalanced (new_gadata false 10 (1#1 : @num Qops) (Some 10) (cat_pop 3)) (world_ent sum0 []) = Err ZeroDivisionError.
  Proof. run. Qed.
End Examples28.

(** *** C29 *)
(** Assigning ranks: the mean of the 1-based positions of the individuals with the same
    score, which is the classical mid-rank (number below plus half of one plus the
    number equal). *)
Theorem C29_midranks : forall l (xs : list Q) s u s', NoDup l -> l <> [] -> keys_of s None l (xs : list (@num Qops)) ->
  qascending xs -> ~ (nth 0 xs 0 == -1)%Q -> assign_selection_ranks None l s = Ok u s' ->
  (forall r, exists v, heap s' r = set_rank v (heap s r)) /\ (forall r, ~ In r l -> heap s' r = heap s r) /\
  exists rs : list Q, Forall2 (fun r w => rank (heap s' r) = Some (SV1 (w : @num Qops))) l rs /\
    (forall j, (j < length xs)%nat -> (nth j rs 0 == mean_position xs (nth j xs 0))%Q /\ (nth j rs 0 == midrank xs (nth j xs 0))%Q) /\
    (forall i j, (i < length xs)%nat -> (j < length xs)%nat ->
       ((nth i xs 0 == nth j xs 0)%Q -> (nth i rs 0 == nth j rs 0)%Q) /\ ((nth i xs 0 < nth j xs 0)%Q -> (nth i rs 0 < nth j rs 0)%Q)) /\
    (qsum rs == inject_Z (Z.of_nat (length l)) * (inject_Z (Z.of_nat (length l)) + 1) / 2)%Q.
Proof.
  intros l xs s u s' ND Ne K Asc N1 H. assert (Ll : length l = length xs) by (eapply Forall2_length; exact K).
  destruct (assign_ranks_Q None l xs s u s' ND Ne K Asc N1 H) as (A & rs & F & Lr & M).
  destruct A as (_ & _ & _ & _ & _ & _ & A7 & A8). split; auto. split; auto. exists rs.
  assert (M2 : forall j, (j < length xs)%nat -> (nth j rs 0 == midrank xs (nth j xs 0))%Q).
  { intros j Hj. rewrite M, mean_is_midrank by auto. reflexivity. }
  split.
  { eapply Forall2_impl; [|exact F]. cbv beta. intros r w Hw. unfold rank_at in Hw. destruct (rank (heap s' r)) as [[| |]|]; try discriminate. congruence. }
  split; [intros j Hj; split; auto|]. split.
  - intros i j Hi Hj. rewrite (M2 i Hi), (M2 j Hj). split; intros E.
    + rewrite (midrank_ext xs _ _ E). reflexivity.
    + apply midrank_lt; auto; apply nth_In; auto.
  - rewrite Ll. rewrite <- (midrank_sum xs). assert (G : forall (a b : list Q), length a = length b -> (forall j, (j < length a)%nat -> (nth j a 0 == nth j b 0)%Q) -> (qsum a == qsum b)%Q).
    { induction a as [|x a IH]; intros [|y b] L G; try discriminate; [reflexivity|]. cbn [qsum]. cbn [length] in *.
      rewrite (IH b); [|lia|intros j Hj; apply (G (S j)); lia]. pose proof (G 0%nat ltac:(lia)) as G0. cbn [nth] in G0. rewrite G0. reflexivity. }
    apply G; [rewrite map_length; auto|]. intros j Hj. rewrite M2 by lia.
    rewrite (nth_indep (map (midrank xs) xs) 0%Q (midrank xs 0%Q)) by (rewrite map_length; lia). rewrite map_nth. reflexivity.
Qed.
(** The whole operator: a roulette on these ranks. *)
Theorem C29_operator : forall f gd s gd' s' (xs : list Q), allocated gd s -> NoDup (members (population gd)) ->
  keys_of s None (members (population gd)) (xs : list (@num Qops)) -> qascending xs -> ~ (nth 0 xs 0 == -1)%Q ->
  selection_execute f SelRanked gd s = Ok gd' s' ->
  exists x prs rs, ntrunc (nmul (children_percent gd) (nofZ (num_individ (population gd)))) = Some x /\ length prs = Z.to_nat x /\
    length rs = length xs /\ (forall j, (j < length xs)%nat -> (nth j rs 0 == midrank xs (nth j xs 0))%Q) /\
    Forall (fun p => roulette_pair rs (members (population gd)) (fst p) (snd p)) prs /\
    Forall2 (fun c p => same_core (heap s p) (heap s' c)) (parents gd') (flat_map (fun p => [fst p; snd p]) prs).
Proof.
  intros f gd s gd' s' xs Hlt ND K Asc N1 H. cbn [selection_execute] in H. apply balanced_pass_ok in H; auto. set (l := members (population gd)) in *.
  destruct H as (s1 & s2 & ws & scores & x & prs & Rn & Nx & Ha & An & Fr & F & Es & Hx & Lp & -> & _ & _ & Fp & F2).
  assert (K1 : keys_of s1 None l xs). { apply (keys_core s); auto. intros r _. apply (renumbered_core l s s1 r Rn). }
  destruct (list_eq_dec Nat.eq_dec l []) as [El|Ne].
  { assert (prs = []) as ->. { destruct prs as [|p prs]; auto. inversion Fp as [|? ? (I1 & _) ?]. rewrite El in I1. destruct I1. }
    exists x, [], []. rewrite El in K. inversion K; subst. cbn [length] in *. split; [exact Hx|]. split; auto. split; auto. split; [intros; lia|]. split; constructor. }
  assert (Ll : length l = length xs) by (eapply Forall2_length; exact K).
  destruct (assign_ranks_Q None l xs s1 tt s2 ND Ne K1 Asc N1 Ha) as (A & rs & Fq & Lr & M).
  assert (ws = rs).
  { clear - F Fq. revert rs Fq. induction F as [|r w l ws Hw F IH]; intros rs Fq; inversion Fq; subst; auto. f_equal; [congruence|auto]. }
  subst ws. exists x, prs, rs. split; [exact Hx|]. split; auto. split; auto.
  assert (M2 : forall j, (j < length xs)%nat -> (nth j rs 0 == midrank xs (nth j xs 0))%Q).
  { intros j Hj. rewrite M, mean_is_midrank by auto. reflexivity. }
  split; auto. cbn [parents set_parents]. split.
  - assert (Pos : Forall (fun w => 0 < w)%Q rs).
    { apply Forall_forall. intros w Hw. apply (In_nth _ _ 0%Q) in Hw. destruct Hw as (j & Hj & <-). rewrite M2 by lia. apply midrank_pos. }
    assert (Nr : rs <> []). { intros E. subst rs. cbn in Lr. destruct l; [congruence|cbn in Ll; lia]. }
    destruct (share_pos rs Nr Pos) as [Hs Hp]. eapply Forall_impl; [|exact Fp]. cbv beta. intros p (_ & _ & Ip).
    eapply pass_roulette; eauto. lia.
  - assert (Hin : Forall (fun p => In p l) (flatten_pairs prs)).
    { clear - Fp. induction Fp as [|[a b] prs (I1 & I2 & _) Fp IH]; [constructor|]. rewrite flatten_cons. repeat constructor; auto. }
    fold (flatten_pairs prs). revert F2 Hin. generalize (seq (next s) (2 * length prs)) as cs. generalize (flatten_pairs prs) as ps.
    induction ps as [|p ps IH]; intros cs F2 Hin; inversion F2 as [|c ? ? ? Hc F2']; subst; constructor.
    + rewrite Hc. destruct Fr as (_ & _ & _ & _ & Fr). apply Fr. apply Hlt. inversion Hin; auto.
    + apply IH; auto. inversion Hin; auto.
Qed.
(** First score -1: both of two different scores get rank 1/2. *)
Theorem C29_minus_one : exists l (xs : list Q) s s', NoDup l /\ keys_of s None l (xs : list (@num Qops)) /\ qascending xs /\
  assign_selection_ranks None l s = Ok tt s' /\ (nth 0 xs 0 < nth 1 xs 0)%Q /\
  map (fun r => rank (heap s' r)) l = [Some (q (1#2)); Some (q (1#2))] /\ map (midrank xs) xs = [2#2; 4#2]%Q.
Proof.
  exists [0; 1]%nat, [-1; 3]%Q, (world [ind (ints [1]) (q (-1)); ind (ints [2]) (q 3)] []).
  eexists. split; [repeat constructor; cbn; intuition lia|]. split; [repeat constructor|]. split.
  { intros i j H. destruct i as [|[|i]], j as [|[|j]]; cbn in *; try lia; discriminate. }
  split; [reflexivity|]. split; [reflexivity|]. split; reflexivity.
Qed.
Section Examples29.
  Definition tied : list individ := [ind (ints [1]) (q 2); ind (ints [2]) (q 5); ind (ints [3]) (q 5); ind (ints [4]) (q 9)].
  Example C29_run : observe (fun _ s => map (fun r => rank (heap s r)) [0; 1; 2; 3]%nat) (assign_selection_ranks None [0; 1; 2; 3]%nat (world tied [])) =
    Some [Some (q 1); Some (q (5#2)); Some (q (5#2)); Some (q 4)].
  Proof. run. Qed.
  Example C29_meets : keys_of (world tied []) None [0; 1; 2; 3]%nat ([2; 5; 5; 9]%Q : list (@num Qops)) /\ qascending [2; 5; 5; 9]%Q /\
    NoDup [0; 1; 2; 3]%nat /\ map (midrank [2; 5; 5; 9]%Q) [2; 5; 5; 9]%Q = [2#2; 5#2; 5#2; 8#2]%Q.
  Proof.
    split; [repeat constructor|]. split; [|split; [repeat constructor; cbn; intuition lia|reflexivity]].
    intros i j H. destruct i as [|[|[|[|i]]]], j as [|[|[|[|j]]]]; cbn in *; try lia; discriminate.
  Qed.
End Examples29.

(** *** C30 *)
(** VEGA tournament: blocks of pairs, the k-th won on objective k. *)
Theorem C30_tournament_blocks : forall {NO : NumOps} f m t gd s gd' s', allocated gd s ->
  selection_execute f (SelVegaTournament m t) gd s = Ok gd' s' ->
  2 <= t < num_individ (population gd) /\
  exists blocks : list (list (nat * nat)), length blocks = Z.to_nat m /\
    length (parents gd') = (2 * length (concat blocks))%nat /\
    Forall2 (fun c p => same_core (heap s p) (heap s' c)) (parents gd') (flat_map (fun p => [fst p; snd p]) (concat blocks)) /\
    forall k prs, nth_error blocks k = Some prs ->
      (exists y x, py_div (nmul (children_percent gd) (nofZ (num_individ (population gd)))) (nofZ m) = inr y /\
                   ntrunc y = Some x /\ length prs = Z.to_nat x) /\
      Forall (fun p => In (fst p) (members (population gd)) /\ In (snd p) (members (population gd)) /\ fst p <> snd p) prs /\
      forall (ok : num -> Prop) ks, NumOrder NO ok -> keys_of s (Some (Z.of_nat k)) (members (population gd)) ks -> Forall ok ks ->
        t <= Z.of_nat (length ks) ->
        Forall (fun p => exists q x, nth_error (members (population gd)) q = Some p /\ nth_error ks q = Some x /\
                 t <= count_if (fun y => negb (nltb x y)) ks) (flat_map (fun p => [fst p; snd p]) prs).
Proof.
  intros NO f m t gd s gd' s' Hlt H. apply vega_tournament_ok in H; auto. destruct H as (Ht & _ & blocks & Lb & -> & _ & Hb & F2).
  split; auto. exists blocks. split; auto. cbn [parents set_parents]. split; [rewrite seq_length; auto|]. split; auto.
  intros k prs Hk. destruct (Hb k prs Hk) as [(x & (y & Hy & Hx) & Lx) V]. unfold vega_block in V. split.
  { exists y, x. auto. }
  split; [eapply Forall_impl; [|exact V]; cbv beta; tauto|].
  intros ok ks NL K Ok Hl. set (l := members (population gd)) in *.
  assert (Kok : keys_ok ok s (Some (Z.of_nat k)) l).
  { intros r Hr. apply In_nth_error in Hr. destruct Hr as [p Hp]. destruct (keys_of_nth _ _ _ _ _ _ K Hp) as (kk & Hkk & Kk).
    exists kk. split; auto. rewrite Forall_forall in Ok. apply Ok. eapply nth_error_In; eauto. }
  assert (Ll : length l = length ks) by (eapply Forall2_length; exact K).
  assert (C : forall b, can_win s (Some (Z.of_nat k)) t l b -> exists q x, nth_error l q = Some b /\ nth_error ks q = Some x /\
                 t <= count_if (fun y => negb (nltb x y)) ks).
  { intros b W. apply (can_win_iff s (Some (Z.of_nat k)) t l ks b K) in W; auto; [lia|]. intros kk Hkk; apply (no_irrefl _ _ NL); rewrite Forall_forall in Ok; auto. }
  clear - V C Kok NL Ll Hl. induction V as [|[a b] prs (_ & _ & _ & W) V IH]; [constructor|]. destruct (W ok NL Kok ltac:(lia)) as [W1 W2].
  cbn [flat_map fst snd app]. constructor; [auto|]. constructor; auto.
Qed.
(** VEGA balanced: only the last objective counts, and its share of parents is all there
    is. *)
Theorem C30_balanced_last : forall f m gd s gd' s' (ws : list Q), allocated gd s -> 1 <= m ->
  keys_of s (Some (m - 1)) (members (population gd)) (ws : list (@num Qops)) -> Forall (fun w => 0 < w)%Q ws ->
  selection_execute f (SelVegaBalanced m) gd s = Ok gd' s' ->
  exists prs, length prs = Z.to_nat (Qtrunc (children_percent gd * inject_Z (num_individ (population gd)) / inject_Z m)) /\
    Forall (fun p => roulette_pair ws (members (population gd)) (fst p) (snd p)) prs /\
    Forall2 (fun c p => same_core (heap s p) (heap s' c)) (parents gd') (flat_map (fun p => [fst p; snd p]) prs).
Proof.
  intros f m gd s gd' s' ws Hlt Hm K Pos H. cbn [selection_execute] in H. destruct (last_zrange m Hm) as [Ne La].
  apply vega_passes_ok in H; auto. destruct H as (g0 & s0 & [T0 _] & P0 & C0 & _ & H). rewrite La in H. set (l := members (population gd)) in *.
  assert (K0 : keys_of s0 (Some (m - 1)) l ws) by (eapply keys_frame; eauto).
  assert (Hlt0 : forall r, In r (members (population g0)) -> (r < next s0)%nat). { rewrite P0. intros r Hr. apply Hlt in Hr. destruct T0. lia. }
  apply balanced_pass_ok in H; auto. rewrite P0 in H. fold l in H.
  destruct H as (s1 & s2 & ws' & scores & x & prs & Rn & _ & -> & _ & Fr & F & Es & Hx & Lp & -> & _ & _ & Fp & F2).
  rewrite P0 in Hlt0. fold l in Hlt0.
  assert (ws' = ws).
  { assert (K1 : keys_of s1 (Some (m - 1)) l ws) by (eapply keys_frame; eauto).
    clear - F K1. unfold keys_of in K1. revert ws K1. induction F as [|r w l ws' Hw F IH]; intros ws K1; inversion K1; subst; auto. f_equal; [congruence|auto]. }
  subst ws'. exists prs. destruct Hx as (y & Hy & Hx). rewrite C0, P0 in Hy. split.
  { rewrite Lp. unfold py_div in Hy. destruct (neqb (nofZ m) nzero); [discriminate|]. injection Hy as <-. cbn [ntrunc Qops] in Hx. injection Hx as <-. reflexivity. }
  cbn [parents set_parents]. split.
  - assert (Ll : length l = length ws) by (eapply Forall2_length; eauto).
    eapply Forall_impl; [|exact Fp]. cbv beta. intros p (I1 & I2 & Ip).
    assert (Nw : ws <> []). { intros ->. destruct l; [contradiction I1|discriminate]. }
    destruct (share_pos ws Nw Pos) as [Hs Hp]. eapply pass_roulette; eauto.
  - assert (Hin : Forall (fun p => In p l) (flatten_pairs prs)).
    { clear - Fp. induction Fp as [|[a b] prs (I1 & I2 & _) Fp IH]; [constructor|]. rewrite flatten_cons. repeat constructor; auto. }
    fold (flatten_pairs prs). revert F2 Hin. generalize (seq (next s0) (2 * length prs)) as cs. generalize (flatten_pairs prs) as ps.
    assert (Fr2 : frame s s1) by (eapply frame_trans; eauto).
    induction ps as [|p ps IH]; intros cs F2 Hin; inversion F2 as [|c ? ? ? Hc F2']; subst; constructor.
    + rewrite Hc. destruct Fr2 as (_ & _ & _ & _ & Fr2). apply Fr2. apply Hlt. inversion Hin; auto.
    + apply IH; auto. inversion Hin; auto.
Qed.
(** VEGA ranked: the same with the ranks given for the last objective. *)
Theorem C30_ranked_last : forall f m gd s gd' s', allocated gd s -> 1 <= m ->
  selection_execute f (SelVegaRanked m) gd s = Ok gd' s' ->
  exists prs s1 s2 (ws scores : list Q), length prs = Z.to_nat (Qtrunc (children_percent gd * inject_Z (num_individ (population gd)) / inject_Z m)) /\
    frame s s1 /\ assign_selection_ranks (Some (m - 1)) (members (population gd)) s1 = Ok tt s2 /\
    Forall2 (fun r w => exists l, rank (heap s2 r) = Some (SVL l) /\ py_nth l (m - 1) = Some (w : @num Qops)) (members (population gd)) ws /\
    selection_scores (ws : list (@num Qops)) = inr scores /\
    Forall (fun p => index_pair (scores : list (@num Qops)) (members (population gd)) (fst p) (snd p)) prs /\
    Forall2 (fun c p => same_core (heap s p) (heap s' c)) (parents gd') (flat_map (fun p => [fst p; snd p]) prs).
Proof.
  intros f m gd s gd' s' Hlt Hm H. cbn [selection_execute] in H. destruct (last_zrange m Hm) as [Ne La]. set (l := members (population gd)) in *.
  bd H u sa R1. apply set_rank_iter in R1. destruct R1 as [A1 _]. pose proof (annotated_frame _ _ _ A1) as Fa.
  assert (Na : next sa = next s) by (destruct A1; auto).
  apply vega_passes_ok in H; auto; [|rewrite Na; auto]. destruct H as (g0 & s0 & [T0 _] & P0 & C0 & _ & H). rewrite La in H.
  assert (Hlt0 : forall r, In r (members (population g0)) -> (r < next s0)%nat). { rewrite P0. intros r Hr. apply Hlt in Hr. destruct T0. lia. }
  apply balanced_pass_ok in H; auto. rewrite P0 in H. fold l in H.
  destruct H as (s1 & s2 & ws & scores & x & prs & Rn & N1 & Ha & An & Fr & F & Es & Hx & Lp & -> & _ & _ & Fp & F2).
  assert (F01 : frame s0 s1). { split; [lia|]. destruct Fr as (B1 & B2 & B3 & B4 & B5). destruct An as (D1 & D2 & D3 & D4 & D5 & D6 & D7 & D8).
    split; [congruence|]. split; [congruence|]. split; [congruence|]. intros r _. apply (renumbered_core l s0 s1 r Rn). }
  exists prs, s1, s2, ws, scores. destruct Hx as (y & Hy & Hx). rewrite C0, P0 in Hy. split.
  { rewrite Lp. unfold py_div in Hy. destruct (neqb (nofZ m) nzero); [discriminate|]. injection Hy as <-. cbn [ntrunc Qops] in Hx. injection Hx as <-. reflexivity. }
  split; [eapply frame_trans; [exact Fa|eapply frame_trans; eauto]|]. split; [exact Ha|]. split.
  { eapply Forall2_impl; [|exact F]. cbv beta. intros r w Hw. unfold rank_at in Hw. destruct (rank (heap s2 r)) as [[| |lst]|]; try discriminate. eauto. }
  split; [exact Es|]. split; [eapply Forall_impl; [|exact Fp]; cbv beta; tauto|]. cbn [parents set_parents].
  assert (Hin : Forall (fun p => In p l) (flatten_pairs prs)).
  { clear - Fp. induction Fp as [|[a b] prs (I1 & I2 & _) Fp IH]; [constructor|]. rewrite flatten_cons. repeat constructor; auto. }
  fold (flatten_pairs prs). assert (Fr2 : frame s s2) by (eapply frame_trans; [exact Fa|eapply frame_trans; eauto]).
  revert F2 Hin. generalize (seq (next s0) (2 * length prs)) as cs. generalize (flatten_pairs prs) as ps.
  induction ps as [|p ps IH]; intros cs F2 Hin; inversion F2 as [|c ? ? ? Hc F2']; subst; constructor.
  - rewrite Hc. destruct Fr2 as (_ & _ & _ & _ & Fr2). apply Fr2. apply Hlt. inversion Hin; auto.
  - apply IH; auto. inversion Hin; auto.
Qed.
Section Examples30.
  Definition vec (l : list Q) : sval := SVL (l : list (@num Qops)).
  Definition duo : list individ := [ind (ints [1]) (vec [9; 1]%Q); ind (ints [2]) (vec [8; 2]%Q); ind (ints [3]) (vec [1; 8]%Q); ind (ints [4]) (vec [2; 9]%Q)].
  (** One pair per objective: 1 and 2 are best on the first, 4 and 3 on the second. *)
  Example C30_blocks_run : observe (fun gd s => map (fun c => genotype (heap s c)) (parents gd))
      (selection_execute 3 (SelVegaTournament 2 2) (gd4 (1#2)) (world_ent duo [[0; 2; 1; 1; 3; 2; 2; 0]])) =
    Some [ints [1]; ints [2]; ints [4]; ints [3]].
  Proof. run. Qed.
  (** Draws 1/8 and 1/2 land on the first two for both objectives in turn; only the
      pair of the second objective (shares 1, 2, 8, 9 of 20) remains. *)
  Example C30_balanced_run : observe (fun gd s => map (fun c => genotype (heap s c)) (parents gd))
      (selection_execute 3 (SelVegaBalanced 2) (gd4 (1#2)) (world_ent duo [[2 ^ 50; 2 ^ 52]; [2 ^ 50; 2 ^ 52]])) =
    Some [ints [2]; ints [3]].
  Proof. run. Qed.
  Example C30_ranked_run : observe (fun gd s => (map (fun c => genotype (heap s c)) (parents gd), map (fun r => rank (heap s r)) (members (population gd))))
      (selection_execute 3 (SelVegaRanked 2) (gd4 (1#2)) (world_ent duo [[2 ^ 50; 2 ^ 52]; [2 ^ 50; 2 ^ 52]])) =
    Some ([ints [2]; ints [3]], [Some (vec [1; 1]%Q); Some (vec [2; 2]%Q); Some (vec [3; 3]%Q); Some (vec [4; 4]%Q)]).
  Proof. run. Qed.
  Example C30_meets : keys_of (world_ent duo []) (Some 1) [0; 1; 2; 3]%nat ([1; 2; 8; 9]%Q : list (@num Qops)).
  Proof. repeat constructor. Qed.
End Examples30.

(** *** C60 *)
(** Ranked selection never compares which of two scores is larger.  VEGA populations
    are not sorted by any objective: if neighbours differ in objective k (and the first
    value is not -1), the rank for k is the position in the list, whatever the values. *)
Theorem C60_rank_is_position : forall idx l (xs : list Q) s u s', NoDup l ->
  keys_of s idx l (xs : list (@num Qops)) -> ~ (nth 0 xs 0 == -1)%Q ->
  (forall j, (S j < length xs)%nat -> ~ (nth j xs 0 == nth (S j) xs 0)%Q) ->
  assign_selection_ranks idx l s = Ok u s' ->
  forall j, (j < length l)%nat -> exists r, nth_error l j = Some r /\
    match idx, rank (heap s' r) with
    | None, Some (SV1 w) => w = inject_Z (Z.of_nat j + 1)
    | Some k, Some (SVL ws) => py_nth ws k = Some (inject_Z (Z.of_nat j + 1) : @num Qops)
    | _, _ => False
    end.
Proof.
  intros idx l xs s u s' ND F N1 Df H j Hj. assert (Ln : length l = length xs) by (eapply Forall2_length; exact F).
  assert (SP : forall j, (j < length xs)%nat -> score_pos idx l s (Z.of_nat j) = Some (SV1 (nth j xs 0%Q : @num Qops))).
  { clear - F Ln. intros j Hj. unfold score_pos. rewrite Nat2Z.id. destruct (nth_error l j) as [r|] eqn:E; [|apply nth_error_None in E; lia].
    assert (K : key_at idx (heap s r) = Some (nth j xs 0%Q : @num Qops)).
    { clear - F E. revert j E. induction F as [|r0 x l xs Hx F IH]; intros j E; [destruct j; discriminate|]. destruct j; cbn in *; [inversion E; subst; auto|auto]. }
    unfold key_at in *. destruct idx; [rewrite K; reflexivity|]. destruct (score (heap s r)); try discriminate. inversion K; subst. reflexivity. }
  assert (LK0 : linked idx l s 0 = false).
  { unfold linked. change 0 with (Z.of_nat 0) at 1. rewrite SP by lia. cbn [Z.eqb sv_eqb].
    change (@neqb Qops) with Qeq_bool. destruct (Qeq_bool (nth 0 xs 0%Q) (@nofZ Qops (-1))) eqn:E; auto. apply Qeq_bool_iff in E. contradiction. }
  apply assign_ranks_ok in H; auto. destruct H as [_ H]. destruct (H (Z.of_nat j)) as (a & b & (R1 & R2 & R3 & R4 & R5) & Hab & E); [lia|].
  assert (b - a = 1).
  { destruct (Z.eq_dec (b - a) 1); auto. exfalso. assert (L : linked idx l s (a + 1) = true) by (apply R3; lia). unfold linked in L.
    destruct (Z.eqb_spec (a + 1) 0); [lia|]. replace (a + 1) with (Z.of_nat (S (Z.to_nat a))) in L by lia.
    replace (Z.of_nat (S (Z.to_nat a)) - 1) with (Z.of_nat (Z.to_nat a)) in L by lia. rewrite !SP in L by lia. cbn [sv_eqb] in L.
    apply Qeq_bool_iff in L. apply (Df (Z.to_nat a)); [lia|]. symmetry. exact L. }
  unfold run_rank in E. destruct (Z.eqb_spec (b - a) 1); [|lia]. unfold rank_of in E. rewrite Nat2Z.id in E.
  destruct (nth_error l j) as [r|]; [|discriminate]. exists r. split; auto. unfold rank_at in E.
  destruct idx; destruct (rank (heap s' r)) as [[| |]|]; try discriminate; [exact E|]. injection E as ->. reflexivity.
Qed.
(** In C30_ranked_run the first objective is 9, 8, 1, 2 and its ranks are 1, 2, 3, 4. *)
Example C60_meets : keys_of (world_ent duo []) (Some 0) [0; 1; 2; 3]%nat ([9; 8; 1; 2]%Q : list (@num Qops)) /\
  (forall j, (S j < length [9; 8; 1; 2]%Q)%nat -> ~ (nth j [9; 8; 1; 2] 0 == nth (S j) [9; 8; 1; 2] 0)%Q).
Proof. split; [repeat constructor|]. intros [|[|[|j]]] H; cbn in *; try lia; discriminate. Qed.

Print Assumptions C60_rank_is_position.
Print Assumptions C27_roulette.
Print Assumptions C27_intervals.
Print Assumptions C27_operator.
Print Assumptions C27_float_index_error.
Print Assumptions C28_negative.
Print Assumptions C28_zero_sum.
Print Assumptions C28_zero_sum_execute.
Print Assumptions C28_zero_score.
Print Assumptions C29_midranks.
Print Assumptions C29_operator.
Print Assumptions C29_minus_one.
Print Assumptions C30_tournament_blocks.
Print Assumptions C30_balanced_last.
Print Assumptions C30_ranked_last.
