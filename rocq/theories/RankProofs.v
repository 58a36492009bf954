(** Mid-ranks over the rationals. *)
From Coq Require Import ZArith QArith Qabs List Bool Lia Lqa Permutation.
From Verif Require Import Spec Num State Binary Population GaData Selection ListLemmas Rnd Exec Laws PopulationProofs
  SelectionProofs BalancedProofs.
Import ListNotations.
Open Scope list_scope.
Open Scope Z_scope.

Lemma filter_none : forall {A} (f : A -> bool) l, (forall x, In x l -> f x = false) -> filter f l = [].
Proof. intros A f l H. induction l as [|x l IH]; cbn; auto. rewrite H by (left; auto). apply IH. intros. apply H. right; auto. Qed.
Lemma filter_all : forall {A} (f : A -> bool) l, (forall x, In x l -> f x = true) -> filter f l = l.
Proof. intros A f l H. induction l as [|x l IH]; cbn; auto. rewrite H by (left; auto). f_equal. apply IH. intros. apply H. right; auto. Qed.
Lemma filter_interval : forall f n a b, (a <= b <= n)%nat -> (forall k, (k < n)%nat -> (f k = true <-> (a <= k < b)%nat)) ->
  filter f (seq 0 n) = seq a (b - a).
Proof.
  intros f n a b H Hf. replace n with (a + ((b - a) + (n - b)))%nat by lia. rewrite seq_app, filter_app, seq_app, filter_app.
  rewrite filter_none, filter_all, filter_none, app_nil_r; auto.
  - intros x Hx. apply in_seq in Hx. destruct (f x) eqn:E; auto. apply Hf in E; lia.
  - intros x Hx. apply in_seq in Hx. apply Hf; lia.
  - intros x Hx. apply in_seq in Hx. destruct (f x) eqn:E; auto. apply Hf in E; lia.
Qed.
Lemma map_nth_seq : forall {A} (l : list A) d, map (fun k => nth k l d) (seq 0 (length l)) = l.
Proof.
  intros A l d. apply nth_ext with (d := d) (d' := d); [rewrite map_length, seq_length; auto|].
  intros n Hn. rewrite map_length, seq_length in Hn. rewrite nth_indep with (d' := nth 0 l d) by (rewrite map_length, seq_length; auto).
  rewrite (map_nth (fun k => nth k l d)). rewrite seq_nth by auto. reflexivity.
Qed.
Lemma count_positions : forall {A} (f : A -> bool) l d, count_if f l = Z.of_nat (length (filter (fun k => f (nth k l d)) (seq 0 (length l)))).
Proof.
  intros A f l d. unfold count_if. rewrite <- (map_nth_seq l d) at 1. generalize (seq 0 (length l)) as ks. induction ks as [|k ks IH]; auto.
  cbn [map filter]. destruct (f (nth k l d)); cbn [length]; lia.
Qed.
Lemma zsum_seq : forall m a, zsum (map (fun k => Z.of_nat k + 1) (seq a m)) * 2 = Z.of_nat m * (2 * Z.of_nat a + Z.of_nat m + 1).
Proof. induction m as [|m IH]; intros a; cbn [seq map zsum]; [lia|]. specialize (IH (S a)). lia. Qed.
Lemma fold_zrange : forall m a, fold_left Z.add (zrange (Z.of_nat a) (Z.of_nat a + Z.of_nat m)) 0 + Z.of_nat m = zsum (map (fun k => Z.of_nat k + 1) (seq a m)).
Proof.
  intros m a. rewrite zsum_fold. rewrite zrange_eq. replace (Z.to_nat (Z.of_nat a + Z.of_nat m - Z.of_nat a)) with m by lia.
  rewrite Z.add_0_l. revert a. induction m as [|m IH]; intros a; [reflexivity|].
  rewrite <- Nat.add_1_l, seq_app, map_app. cbn [seq map zsum app Nat.add]. specialize (IH (S a)).
  rewrite <- seq_shift, map_map. cbn [seq map zsum]. rewrite <- IH.
  assert (E : map (fun x => Z.of_nat a + Z.of_nat (S x)) (seq 0 m) = map (fun i => Z.of_nat (S a) + Z.of_nat i) (seq 0 m)).
  { apply map_ext. intros. lia. }
  rewrite E. lia.
Qed.

(** The run of equal values of an ascending list. *)
Definition qrun (xs : list Q) (a b : nat) : Prop :=
  (a < b <= length xs)%nat /\ (forall j, (a < j < b)%nat -> (nth j xs 0 == nth (j - 1) xs 0)%Q) /\
  ((0 < a)%nat -> ~ (nth a xs 0 == nth (a - 1) xs 0)%Q) /\ ((b < length xs)%nat -> ~ (nth b xs 0 == nth (b - 1) xs 0)%Q).
Lemma qrun_eq : forall xs a b, qascending xs -> qrun xs a b -> forall j k, (a <= j < b)%nat -> (k < length xs)%nat ->
  ((nth j xs 0 == nth k xs 0)%Q <-> (a <= k < b)%nat).
Proof.
  intros xs a b Asc (Hab & Lk & La & Lb). 
  assert (In1 : forall j, (a <= j < b)%nat -> (nth j xs 0 == nth a xs 0)%Q).
  { intros j. induction j as [|j IH]; intros Hj; [replace a with 0%nat by lia; reflexivity|].
    destruct (Nat.eq_dec (S j) a) as [<-|]; [reflexivity|]. rewrite (Lk (S j)) by lia. replace (S j - 1)%nat with j by lia. apply IH. lia. }
  intros j k Hj Hk. split.
  - intros E. rewrite In1 in E by auto. destruct (le_lt_dec a k) as [L|L]; [|exfalso].
    + split; auto. destruct (le_lt_dec b k) as [L'|L']; auto. exfalso.
      assert (B1 : (nth b xs 0 <= nth k xs 0)%Q) by (apply Asc; lia).
      assert (B2 : (nth (b - 1) xs 0 == nth a xs 0)%Q) by (apply In1; lia).
      assert (B3 : (nth (b - 1) xs 0 <= nth b xs 0)%Q) by (apply Asc; lia).
      apply Lb; [lia|]. lra.
    + assert (B1 : (nth k xs 0 <= nth (a - 1) xs 0)%Q) by (apply Asc; lia).
      assert (B3 : (nth (a - 1) xs 0 <= nth a xs 0)%Q) by (apply Asc; lia).
      apply La; [lia|]. lra.
  - intros Hk'. rewrite In1, (In1 k) by auto. reflexivity.
Qed.
Lemma qrun_positions : forall xs a b j, qascending xs -> qrun xs a b -> (a <= j < b)%nat ->
  positions_of xs (nth j xs 0%Q) = map (fun k => Z.of_nat k + 1) (seq a (b - a)).
Proof.
  intros xs a b j Asc R Hj. unfold positions_of. f_equal. apply filter_interval; [destruct R; lia|].
  intros k Hk. rewrite Qeq_bool_iff. apply qrun_eq; auto.
Qed.
Lemma qrun_mean : forall xs a b j, qascending xs -> qrun xs a b -> (a <= j < b)%nat ->
  (mean_position xs (nth j xs 0) == midrank xs (nth j xs 0))%Q.
Proof.
  intros xs a b j Asc R Hj. assert (Hab : (a < b <= length xs)%nat) by (destruct R; lia).
  unfold mean_position, midrank. rewrite (qrun_positions xs a b j) by auto. rewrite map_length, seq_length.
  rewrite !(count_positions _ xs 0%Q).
  rewrite (filter_interval (fun k => Qeq_bool (nth j xs 0%Q) (nth k xs 0%Q)) (length xs) a b); [|lia|].
  2:{ intros k Hk. rewrite Qeq_bool_iff. apply qrun_eq; auto. }
  rewrite (filter_interval (fun k => negb (Qle_bool (nth j xs 0%Q) (nth k xs 0%Q))) (length xs) 0 a); [|lia|].
  2:{ intros k Hk. rewrite negb_true_iff. split.
      - intros E. destruct (le_lt_dec a k) as [L|L]; [|lia]. exfalso.
        assert (nth j xs 0 <= nth k xs 0)%Q.
        { destruct (le_lt_dec b k) as [L'|L']; [apply Asc; lia|]. assert (Ee : (nth j xs 0 == nth k xs 0)%Q) by (apply (qrun_eq xs a b); auto). lra. }
        apply Qle_bool_iff in H. congruence.
      - intros L. destruct (Qle_bool (nth j xs 0%Q) (nth k xs 0%Q)) eqn:E; auto. apply Qle_bool_iff in E.
        assert (nth k xs 0 <= nth j xs 0)%Q by (apply Asc; lia). assert (nth j xs 0 == nth k xs 0)%Q by lra.
        apply (qrun_eq xs a b) in H0; auto; lia. }
  rewrite !seq_length. replace (a - 0)%nat with a by lia. set (m := (b - a)%nat). assert (Hm : (0 < m)%nat) by (unfold m; lia).
  pose proof (zsum_seq m a) as Z2. set (z := zsum (map (fun k => Z.of_nat k + 1) (seq a m))) in *.
  apply (f_equal inject_Z) in Z2. rewrite !inject_Z_mult, !inject_Z_plus, inject_Z_mult in Z2. rewrite inject_Z_plus.
  assert (P : (0 < inject_Z (Z.of_nat m))%Q) by (change 0%Q with (inject_Z 0); rewrite <- Zlt_Qlt; lia).
  set (M := inject_Z (Z.of_nat m)) in *. set (A := inject_Z (Z.of_nat a)) in *. set (Z := inject_Z z) in *.
  change (inject_Z 2) with 2%Q in Z2. change (inject_Z 1) with 1%Q in *.
  assert (E : (Z == M * (2 * A + M + 1) / 2)%Q) by (rewrite <- Z2; field). rewrite E. field. lra.
Qed.

(** *** Facts about mid-ranks *)
Lemma count_ext : forall {A} (f g : A -> bool) l, (forall x, In x l -> f x = g x) -> count_if f l = count_if g l.
Proof. intros A f g l H. unfold count_if. induction l as [|x l IH]; auto. cbn. rewrite (H x) by (left; auto). destruct (g x); cbn [length]; rewrite ?Nat2Z.inj_succ, IH; auto; intros; apply H; right; auto. Qed.
Lemma below_iff : forall x y, negb (Qle_bool x y) = true <-> (y < x)%Q.
Proof. intros. rewrite negb_true_iff. split; intros H; [apply Qnot_le_lt; intros L; apply Qle_bool_iff in L; congruence|]. destruct (Qle_bool x y) eqn:E; auto. apply Qle_bool_iff in E. lra. Qed.
Lemma midrank_ext : forall xs x y, (x == y)%Q -> midrank xs x = midrank xs y.
Proof.
  intros xs x y E. unfold midrank. f_equal; [f_equal|f_equal; f_equal; f_equal]; apply count_ext; intros z _; apply eq_true_iff_eq.
  - rewrite !below_iff, E. reflexivity.
  - rewrite !Qeq_bool_iff, E. reflexivity.
Qed.
Lemma count_sum : forall {A} (f : A -> bool) l, count_if f l = zsum (map (fun y => if f y then 1 else 0) l).
Proof. intros A f l. unfold count_if. induction l as [|x l IH]; cbn; auto. destruct (f x); cbn [length]; lia. Qed.
Lemma zsum_map_add : forall {A} (f g : A -> Z) l, zsum (map (fun x => f x + g x) l) = zsum (map f l) + zsum (map g l).
Proof. induction l; cbn [map zsum]; lia. Qed.
Lemma zsum_map_const : forall {A} c (l : list A), zsum (map (fun _ => c) l) = Z.of_nat (length l) * c.
Proof. induction l; cbn [map zsum length]; lia. Qed.
Lemma zsum_swap : forall {A B} (f : A -> B -> Z) l m,
  zsum (map (fun x => zsum (map (f x) m)) l) = zsum (map (fun y => zsum (map (fun x => f x y) l)) m).
Proof.
  intros A B f l m. induction l as [|x l IH]; cbn [map zsum].
  - symmetry. rewrite zsum_map_const. lia.
  - rewrite IH, <- zsum_map_add. reflexivity.
Qed.
Lemma midrank_counts : forall xs : list Q,
  2 * zsum (map (fun x => count_if (fun y => negb (Qle_bool x y)) xs) xs) + zsum (map (fun x => count_if (Qeq_bool x) xs) xs) = Z.of_nat (length xs) * Z.of_nat (length xs).
Proof.
  intros xs. set (lt := fun x y : Q => if negb (Qle_bool x y) then 1 else 0). set (eq := fun x y : Q => if Qeq_bool x y then 1 else 0).
  assert (E1 : zsum (map (fun x => count_if (fun y => negb (Qle_bool x y)) xs) xs) = zsum (map (fun x => zsum (map (lt x) xs)) xs)).
  { f_equal. apply map_ext. intros x. apply count_sum. }
  assert (E2 : zsum (map (fun x => count_if (Qeq_bool x) xs) xs) = zsum (map (fun x => zsum (map (eq x) xs)) xs)).
  { f_equal. apply map_ext. intros x. apply count_sum. }
  assert (E3 : zsum (map (fun x => zsum (map (lt x) xs)) xs) = zsum (map (fun y => zsum (map (fun x => lt x y) xs)) xs)) by apply zsum_swap.
  rewrite E1, E2. replace (2 * zsum (map (fun x => zsum (map (lt x) xs)) xs)) with
    (zsum (map (fun x => zsum (map (lt x) xs)) xs) + zsum (map (fun y => zsum (map (fun x => lt x y) xs)) xs)) by lia.
  rewrite <- !zsum_map_add.
  assert (E4 : map (fun x => zsum (map (lt x) xs) + zsum (map (fun z => lt z x) xs) + zsum (map (eq x) xs)) xs = map (fun _ => Z.of_nat (length xs)) xs).
  { apply map_ext. intros x. rewrite <- !zsum_map_add. rewrite <- (Z.mul_1_r (Z.of_nat (length xs))), <- (zsum_map_const 1 xs). f_equal.
    apply map_ext. intros y. unfold lt, eq. destruct (negb (Qle_bool x y)) eqn:A; destruct (negb (Qle_bool y x)) eqn:B; destruct (Qeq_bool x y) eqn:C; auto; exfalso.
    all: try (apply below_iff in A); try (apply below_iff in B); try (apply Qeq_bool_iff in C); try lra.
    apply negb_false_iff, Qle_bool_iff in A. apply negb_false_iff, Qle_bool_iff in B. assert (x == y)%Q by lra. apply Qeq_bool_iff in H. congruence. }
  rewrite E4, zsum_map_const. reflexivity.
Qed.
Lemma midrank_sum : forall xs, (qsum (map (midrank xs) xs) == inject_Z (Z.of_nat (length xs)) * (inject_Z (Z.of_nat (length xs)) + 1) / 2)%Q.
Proof.
  intros xs. pose proof (midrank_counts xs) as E. set (n := Z.of_nat (length xs)) in *.
  assert (K : forall l, (qsum (map (midrank xs) l) == inject_Z (zsum (map (fun x => count_if (fun y => negb (Qle_bool x y)) xs) l)) +
      (inject_Z (zsum (map (fun x => count_if (Qeq_bool x) xs) l)) + inject_Z (Z.of_nat (length l))) / 2)%Q).
  { induction l as [|x l IH]; cbn [map qsum zsum length]; [reflexivity|]. rewrite IH. unfold midrank at 1.
    rewrite Nat2Z.inj_succ. unfold Z.succ. rewrite !inject_Z_plus. change (inject_Z 1) with 1%Q. field. }
  rewrite K. fold n. apply (f_equal inject_Z) in E. rewrite inject_Z_plus, !inject_Z_mult in E. change (inject_Z 2) with 2%Q in E.
  set (N := inject_Z n) in *. match goal with |- (?a + (?b + N) / 2 == _)%Q => set (aa := a) in *; set (bb := b) in * end.
  assert (E' : (bb == N * N - 2 * aa)%Q) by (rewrite <- E; ring). rewrite E'. field.
Qed.
Lemma count_le : forall {A} (f g : A -> bool) l, (forall x, In x l -> f x = true -> g x = true) -> count_if f l <= count_if g l.
Proof.
  intros A f g l H. rewrite !count_sum. induction l as [|x l IH]; cbn [map zsum]; [lia|].
  assert (zsum (map (fun y => if f y then 1 else 0) l) <= zsum (map (fun y => if g y then 1 else 0) l)) by (apply IH; intros; apply H; [right|]; auto).
  specialize (H x (or_introl eq_refl)). destruct (f x); destruct (g x); lia.
Qed.
Lemma count_or : forall {A} (f g : A -> bool) l, (forall x, In x l -> f x = true -> g x = false) -> count_if f l + count_if g l = count_if (fun x => f x || g x) l.
Proof.
  intros A f g l H. rewrite !count_sum, <- zsum_map_add. f_equal. apply map_ext_in. intros x Hx. specialize (H x Hx). destruct (f x); destruct (g x); auto. specialize (H eq_refl). discriminate.
Qed.
Lemma count_pos : forall {A} (f : A -> bool) l x, In x l -> f x = true -> 1 <= count_if f l.
Proof.
  intros A f l x Hx E. unfold count_if. assert (I : In x (filter f l)) by (apply filter_In; auto). destruct (filter f l); [contradiction|]. cbn [length]. lia.
Qed.
Lemma midrank_lt : forall xs x y, In x xs -> In y xs -> (x < y)%Q -> (midrank xs x < midrank xs y)%Q.
Proof.
  intros xs x y Hx Hy L. unfold midrank.
  assert (A : count_if (fun z => negb (Qle_bool x z)) xs + count_if (Qeq_bool x) xs <= count_if (fun z => negb (Qle_bool y z)) xs).
  { rewrite count_or.
    - apply count_le. intros z _ E. apply orb_true_iff in E. rewrite below_iff in *. rewrite Qeq_bool_iff in E. destruct E; lra.
    - intros z _ E. apply below_iff in E. destruct (Qeq_bool x z) eqn:C; auto. apply Qeq_bool_iff in C. lra. }
  assert (B : 1 <= count_if (Qeq_bool x) xs) by (apply (count_pos _ _ x); auto; apply Qeq_bool_iff; reflexivity).
  assert (C : 1 <= count_if (Qeq_bool y) xs) by (apply (count_pos _ _ y); auto; apply Qeq_bool_iff; reflexivity).
  rewrite Zle_Qle in A, B, C. rewrite !inject_Z_plus in *. change (inject_Z 1) with 1%Q in *.
  set (a := inject_Z (count_if (fun z => negb (Qle_bool x z)) xs)) in *. set (b := inject_Z (count_if (Qeq_bool x) xs)) in *.
  set (c := inject_Z (count_if (fun z => negb (Qle_bool y z)) xs)) in *. set (d := inject_Z (count_if (Qeq_bool y) xs)) in *.
  assert (E1 : ((b + 1) / 2 == b / 2 + 1 / 2)%Q) by field. assert (E2 : ((d + 1) / 2 == d / 2 + 1 / 2)%Q) by field.
  assert (E3 : (b / 2 == b * (1 # 2))%Q) by field. assert (E4 : (d / 2 == d * (1 # 2))%Q) by field. lra.
Qed.
Lemma midrank_pos : forall xs x, (0 < midrank xs x)%Q.
Proof.
  intros xs x. unfold midrank. assert (A : 0 <= count_if (fun y => negb (Qle_bool x y)) xs) by (unfold count_if; lia).
  assert (B : 0 <= count_if (Qeq_bool x) xs) by (unfold count_if; lia). rewrite Zle_Qle in A, B. rewrite inject_Z_plus. change (inject_Z 0) with 0%Q in *. change (inject_Z 1) with 1%Q.
  set (b := inject_Z (count_if (Qeq_bool x) xs)) in *. assert (E : ((b + 1) / 2 == b * (1 # 2) + (1 # 2))%Q) by field. lra.
Qed.

(** *** The ranks given by ranked selection *)
Section RankQ.
  Local Existing Instance Qops.
  Lemma assign_ranks_Q : forall idx l (xs : list Q) s u s', NoDup l -> l <> [] ->
    Forall2 (fun r x => key_at idx (heap s r) = Some (x : @num Qops)) l xs -> qascending xs -> ~ (nth 0 xs 0 == -1)%Q ->
    assign_selection_ranks idx l s = Ok u s' ->
    annotated l s s' /\ exists rs : list Q, Forall2 (fun r w => rank_at idx (heap s' r) = Some (w : @num Qops)) l rs /\
      length rs = length xs /\ forall j, (j < length xs)%nat -> (nth j rs 0 == mean_position xs (nth j xs 0))%Q.
  Proof.
    intros idx l xs s u s' ND Ne F Asc N1 H. assert (Ln : length l = length xs) by (eapply Forall2_length; eauto).
    assert (SP : forall j, (j < length xs)%nat -> score_pos idx l s (Z.of_nat j) = Some (SV1 (nth j xs 0%Q : @num Qops))).
    { intros j Hj. unfold score_pos. rewrite Nat2Z.id. destruct (nth_error l j) as [r|] eqn:E; [|apply nth_error_None in E; lia].
      assert (K : key_at idx (heap s r) = Some (nth j xs 0%Q : @num Qops)).
      { clear - F E. revert j E. induction F as [|r0 x l xs Hx F IH]; intros j E; [destruct j; discriminate|]. destruct j; cbn in *; [inversion E; subst; auto|auto]. }
      unfold key_at in *. destruct idx; [rewrite K; reflexivity|]. destruct (score (heap s r)); try discriminate. inversion K; subst. reflexivity. }
    assert (LK0 : linked idx l s 0 = false).
    { unfold linked. change 0 with (Z.of_nat 0) at 1. rewrite SP by (destruct l; [congruence|cbn in Ln; lia]). cbn [Z.eqb sv_eqb].
      change (@neqb Qops) with Qeq_bool. destruct (Qeq_bool (nth 0 xs 0%Q) (@nofZ Qops (-1))) eqn:E; auto. apply Qeq_bool_iff in E. contradiction. }
    assert (LKS : forall j, (0 < j < length xs)%nat -> linked idx l s (Z.of_nat j) = Qeq_bool (nth j xs 0%Q) (nth (j - 1) xs 0%Q)).
    { intros j Hj. unfold linked. rewrite SP by lia. destruct (Z.eqb_spec (Z.of_nat j) 0); [lia|]. replace (Z.of_nat j - 1) with (Z.of_nat (j - 1)) by lia.
      rewrite SP by lia. reflexivity. }
    apply assign_ranks_ok in H; auto. destruct H as [A H]. split; auto.
    assert (X : forall j, (j < length xs)%nat -> exists w : Q, rank_of idx l s' (Z.of_nat j) = Some (w : @num Qops) /\ (w == mean_position xs (nth j xs 0))%Q).
    { intros j Hj. destruct (H (Z.of_nat j)) as (a & b & (R1 & R2 & R3 & R4 & R5) & Hab & E); [lia|]. eexists. split; [exact E|].
      assert (QR : qrun xs (Z.to_nat a) (Z.to_nat b)).
      { split; [lia|]. split; [|split].
        - intros k Hk. apply Qeq_bool_iff. rewrite <- LKS by lia. apply R3. lia.
        - intros Ha. rewrite <- (Z2Nat.id a) in R4 by lia. rewrite LKS in R4 by lia. intros C. apply Qeq_bool_iff in C. congruence.
        - intros Hb. assert (R5' : linked idx l s b = false) by (apply R5; lia). rewrite <- (Z2Nat.id b) in R5' by lia. rewrite LKS in R5' by lia. intros C. apply Qeq_bool_iff in C. congruence. }
      unfold mean_position. rewrite (qrun_positions xs (Z.to_nat a) (Z.to_nat b)) by (auto; lia).
      pose proof (fold_zrange (Z.to_nat b - Z.to_nat a) (Z.to_nat a)) as FZ. rewrite map_length, seq_length, <- FZ.
      replace (Z.of_nat (Z.to_nat a)) with a by lia. replace (Z.of_nat (Z.to_nat b - Z.to_nat a)) with (b - a) by lia.
      replace (a + (b - a)) with b by lia. unfold run_rank, mid_rank. destruct (Z.eqb_spec (b - a) 1) as [E1|E1].
      - replace b with (a + 1) by lia. replace j with (Z.to_nat a) by lia. rewrite Z2Nat.id by lia.
        rewrite zrange_eq. replace (Z.to_nat (a + 1 - a)) with 1%nat by lia. cbn [seq map fold_left]. replace (a + 1 - a) with 1 by lia.
        replace (0 + (a + Z.of_nat 0) + 1) with (a + 1) by lia. change (@nofZ Qops (a + 1)) with (inject_Z (a + 1)). field.
      - reflexivity. }
    assert (Y : forall k, (k <= length l)%nat -> exists rs : list Q, Forall2 (fun r w => rank_at idx (heap s' r) = Some (w : @num Qops)) (firstn k l) rs /\
      length rs = k /\ forall j, (j < k)%nat -> (nth j rs 0 == mean_position xs (nth j xs 0))%Q).
    { induction k as [|k IH]; intros Hk; [exists []; cbn; repeat split; auto; intros; lia|]. destruct IH as (rs & F' & Lr & E'); [lia|].
      destruct (X k) as (w & Ew & Mw); [lia|]. exists (rs ++ [w]). unfold rank_of in Ew. rewrite Nat2Z.id in Ew. destruct (nth_error l k) as [r|] eqn:Er; [|discriminate].
      split; [|split; [rewrite app_length; cbn; lia|]].
      - assert (Ef : firstn (S k) l = firstn k l ++ [r]).
        { clear - Er. revert k Er. induction l as [|y l IH]; intros k Er; [destruct k; discriminate|]. destruct k; cbn in *; [inversion Er; reflexivity|]. f_equal. apply IH. auto. }
        rewrite Ef. apply Forall2_app; auto.
      - intros j Hj. destruct (Nat.eq_dec j k) as [->|].
        + rewrite app_nth2 by lia. rewrite Lr, Nat.sub_diag. exact Mw.
        + rewrite app_nth1 by lia. apply E'. lia. }
    destruct (Y (length l)) as (rs & F' & Lr & E'); [lia|]. rewrite firstn_all in F'. exists rs. split; auto. split; [congruence|]. intros j Hj. apply E'. lia.
  Qed.
  (** On an ascending list every position belongs to a run, so the mean position is the mid-rank. *)
  Lemma run_exists : forall xs j, (j < length xs)%nat -> exists a b, qrun xs a b /\ (a <= j < b)%nat.
  Proof.
    intros xs j Hj.
    assert (L : exists a, (a <= j)%nat /\ (forall k, (a < k <= j)%nat -> (nth k xs 0 == nth (k - 1) xs 0)%Q) /\ ((0 < a)%nat -> ~ (nth a xs 0 == nth (a - 1) xs 0)%Q)).
    { induction j as [|j IH]; [exists 0%nat; repeat split; intros; lia|]. destruct IH as (a & Ha & A & B); [lia|].
      destruct (Qeq_dec (nth (S j) xs 0%Q) (nth j xs 0%Q)) as [E|E].
      - exists a. split; [lia|]. split; auto. intros k Hk. destruct (Nat.eq_dec k (S j)) as [->|]; [replace (S j - 1)%nat with j by lia; auto|]. apply A. lia.
      - exists (S j). split; [lia|]. split; [intros; lia|]. intros _. replace (S j - 1)%nat with j by lia. auto. }
    assert (R : forall d, (j + d = length xs - 1)%nat -> exists b, (j < b <= length xs)%nat /\ (forall k, (j < k < b)%nat -> (nth k xs 0 == nth (k - 1) xs 0)%Q) /\ ((b < length xs)%nat -> ~ (nth b xs 0 == nth (b - 1) xs 0)%Q)).
    { clear L. intros d. revert j Hj. induction d as [|d IH]; intros j Hj Hd; [exists (S j); repeat split; intros; lia|].
      destruct (Qeq_dec (nth (S j) xs 0%Q) (nth j xs 0%Q)) as [E|E].
      - destruct (IH (S j)) as (b & Hb & A & B); try lia. exists b. split; [lia|]. split; auto. intros k Hk.
        destruct (Nat.eq_dec k (S j)) as [->|]; [replace (S j - 1)%nat with j by lia; auto|]. apply A. lia.
      - exists (S j). split; [lia|]. split; [intros; lia|]. intros _. replace (S j - 1)%nat with j by lia. auto. }
    destruct L as (a & Ha & A & B). destruct (R (length xs - 1 - j)%nat) as (b & Hb & C & D); [lia|]. exists a, b. split; [|lia].
    split; [lia|]. split; [|auto]. intros k Hk. destruct (le_lt_dec k j); [apply A; lia|apply C; lia].
  Qed.
  Lemma mean_is_midrank : forall xs j, qascending xs -> (j < length xs)%nat -> (mean_position xs (nth j xs 0) == midrank xs (nth j xs 0))%Q.
  Proof. intros xs j Asc Hj. destruct (run_exists xs j Hj) as (a & b & R & Hab). eapply qrun_mean; eauto. Qed.
End RankQ.
