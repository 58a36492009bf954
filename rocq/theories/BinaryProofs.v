(** Proofs about the binary and Gray coding (Binary.v). *)
From Coq Require Import ZArith QArith Qround Qabs List Bool String Lia Lqa Permutation.
From Verif Require Import Spec Num State Binary ListLemmas.
Import ListNotations.
Open Scope list_scope.
Open Scope Z_scope.

(** *** get_real_number_of_points *)
Lemma grnp_loop_spec : forall fuel n k,
  0 <= n -> k <= 2 ^ (n + Z.of_nat fuel - 1) - 1 -> (fuel > 0)%nat ->
  exists m, grnp_loop fuel n k = Some m /\ n <= m /\ k <= 2 ^ m - 1 /\
            (forall j, n <= j < m -> 2 ^ j - 1 < k).
Proof.
  induction fuel; intros n k Hn Hk Hf; [lia|]. cbn [grnp_loop].
  destruct (2 ^ n - 1 <? k) eqn:E.
  - apply Z.ltb_lt in E. destruct fuel.
    + replace (n + Z.of_nat 1 - 1) with n in Hk by lia. lia.
    + destruct (IHfuel (n + 1) k) as (m & E1 & H1 & H2 & H3); try lia.
      { replace (n + 1 + Z.of_nat (S fuel) - 1) with (n + Z.of_nat (S (S fuel)) - 1) by lia. auto. }
      exists m. split; [exact E1|]. split; [lia|]. split; [auto|].
      intros j Hj. destruct (Z.eq_dec j n) as [->|]; [lia|]. apply H3. lia.
  - apply Z.ltb_ge in E. exists n. split; [auto|]. split; [lia|]. split; [lia|]. intros; lia.
Qed.

Lemma real_number_spec : forall k, exists n,
  get_real_number_of_points k = Some (n, 2 ^ n - 1) /\ 0 <= n /\ k <= 2 ^ n - 1 /\
  (forall j, 0 <= j < n -> 2 ^ j - 1 < k).
Proof.
  intros k. unfold get_real_number_of_points.
  destruct (grnp_loop_spec (S (Z.to_nat (Z.log2 k + 1))) 0 k) as (m & E & H1 & H2 & H3); try lia.
  - replace (0 + Z.of_nat (S (Z.to_nat (Z.log2 k + 1))) - 1) with (Z.log2 k + 1)
      by (pose proof (Z.log2_nonneg k); lia).
    destruct (Z_le_gt_dec k 0).
    + pose proof (Z.pow_pos_nonneg 2 (Z.log2 k + 1)). pose proof (Z.log2_nonneg k). lia.
    + pose proof (Z.log2_spec k). rewrite <- Z.add_1_r in H. lia.
  - exists m. rewrite E. auto.
Qed.

Lemma real_number_unique : forall k n m,
  0 <= n -> k <= 2 ^ n - 1 -> (forall j, 0 <= j < n -> 2 ^ j - 1 < k) ->
  0 <= m -> k <= 2 ^ m - 1 -> (forall j, 0 <= j < m -> 2 ^ j - 1 < k) -> n = m.
Proof.
  intros k n m H1 H2 H3 H4 H5 H6. destruct (Z.lt_total n m) as [H|[H|H]]; auto.
  - specialize (H6 n). lia.
  - specialize (H3 m). lia.
Qed.

(** *** Bit strings *)
Lemma base2_bound : forall bs, 0 <= base2 bs < 2 ^ Z.of_nat (List.length bs).
Proof.
  induction bs as [|b bs IH]; [simpl; lia|].
  cbn [base2 List.length]. rewrite Nat2Z.inj_succ, Z.pow_succ_r by lia.
  destruct b; lia.
Qed.
Lemma base2_app : forall a b, base2 (a ++ b) = base2 a * 2 ^ Z.of_nat (List.length b) + base2 b.
Proof.
  induction a as [|x a IH]; intros b; [simpl; lia|].
  cbn [base2 app]. rewrite IH, app_length, Nat2Z.inj_add, Z.pow_add_r by lia.
  destruct x; lia.
Qed.
Lemma base2_inj : forall a b, List.length a = List.length b -> base2 a = base2 b -> a = b.
Proof.
  induction a as [|x a IH]; intros [|y b] Hl He; simpl in Hl; try lia; auto.
  cbn [base2] in He. injection Hl as Hl. pose proof (base2_bound a). pose proof (base2_bound b).
  rewrite Hl in *. destruct x, y; try lia; f_equal; apply IH; auto; lia.
Qed.
Lemma bits_val_gen : forall bs acc,
  fold_left (fun acc (b : bool) => 2 * acc + (if b then 1 else 0)) bs acc
  = acc * 2 ^ Z.of_nat (List.length bs) + base2 bs.
Proof.
  induction bs as [|b bs IH]; intros acc; [simpl; lia|].
  cbn [fold_left base2 List.length]. rewrite IH, Nat2Z.inj_succ, Z.pow_succ_r by lia.
  destruct b; lia.
Qed.
Lemma bits_val_base2 : forall bs, bits_val bs = base2 bs.
Proof. intros. unfold bits_val. rewrite bits_val_gen. lia. Qed.

Lemma pos_bits_val : forall p, base2 (pos_bits p) = Zpos p.
Proof.
  induction p; cbn [pos_bits]; [| |reflexivity]; rewrite base2_app, IHp; cbn [base2 List.length]; simpl; lia.
Qed.
Lemma pos_bits_len : forall p, 2 ^ (Z.of_nat (List.length (pos_bits p)) - 1) <= Zpos p.
Proof.
  induction p; cbn [pos_bits]; [| |simpl; lia];
  rewrite app_length; cbn [List.length];
  (assert (H : (List.length (pos_bits p) > 0)%nat)
    by (destruct (pos_bits p) eqn:E; [pose proof (pos_bits_val p) as V; rewrite E in V; simpl in V; lia|simpl; lia]));
  replace (Z.of_nat (List.length (pos_bits p) + 1) - 1) with (Z.succ (Z.of_nat (List.length (pos_bits p)) - 1)) by lia;
  rewrite Z.pow_succ_r by lia; lia.
Qed.
Lemma bin_str_val : forall v, 0 <= v -> base2 (bin_str v) = v.
Proof. intros [|p|p] H; [reflexivity|apply pos_bits_val|lia]. Qed.
Lemma bin_str_fits : forall v n, 0 <= v -> 1 <= n -> (Z.of_nat (List.length (bin_str v)) <= n <-> v < 2 ^ n).
Proof.
  intros v n Hv Hn. pose proof (base2_bound (bin_str v)) as B. rewrite bin_str_val in B by auto. split.
  - intros H. assert (2 ^ Z.of_nat (List.length (bin_str v)) <= 2 ^ n) by (apply Z.pow_le_mono_r; lia). lia.
  - intros H. destruct v as [|p|p]; [simpl; lia| |lia]. cbn [bin_str].
    pose proof (pos_bits_len p) as L.
    assert (2 ^ (Z.of_nat (List.length (pos_bits p)) - 1) < 2 ^ n) by lia.
    apply Z.pow_lt_mono_r_iff in H0; lia.
Qed.
Lemma bin_str_len_pos : forall v, (List.length (bin_str v) > 0)%nat.
Proof.
  intros [|p|p]; simpl; try lia. destruct (pos_bits p) eqn:E; [|simpl; lia].
  pose proof (pos_bits_val p) as V. rewrite E in V. simpl in V. lia.
Qed.
Lemma base2_zeros : forall n bs, base2 (repeat false n ++ bs) = base2 bs.
Proof. induction n; intros; simpl; auto. Qed.

Lemma index_to_binary_ok : forall v n, 1 <= n -> 0 <= v < 2 ^ n ->
  exists bs, index_to_binary v n = inr bs /\ Z.of_nat (List.length bs) = n /\ base2 bs = v.
Proof.
  intros v n Hn Hv. unfold index_to_binary.
  destruct (v <? 0) eqn:E0; [apply Z.ltb_lt in E0; lia|].
  assert (Hf : Z.of_nat (List.length (bin_str v)) <= n) by (apply bin_str_fits; lia).
  destruct (n <? _) eqn:E1; [apply Z.ltb_lt in E1; lia|].
  destruct (_ <? n) eqn:E2.
  - apply Z.ltb_lt in E2. eexists. split; [reflexivity|]. split.
    + rewrite app_length, repeat_length. lia.
    + rewrite base2_zeros, bin_str_val; lia.
  - apply Z.ltb_ge in E2. eexists. split; [reflexivity|]. split; [lia|apply bin_str_val; lia].
Qed.
Lemma index_to_binary_err : forall v n, 0 <= v -> (n < 1 \/ 2 ^ n <= v) ->
  index_to_binary v n = inl (PyException "cannot convert to binary"%string).
Proof.
  intros v n Hv H. unfold index_to_binary.
  destruct (v <? 0) eqn:E0; [apply Z.ltb_lt in E0; lia|].
  assert (Hl : n < Z.of_nat (List.length (bin_str v))).
  { pose proof (bin_str_len_pos v). destruct H as [H|H]; [lia|].
    destruct (Z_lt_le_dec n 1); [lia|].
    destruct (Z_lt_le_dec n (Z.of_nat (List.length (bin_str v)))); auto.
    apply bin_str_fits in l0; lia. }
  destruct (n <? _) eqn:E1; [auto|apply Z.ltb_ge in E1; lia].
Qed.

(** *** Gray code *)
Lemma gray_shift : forall v, Z.shiftr (get_gray_value v) 1 = get_gray_value (Z.shiftr v 1).
Proof. intros. unfold get_gray_value. apply Z.shiftr_lxor. Qed.
Lemma gray_xor : forall a b, get_gray_value (Z.lxor a b) = Z.lxor (get_gray_value a) (get_gray_value b).
Proof.
  intros. unfold get_gray_value. rewrite Z.shiftr_lxor. apply Z.bits_inj'. intros n Hn.
  rewrite !Z.lxor_spec. destruct (Z.testbit a n), (Z.testbit b n), (Z.testbit (Z.shiftr a 1) n),
    (Z.testbit (Z.shiftr b 1) n); reflexivity.
Qed.
Lemma shiftr1_bound : forall v n, 0 <= v < 2 ^ (Z.of_nat (S n)) -> 0 <= Z.shiftr v 1 < 2 ^ Z.of_nat n.
Proof.
  intros v n H. rewrite Z.shiftr_div_pow2 by lia. change (2 ^ 1) with 2.
  rewrite Nat2Z.inj_succ, Z.pow_succ_r in H by lia.
  split; [apply Z.div_pos; lia|apply Z.div_lt_upper_bound; lia].
Qed.
Lemma gray_nonneg : forall v, 0 <= v -> 0 <= get_gray_value v.
Proof.
  intros. unfold get_gray_value. apply Z.lxor_nonneg. split; intros; [apply Z.shiftr_nonneg; auto|auto].
Qed.
Lemma gray_zero : forall v, 0 <= v -> get_gray_value v = 0 -> v = 0.
Proof.
  intros v Hv H. unfold get_gray_value in H. apply Z.lxor_eq in H.
  rewrite Z.shiftr_div_pow2 in H by lia. change (2 ^ 1) with 2 in H.
  destruct (Z.eq_dec v 0); auto. pose proof (Z.div_lt v 2). lia.
Qed.
Lemma lxor_bound : forall a b n, 0 <= n -> 0 <= a < 2 ^ n -> 0 <= b < 2 ^ n -> 0 <= Z.lxor a b < 2 ^ n.
Proof.
  intros a b n Hn Ha Hb. assert (H0 : 0 <= Z.lxor a b) by (apply Z.lxor_nonneg; lia).
  split; auto. destruct (Z.eq_dec (Z.lxor a b) 0) as [->|Hz]; [apply Z.pow_pos_nonneg; lia|].
  apply Z.log2_lt_pow2; [lia|].
  destruct (Z.eq_dec a 0) as [->|Ha0].
  { rewrite Z.lxor_0_l in *. apply Z.log2_lt_pow2; lia. }
  destruct (Z.eq_dec b 0) as [->|Hb0].
  { rewrite Z.lxor_0_r in *. apply Z.log2_lt_pow2; lia. }
  pose proof (Z.log2_lxor a b). assert (Z.log2 a < n) by (apply Z.log2_lt_pow2; lia).
  assert (Z.log2 b < n) by (apply Z.log2_lt_pow2; lia). lia.
Qed.
Lemma gray_bound : forall v n, 0 <= n -> 0 <= v < 2 ^ n -> 0 <= get_gray_value v < 2 ^ n.
Proof.
  intros v n Hn Hv. unfold get_gray_value. apply lxor_bound; auto.
  rewrite Z.shiftr_div_pow2 by lia. change (2 ^ 1) with 2. split; [apply Z.div_pos; lia|].
  pose proof (Z.div_le_upper_bound v 2 v). lia.
Qed.

Lemma gray_loop_decode : forall fuel v acc, 0 <= v < 2 ^ Z.of_nat fuel -> 
  gray_loop (S fuel) acc (get_gray_value v) = Some (Z.lxor acc v).
Proof.
  induction fuel; intros v acc Hv.
  - assert (v = 0) by (simpl in Hv; lia). subst. simpl. rewrite Z.lxor_0_r. reflexivity.
  - cbn [gray_loop]. destruct (0 <? get_gray_value v) eqn:E.
    + rewrite gray_shift. pose proof (shiftr1_bound v fuel Hv) as Hs.
      specialize (IHfuel (Z.shiftr v 1) (Z.lxor acc (get_gray_value v)) Hs).
      cbn [gray_loop] in IHfuel. rewrite IHfuel. f_equal. unfold get_gray_value.
      apply Z.bits_inj'. intros n Hn. rewrite !Z.lxor_spec.
      destruct (Z.testbit acc n), (Z.testbit v n), (Z.testbit (Z.shiftr v 1) n); reflexivity.
    + apply Z.ltb_ge in E. pose proof (gray_nonneg v). rewrite (gray_zero v) by lia.
      rewrite Z.lxor_0_r. reflexivity.
Qed.

Lemma log2_fuel : forall g, 0 <= g -> g < 2 ^ Z.of_nat (Z.to_nat (Z.log2 g + 1)).
Proof.
  intros g Hg. pose proof (Z.log2_nonneg g). rewrite Z2Nat.id by lia.
  destruct (Z.eq_dec g 0) as [->|]; [reflexivity|].
  pose proof (Z.log2_spec g). rewrite <- Z.add_1_r in H0. lia.
Qed.

(** Every number is a Gray code. *)
Lemma gray_onto : forall n g, 0 <= g < 2 ^ Z.of_nat n -> exists v, 0 <= v < 2 ^ Z.of_nat n /\ get_gray_value v = g.
Proof.
  induction n; intros g Hg.
  - exists 0. simpl in *. split; [lia|]. cbn. lia.
  - destruct (IHn (Z.shiftr g 1)) as (u & Hu & E); [apply shiftr1_bound; auto|].
    assert (Hsh : Z.shiftr (Z.lxor g u) 1 = u).
    { rewrite Z.shiftr_lxor, <- E. unfold get_gray_value.
      apply Z.bits_inj'. intros k Hk. rewrite !Z.lxor_spec.
      destruct (Z.testbit u k), (Z.testbit (Z.shiftr u 1) k); reflexivity. }
    exists (Z.lxor g u). split.
    + apply lxor_bound; [lia|auto|]. rewrite Nat2Z.inj_succ, Z.pow_succ_r by lia. lia.
    + unfold get_gray_value. rewrite Hsh. apply Z.bits_inj'. intros k Hk. rewrite !Z.lxor_spec.
      destruct (Z.testbit g k), (Z.testbit u k); reflexivity.
Qed.

Lemma gray_bits : forall g v, 0 <= g -> 0 <= v -> get_gray_value v = g -> v < 2 ^ (Z.log2 g + 1).
Proof.
  intros g v Hg Hv E.
  assert (Hb : g < 2 ^ (Z.log2 g + 1)).
  { pose proof (log2_fuel g Hg) as H. rewrite Z2Nat.id in H; auto. pose proof (Z.log2_nonneg g). lia. }
  pose proof (Z.log2_nonneg g).
  destruct (gray_onto (Z.to_nat (Z.log2 g + 1)) g) as (u & Hu & Eu); [rewrite Z2Nat.id by lia; lia|].
  rewrite Z2Nat.id in Hu by lia.
  assert (Z.lxor u v = 0).
  { apply gray_zero; [apply Z.lxor_nonneg; lia|]. rewrite gray_xor, E, Eu. apply Z.lxor_nilpotent. }
  apply Z.lxor_eq in H0. lia.
Qed.

Lemma gray_decode : forall v, 0 <= v -> get_index_from_gray (get_gray_value v) = Some v.
Proof.
  intros v Hv. unfold get_index_from_gray.
  pose proof (gray_nonneg v Hv). pose proof (Z.log2_nonneg (get_gray_value v)).
  rewrite gray_loop_decode; [rewrite Z.lxor_0_l; reflexivity|].
  rewrite Z2Nat.id by lia. split; auto. apply gray_bits; auto.
Qed.
Lemma gray_encode : forall g, 0 <= g -> exists v, 0 <= v /\ get_index_from_gray g = Some v /\ get_gray_value v = g.
Proof.
  intros g Hg. destruct (gray_onto (Z.to_nat (Z.log2 g + 1)) g) as (v & Hv & E); [split; auto; apply log2_fuel; auto|].
  exists v. split; [lia|]. split; auto. rewrite <- E. apply gray_decode. lia.
Qed.
Lemma gray_decode_bound : forall g n, 0 <= n -> 0 <= g < 2 ^ n ->
  exists v, get_index_from_gray g = Some v /\ 0 <= v < 2 ^ n /\ get_gray_value v = g.
Proof.
  intros g n Hn Hg. destruct (gray_onto (Z.to_nat n) g) as (v & Hv & E); [rewrite Z2Nat.id; lia|].
  rewrite Z2Nat.id in Hv by lia. exists v. split; auto. rewrite <- E. apply gray_decode. lia.
Qed.

Lemma lxor_succ : forall v, 0 <= v -> exists k, 0 <= k /\ Z.lxor v (v + 1) = Z.ones (k + 1).
Proof.
  intros v Hv. destruct v as [|p|p]; [exists 0; split; [lia|reflexivity]| |lia]. clear Hv.
  induction p.
  - destruct IHp as (k & Hk & IH). exists (k + 1). split; [lia|].
    replace (Z.pos p~1) with (2 * Z.pos p + 1) in * by lia.
    replace (2 * Z.pos p + 1 + 1) with (2 * (Z.pos p + 1)) by lia.
    apply Z.bits_inj'. intros n Hn. rewrite Z.lxor_spec.
    destruct (Z.eq_dec n 0) as [->|Hn0].
    + rewrite Z.testbit_odd_0, Z.testbit_even_0. rewrite Z.ones_spec_low by lia. reflexivity.
    + replace n with (Z.succ (n - 1)) by lia. rewrite Z.testbit_odd_succ, Z.testbit_even_succ by lia.
      rewrite <- Z.lxor_spec, IH. destruct (Z_lt_le_dec (n - 1) (k + 1)).
      * rewrite !Z.ones_spec_low by lia. reflexivity.
      * rewrite !Z.ones_spec_high by lia. reflexivity.
  - exists 0. split; [lia|]. replace (Z.pos p~0) with (2 * Z.pos p) by lia.
    apply Z.bits_inj'. intros n Hn. rewrite Z.lxor_spec.
    destruct (Z.eq_dec n 0) as [->|Hn0].
    + rewrite Z.testbit_odd_0, Z.testbit_even_0. reflexivity.
    + replace n with (Z.succ (n - 1)) by lia. rewrite Z.testbit_odd_succ, Z.testbit_even_succ by lia.
      rewrite xorb_nilpotent, Z.ones_spec_high by lia. reflexivity.
  - exists 1. split; [lia|reflexivity].
Qed.
Lemma gray_unit_step : forall v, 0 <= v -> exists i, 0 <= i /\
  forall j, 0 <= j -> (Z.testbit (get_gray_value v) j <> Z.testbit (get_gray_value (v + 1)) j <-> j = i).
Proof.
  intros v Hv. destruct (lxor_succ v Hv) as (k & Hk & E). exists k. split; auto.
  intros j Hj.
  assert (Hx : Z.lxor (get_gray_value v) (get_gray_value (v + 1)) = 2 ^ k).
  { rewrite <- gray_xor, E. unfold get_gray_value. apply Z.bits_inj'. intros n Hn.
    rewrite Z.lxor_spec, Z.shiftr_spec by lia. rewrite Z.pow2_bits_eqb by lia.
    destruct (Z.lt_total n k) as [H|[H|H]].
    - rewrite !Z.ones_spec_low by lia. destruct (Z.eqb_spec k n); [lia|reflexivity].
    - subst. rewrite Z.ones_spec_low, Z.ones_spec_high by lia. rewrite Z.eqb_refl. reflexivity.
    - rewrite !Z.ones_spec_high by lia. destruct (Z.eqb_spec k n); [lia|reflexivity]. }
  assert (Hb : xorb (Z.testbit (get_gray_value v) j) (Z.testbit (get_gray_value (v + 1)) j) = Z.eqb k j).
  { rewrite <- Z.lxor_spec, Hx. apply Z.pow2_bits_eqb. lia. }
  destruct (Z.eqb_spec k j) as [->|Hne].
  - split; auto. intros _ Heq. rewrite Heq, xorb_nilpotent in Hb. discriminate.
  - split; [|intros; lia]. intros H. exfalso. apply H. apply xorb_eq. auto.
Qed.
