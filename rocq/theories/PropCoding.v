(** Properties C01-C08: coding of numbers and real vectors. *)
From Coq Require Import String.
From Coq Require Import ZArith QArith Qabs List Bool Lia Lqa.
From Verif Require Import Spec Num State Binary BinaryProofs CodingProofs.
Import ListNotations.
Open Scope list_scope.
Open Scope Z_scope.
Local Existing Instance Qops.

(** C01.  For every requested number of points the search returns (it never runs out
    of iterations) the least n with 2^n - 1 >= num_points, and 2^n - 1. *)
Theorem C01_bit_allocation : forall num_points, exists n,
  get_real_number_of_points num_points = Some (n, 2 ^ n - 1) /\
  0 <= n /\ num_points <= 2 ^ n - 1 /\
  (forall m, 0 <= m < n -> 2 ^ m - 1 < num_points).
Proof. exact real_number_spec. Qed.
Example C01_example : get_real_number_of_points 1000 = Some (10, 1023).
Proof. reflexivity. Qed.

(** C02.  Values that fit are written with exactly num_bits bits whose base-2 value is
    the value; all others raise. *)
Theorem C02_index_to_binary : forall value num_bits, 0 <= value ->
  (1 <= num_bits /\ value < 2 ^ num_bits ->
     exists bs, index_to_binary value num_bits = inr bs /\
                Z.of_nat (List.length bs) = num_bits /\ base2 bs = value) /\
  (num_bits < 1 \/ 2 ^ num_bits <= value ->
     exists tag, index_to_binary value num_bits = inl (PyException tag)).
Proof.
  intros v n Hv. split.
  - intros [H1 H2]. apply index_to_binary_ok; auto.
  - intros H. eexists. apply index_to_binary_err; auto.
Qed.
(** Hence different values get different strings. *)
Theorem C02_injective : forall v w n bs, 0 <= v -> 0 <= w ->
  index_to_binary v n = inr bs -> index_to_binary w n = inr bs -> v = w.
Proof.
  intros v w n bs Hv Hw E1 E2.
  assert (K : forall u, 0 <= u -> index_to_binary u n = inr bs -> base2 bs = u).
  { intros u Hu E. destruct (C02_index_to_binary u n Hu) as [A B].
    destruct (Z_lt_le_dec n 1); [destruct B as (t & B); [auto|congruence]|].
    destruct (Z_lt_le_dec u (2 ^ n)); [|destruct B as (t & B); [auto|congruence]].
    destruct A as (bs' & A & _ & A'); [auto|]. congruence. }
  rewrite <- (K v), <- (K w); auto.
Qed.
Example C02_example : index_to_binary 5 4 = inr [false; true; false; true]
  /\ (exists tag, index_to_binary 16 4 = inl (PyException tag)).
Proof. split; [reflexivity|eexists; reflexivity]. Qed.

(** C03.  Gray decoding inverts Gray encoding, both ways; codes need no more bits;
    codes of neighbours differ in exactly one position. *)
Theorem C03_gray : forall v, 0 <= v ->
  get_index_from_gray (get_gray_value v) = Some v /\
  (exists w, 0 <= w /\ get_index_from_gray v = Some w /\ get_gray_value w = v) /\
  (forall n, 0 <= n -> v < 2 ^ n -> 0 <= get_gray_value v < 2 ^ n) /\
  (exists i, 0 <= i /\ forall j, 0 <= j ->
     (Z.testbit (get_gray_value v) j <> Z.testbit (get_gray_value (v + 1)) j <-> j = i)).
Proof.
  intros v Hv. split; [apply gray_decode; auto|]. split; [apply gray_encode; auto|].
  split; [intros; apply gray_bound; auto|apply gray_unit_step; auto].
Qed.
Example C03_example : get_gray_value 9 = 13 /\ get_index_from_gray 13 = Some 9.
Proof. split; reflexivity. Qed.

(** Three genes used in the examples: 0..10 step 1/2, -1..1 step 1/3, 2..9 step 2. *)
Definition ex_gens : list qgene := [(0, 10, 1#2); (-(1), 1, 1#3); (2, 9, 2)]%Q.
Lemma ex_gens_legal : Forall legal ex_gens.
Proof. repeat constructor; unfold Qlt, Qle; simpl; lia. Qed.
Definition ex_vec : list Q := [13#5; -(1#7); 9]%Q.
Lemma ex_vec_in : Forall2 in_bounds ex_gens ex_vec.
Proof. repeat constructor; unfold Qlt, Qle; simpl; lia. Qed.

(** C04.  Encoding then decoding any vector in range. *)
Theorem C04_round_trip : forall (is_gray : bool) (gens : list qgene) (xs : list Q),
  Forall legal gens -> Forall2 in_bounds gens xs ->
  exists bp ns bs ys,
    get_gens_params (gens : list bgene) = inr bp /\
    num_bits bp = ns /\ Forall2 bits_for gens ns /\
    float_individ_to_binary is_gray (gens : list bgene) bp xs = inr bs /\
    Z.of_nat (List.length bs) = zsum ns /\
    binary_individ_to_float is_gray (gens : list bgene) bp bs = inr ys /\
    Forall4 nearest_on_grid gens ns xs ys.
Proof. exact round_trip. Qed.
Example C04_example : Forall legal ex_gens /\ Forall2 in_bounds ex_gens ex_vec.
Proof. split; [exact ex_gens_legal|exact ex_vec_in]. Qed.
(** 1/2 lies midway between the grid points 0 and 1 of the gene 0..3 step 1: it becomes
    0; 3/2 becomes 2. *)
Example C04_tie : exists bp ys, get_gens_params ([(0, 3, 1); (0, 3, 1)]%Q : list bgene) = inr bp /\
  float_individ_to_binary false ([(0, 3, 1); (0, 3, 1)]%Q : list bgene) bp [1#2; 3#2]%Q = inr [false; false; true; false] /\
  binary_individ_to_float false ([(0, 3, 1); (0, 3, 1)]%Q : list bgene) bp [false; false; true; false] = inr ys /\ Forall2 Qeq ys [0; 2]%Q.
Proof. eexists. eexists. split; [reflexivity|]. split; [reflexivity|]. split; [reflexivity|]. repeat constructor. Qed.

(** C05.  The decoded vectors are exactly the grid points of the box. *)
Theorem C05_decode_in_bounds : forall (is_gray : bool) (gens : list qgene),
  Forall legal gens ->
  exists bp ns, get_gens_params (gens : list bgene) = inr bp /\
  num_bits bp = ns /\ Forall2 bits_for gens ns /\
  (forall bs, Z.of_nat (List.length bs) = zsum ns -> exists ys,
     binary_individ_to_float is_gray (gens : list bgene) bp bs = inr ys /\
     Forall3 (fun g n y => exists i, 0 <= i <= 2 ^ n - 1 /\ y = grid g n i) gens ns ys /\
     Forall2 in_bounds gens ys) /\
  (forall ys, Forall3 (fun g n y => exists i, 0 <= i <= 2 ^ n - 1 /\ y = grid g n i) gens ns ys ->
     exists bs, Z.of_nat (List.length bs) = zsum ns /\
       binary_individ_to_float is_gray (gens : list bgene) bp bs = inr ys).
Proof. exact decode_total. Qed.
(** The bounds themselves are grid points. *)
Theorem C05_bounds_on_grid : forall lo hi st n, 1 <= n ->
  (grid (lo, hi, st) n 0 == lo)%Q /\ (grid (lo, hi, st) n (2 ^ n - 1) == hi)%Q.
Proof. exact grid_ends. Qed.
Example C05_example : exists bp ys,
  get_gens_params (ex_gens : list bgene) = inr bp /\ num_bits bp = [5; 3; 2] /\
  binary_individ_to_float true (ex_gens : list bgene) bp
    [true; false; false; false; false; true; true; false; false; false] = inr ys /\
  Forall2 Qeq ys [10; 1#7; 2]%Q.
Proof. eexists. eexists. split; [reflexivity|]. split; [reflexivity|]. split; [reflexivity|]. repeat constructor. Qed.

(** C06.  An input individual is rejected exactly when its length or a coordinate is wrong. *)
Theorem C06_input_checked : forall (is_gray : bool) (gens : list qgene) bp (xs : list Q),
  Forall legal gens -> get_gens_params (gens : list bgene) = inr bp ->
  (Forall2 in_bounds gens xs ->
     exists bs, float_individ_to_binary is_gray (gens : list bgene) bp xs = inr bs) /\
  (~ Forall2 in_bounds gens xs ->
     exists tag, float_individ_to_binary is_gray (gens : list bgene) bp xs = inl (PyException tag)).
Proof. exact input_checked. Qed.
Example C06_example : Forall legal ex_gens /\ Forall2 in_bounds ex_gens ex_vec /\
  ~ Forall2 in_bounds ex_gens [11; 0; 3]%Q /\ ~ Forall2 in_bounds ex_gens [1; 0]%Q.
Proof.
  split; [exact ex_gens_legal|]. split; [exact ex_vec_in|]. split.
  - intros H. inversion H; subst. destruct H3 as [_ H3]. unfold Qle in H3. simpl in H3. lia.
  - intros H. inversion H; subst. inversion H5; subst. inversion H7.
Qed.

(** C07.  The effective step, as stored by the library. *)
Theorem C07_precision : forall lo hi st : Q, legal (lo, hi, st) ->
  exists n eff bp, bits_for (lo, hi, st) n /\
    get_gens_params ([(lo, hi, st)] : list bgene) = inr bp /\ real_step bp = [eff] /\
    eff = spacing (lo, hi, st) n /\
    (eff < 2 * st)%Q /\
    ((exists k, (hi - lo) / st == inject_Z k)%Q -> (eff <= st)%Q).
Proof.
  intros lo hi st H. destruct (gene_params_legal _ H) as (n & Hn & E).
  exists n, (spacing (lo, hi, st) n), (@params_of Qops [(n, spacing (lo, hi, st) n)]).
  split; auto. split; [apply get_gens_params_ok; constructor; [exact E|constructor]|].
  split; [reflexivity|]. split; [reflexivity|]. apply spacing_bound; auto.
Qed.
(** Without divisibility the effective step can exceed the requested one: 0..7 step 2
    is coded on two bits with step 7/3. *)
Theorem C07_coarser_refuted : exists lo hi st bp eff, legal (lo, hi, st) /\
  get_gens_params ([(lo, hi, st)] : list bgene) = inr bp /\ real_step bp = [eff] /\ (st < eff)%Q.
Proof.
  exists 0%Q, 7%Q, 2%Q. eexists. eexists. split; [split; unfold Qlt, Qle; simpl; lia|].
  split; [reflexivity|]. split; [reflexivity|]. reflexivity.
Qed.
Example C07_example : legal (0, 10, 1#2)%Q /\ (exists k, (10 - 0) / (1#2) == inject_Z k)%Q.
Proof. split; [split; unfold Qlt, Qle; simpl; lia|]. exists 20. reflexivity. Qed.

(** C08.  A gene with an unusable step makes the preparation of the gene parameters
    raise ZeroDivisionError; genes of all other kinds are accepted. *)
Theorem C08_unusable_rejected : forall gens : list qgene,
  (Exists unusable gens -> get_gens_params (gens : list bgene) = inl ZeroDivisionError) /\
  (~ Exists unusable gens -> exists bp, get_gens_params (gens : list bgene) = inr bp /\
     Forall2 (fun g n => bits_for (ordered_gene g) n) gens (num_bits bp)).
Proof. exact params_exn. Qed.
(** Reversed bounds are accepted; the gene then decodes to lo or above (index 0 alone is
    lo), never to the declared upper bound or below. *)
Theorem C08_reversed_decodes_outside : forall (is_gray : bool) (lo hi st : Q), reversed (lo, hi, st) ->
  exists bp n, get_gens_params ([(lo, hi, st)] : list bgene) = inr bp /\ num_bits bp = [n] /\ 1 <= n /\
    forall bs, Z.of_nat (List.length bs) = n -> exists i y,
      0 <= i <= 2 ^ n - 1 /\ pop_index_to_binary is_gray i n = inr bs /\
      binary_individ_to_float is_gray ([(lo, hi, st)] : list bgene) bp bs = inr [y] /\
      (hi < y)%Q /\ (i = 0 -> (y == lo)%Q) /\ (i <> 0 -> (lo < y)%Q).
Proof.
  intros gray lo hi st R. destruct (reversed_decode gray lo hi st R) as (bp & n & E & Nb & Hn & D).
  exists bp, n. destruct Hn as (Hn1 & _). repeat split; auto. intros bs Lb.
  destruct (D bs Lb) as (i & Hi & Ei & y & Ey & Yv). exists i, y. destruct R as (R1 & R2 & R3).
  pose proof (pow2_posQ n Hn1) as HM. set (M := inject_Z (2 ^ n - 1)) in *.
  assert (Hs : (0 < (lo - hi) / M)%Q) by (apply Qlt_shift_div_l; lra).
  set (s := ((lo - hi) / M)%Q) in *.
  assert (P : (0 <= inject_Z i * s)%Q).
  { apply Qmult_le_0_compat; [|lra]. change 0%Q with (inject_Z 0). rewrite <- Zle_Qle. lia. }
  repeat split; auto; try lia.
  - rewrite Yv. lra.
  - intros ->. rewrite Yv. change (inject_Z 0) with 0%Q. lra.
  - intros Hi0. assert (1 <= inject_Z i)%Q by (change 1%Q with (inject_Z 1); rewrite <- Zle_Qle; lia).
    assert ((1 * s <= inject_Z i * s)%Q) by (apply Qmult_le_compat_r; lra). rewrite Yv. lra.
Qed.
(** Every input individual is rejected when some gene has reversed bounds. *)
Theorem C08_reversed_input_rejected : forall (is_gray : bool) (gens : list qgene) bp (xs : list Q),
  Forall (fun g => legal g \/ reversed g) gens -> Exists reversed gens ->
  get_gens_params (gens : list bgene) = inr bp ->
  exists tag, float_individ_to_binary is_gray (gens : list bgene) bp xs = inl (PyException tag).
Proof. exact reversed_input_rejected. Qed.
Example C08_example : Exists unusable [(0, 1, 1#2); (0, 1, 2)]%Q /\ reversed (5, 0, 1)%Q /\
  Exists reversed [(0, 1, 1#2); (5, 0, 1)]%Q /\ unusable (0, 1, 0)%Q /\ unusable (0, 1, -(1))%Q.
Proof.
  assert (reversed (5, 0, 1)%Q) by (repeat split; unfold Qlt, Qle; simpl; lia).
  repeat split; try (unfold Qlt, Qle; simpl; lia).
  - apply Exists_cons_tl, Exists_cons_hd. right. reflexivity.
  - apply Exists_cons_tl, Exists_cons_hd. auto.
  - left. unfold Qle; simpl; lia.
  - left. unfold Qle; simpl; lia.
Qed.

Print Assumptions C01_bit_allocation.
Print Assumptions C02_index_to_binary.
Print Assumptions C02_injective.
Print Assumptions C03_gray.
Print Assumptions C04_round_trip.
Print Assumptions C05_decode_in_bounds.
Print Assumptions C05_bounds_on_grid.
Print Assumptions C06_input_checked.
Print Assumptions C07_precision.
Print Assumptions C07_coarser_refuted.
Print Assumptions C08_unusable_rejected.
Print Assumptions C08_reversed_decodes_outside.
Print Assumptions C08_reversed_input_rejected.
