(** Statement C73: with an ideal generator, generated individuals, crossovers and
    permutation moves are equally likely ([even], [chance]: Chance.v). *)
From Coq Require Import ZArith QArith List Bool Lia Lqa Permutation.
From Verif Require Import Spec Num State Binary Population GaData Crossover Mutation
  ListLemmas Rnd Exec Laws BinaryProofs CodingProofs PopulationProofs CrossoverProofs MutationProofs Chance ChanceProofs Demo.
Import ListNotations.
Open Scope Z_scope.

Section Uniform.
  Context {NO : NumOps}.

  (** The probability of an event of the returned value is determined by the computation. *)
  Theorem C73_unique : forall {A} (m : M A) s (P : A -> bool) p q, chance m s (returns P) p -> chance m s (returns P) q -> (p == q)%Q.
  Proof. intros A m s P p q. apply averages_unique. apply indicator_blind. Qed.
  (** What [even] says about a single value: its probability is its share of the list. *)
  Theorem C73_share : forall {A} (m : M A) l s (P : A -> bool), even m l ->
    chance m s (returns P) (inject_Z (Z.of_nat (length (filter P l))) / inject_Z (Z.of_nat (length l))).
  Proof.
    intros A m l s P [_ E]. eapply averages_eq; [|apply E]. unfold mean. rewrite map_length.
    assert (X : (qsum_of (map (fun a => indicator (returns P (Ok a s))) l) == inject_Z (Z.of_nat (length (filter P l))))%Q).
    { clear. induction l as [|a l IH]; [reflexivity|]. cbn [map qsum_of filter returns]. rewrite IH. destruct (P a); cbn [indicator length]; [|ring].
      rewrite Nat2Z.inj_succ. unfold Z.succ. rewrite inject_Z_plus. ring. }
    rewrite X. reflexivity.
  Qed.

  Lemma qsum_indicator : forall {A} (P : A -> bool) l, (qsum_of (map (fun a => indicator (P a)) l) == inject_Z (Z.of_nat (length (filter P l))))%Q.
  Proof.
    intros A P l. induction l as [|a l IH]; [reflexivity|]. cbn [map qsum_of filter]. rewrite IH. destruct (P a); cbn [indicator length]; [|ring].
    rewrite Nat2Z.inj_succ. unfold Z.succ. rewrite inject_Z_plus. ring.
  Qed.

  (** *** Generated individuals *)
  Lemma products_flip : forall gray n, 1 <= n -> exists code : Z -> list bool, (forall v, 0 <= v < 2 ^ n -> pop_index_to_binary gray v n = inr (code v)) /\
    Permutation (map code (zrange 0 (2 ^ n))) (products (repeat [false; true] (Z.to_nat n))).
  Proof.
    intros gray n Hn. exists (fun v => match pop_index_to_binary gray v n with inr b => b | inl _ => [] end).
    assert (E : forall v, 0 <= v < 2 ^ n -> exists b, pop_index_to_binary gray v n = inr b /\ Z.of_nat (length b) = n).
    { intros v Hv. destruct (code_ok gray v n Hn Hv) as (b & E & L & _). eauto. }
    split; [intros v Hv; destruct (E v Hv) as (b & -> & _); reflexivity|].
    apply NoDup_Permutation.
    - (* no code word occurs twice: the 2^n words cover all strings *)
      assert (In_all : forall b, Z.of_nat (length b) = n -> In b (map (fun v => match pop_index_to_binary gray v n with inr b => b | inl _ => [] end) (zrange 0 (2 ^ n)))).
      { intros b L. destruct (code_surj gray n b Hn L) as (v & Hv & Ev). apply in_map_iff. exists v. rewrite Ev. split; auto. apply in_zrange; lia. }
      apply NoDup_incl_NoDup with (l := products (repeat [false; true] (Z.to_nat n))).
      + apply nodup_products. apply Forall_forall. intros l Hl. apply repeat_spec in Hl. subst. repeat constructor; cbn; intuition discriminate.
      + rewrite map_length, zrange_length, products_count, Z.sub_0_r. cbn [length]. rewrite <- (Z2Nat.id n) at 1 by lia. rewrite <- (Nat2Z.id (2 ^ Z.to_nat n)), Nat2Z.inj_pow. cbn. lia.
      + intros b Hb. apply In_all. apply in_products in Hb. apply Forall2_length in Hb. rewrite repeat_length in Hb. lia.
    - apply nodup_products. apply Forall_forall. intros l Hl. apply repeat_spec in Hl. subst. repeat constructor; cbn; intuition discriminate.
    - intros b. rewrite in_map_iff, in_products. split.
      + intros (v & <- & Hv). apply in_zrange in Hv. destruct (E v ltac:(lia)) as (b' & -> & L).
        assert (L' : length b' = Z.to_nat n) by lia. rewrite <- L'. clear. induction b' as [|x b' IH]; constructor; auto. destruct x; cbn; auto.
      + intros H. apply Forall2_length in H. rewrite repeat_length in H. destruct (code_surj gray n b Hn ltac:(lia)) as (v & Hv & Ev).
        exists v. rewrite Ev. split; auto. apply in_zrange; lia.
  Qed.
  Lemma even_binary : forall gray ns, Forall (fun n => 1 <= n) ns ->
    even (gen_binary_loop gray (combine (map (fun n => 2 ^ n - 1) ns) ns)) (products (repeat [false; true] (Z.to_nat (zsum ns)))).
  Proof.
    intros gray ns H. induction H as [|n ns Hn H IH]; cbn [map combine gen_binary_loop zsum]; [apply even_ret|].
    destruct (products_flip gray n Hn) as (code & Ec & Pm). assert (Zn : 0 <= zsum ns) by (clear - H; induction H; cbn [zsum]; lia).
    rewrite Z2Nat.inj_add by lia. rewrite repeat_app, products_app. eapply even_perm; [|apply Permutation_flat_map; exact Pm].
    rewrite flat_map_map. assert (P2 : 0 < 2 ^ n) by (apply Z.pow_pos_nonneg; lia). replace (2 ^ n) with (2 ^ n - 1 + 1) at 2 by lia.
    apply even_bind with (n := length (products (repeat [false; true] (Z.to_nat (zsum ns))))); [apply even_randint; lia| |intros; apply map_length].
    intros v Hv. apply in_zrange in Hv. eapply even_same; [apply (even_map (gen_binary_loop gray (combine (map (fun n => 2 ^ n - 1) ns) ns)) (app (code v))); exact IH|].
    intros s. unfold bind, lift. rewrite (Ec v ltac:(lia)). reflexivity.
  Qed.
  (** Binary populations: every bit string of the declared length has the same
      probability 2^-length. *)
  Theorem C73_binary : forall gray gens bp0 g, neqb (nofZ 0) nzero = true -> prepare (GenBinary gray gens bp0) = inr g ->
    exists bp, get_gens_params gens = inr bp /\ even (get_generated_individ g) (products (repeat [GBit false; GBit true] (Z.to_nat (zsum (num_bits bp))))).
  Proof.
    intros gray gens bp0 g Z0 H. destruct (prepared_usable gray gens bp0 g Z0 H) as (bp & -> & U & _).
    exists bp. cbn [prepare] in H. destruct (get_gens_params gens); [discriminate|]. inversion H; subst. split; auto.
    destruct U as [F Er]. cbn [get_generated_individ]. rewrite Er.
    assert (X : products (repeat [GBit false; GBit true] (Z.to_nat (zsum (num_bits bp)))) = map bits_to_geno (products (repeat [false; true] (Z.to_nat (zsum (num_bits bp)))))).
    { generalize (Z.to_nat (zsum (num_bits bp))). intros n. induction n as [|n IH]; auto. cbn [repeat products flat_map]. rewrite IH, !app_nil_r, !map_app, !map_map. reflexivity. }
    rewrite X. apply even_map. apply even_binary. exact F.
  Qed.
  (** Ordered values: every arrangement of k of the values a .. b. *)
  Theorem C73_ordered : forall a b k, 0 <= k <= Z.max 0 (b - a + 1) ->
    even (get_generated_individ (GenOrd a b k)) (map (map GInt) (arrangements (Z.to_nat k) (zrange a (b + 1)))).
  Proof. intros a b k H. cbn [get_generated_individ]. apply even_map. apply even_sample. rewrite zrange_length_Z. lia. Qed.
  (** Categorical values: independent genes, each entry of its pool. *)
  Theorem C73_categorical : forall gens, Forall pool_usable gens -> even (get_generated_individ (GenCat gens)) (products (map pool_values gens)).
  Proof.
    intros gens H. cbn [get_generated_individ]. apply even_mmap. rewrite Forall_forall in H. intros p Hp. specialize (H p Hp).
    destruct p as [a b stp|l|]; cbn [gen_cat1 pool_usable pool_values] in *; [| |destruct H].
    - assert (Hs : stp <> 0) by lia. apply even_map. unfold randrange. destruct (stp =? 0) eqn:E; [apply Z.eqb_eq in E; lia|].
      assert (Pl : 0 < range_len a (b + 1) stp). { apply range_len_pos; auto. destruct (0 <? stp) eqn:E0; [apply Z.ltb_lt in E0|apply Z.ltb_ge in E0]; lia. }
      destruct (range_len a (b + 1) stp <=? 0) eqn:E1; [apply Z.leb_le in E1; lia|].
      assert (X : py_range a (b + 1) stp = map (fun i => a + i * stp) (below (range_len a (b + 1) stp))) by (unfold py_range, below; rewrite map_map; reflexivity).
      rewrite X. apply even_map. apply even_draw. exact Pl.
    - apply even_choice; auto.
  Qed.

  (** *** Crossovers *)
  Theorem C73_one_point : forall (p1 p2 : list gv) n, length p1 = n -> length p2 = n -> (2 <= n)%nat ->
    even (one_point (Z.of_nat n) p1 p2) (map (fun k => (firstn k p1 ++ skipn k p2, firstn k p2 ++ skipn k p1)) (seq 1 (n - 1))).
  Proof.
    intros p1 p2 n L1 L2 Hn. unfold one_point.
    assert (X : map (fun k => (firstn k p1 ++ skipn k p2, firstn k p2 ++ skipn k p1)) (seq 1 (n - 1)) =
      map (fun i => (slice_to p1 i ++ slice_from p2 i, slice_to p2 i ++ slice_from p1 i)) (zrange 1 (Z.of_nat n - 1 + 1))).
    { replace (zrange 1 (Z.of_nat n - 1 + 1)) with (map Z.of_nat (seq 1 (n - 1))) by (rewrite <- seq_zrange; f_equal; lia).
      rewrite map_map. apply map_ext_in. intros k Hk. apply in_seq in Hk.
      rewrite !slice_to_in, !slice_from_in, Nat2Z.id by lia. reflexivity. }
    rewrite X. apply even_map. apply even_randint. lia.
  Qed.
  Lemma range_seq : forall a n, (a <= n)%nat -> zrange (Z.of_nat a) (Z.of_nat n) = map Z.of_nat (seq a (n - a)).
  Proof. intros a n H. rewrite <- seq_zrange. do 2 f_equal. lia. Qed.
  Definition ends (l : list Z) : Z * Z := match l with [a; b] => if b <? a then (b, a) else (a, b) | _ => (0, 0) end.
  Lemma arrangements_two : forall {A} (l : list A) x, In x (arrangements 2 l) -> length x = 2%nat.
  Proof.
    intros A l x Hx. apply (Permutation_in _ (arrangements_2 _)) in Hx. apply in_app_or in Hx.
    destruct Hx as [Hx|Hx]; apply in_map_iff in Hx; destruct Hx as (p & <- & _); reflexivity.
  Qed.
  Lemma ends_pairs : forall a n, Permutation (map ends (arrangements 2 (map Z.of_nat (seq a n))))
    (let l := map (fun p => (Z.of_nat (fst p), Z.of_nat (snd p))) (pairs (seq a n)) in l ++ l).
  Proof.
    intros a n. eapply Permutation_trans; [apply Permutation_map, arrangements_2|]. rewrite map_app, pairs_map, !map_map. cbn [fst snd].
    assert (A : forall p, In p (pairs (seq a n)) -> (fst p < snd p)%nat) by (intros [i j] Hp; apply in_pairs_seq in Hp; cbn; lia).
    apply Permutation_app; match goal with |- Permutation ?a ?b => replace a with b; [apply Permutation_refl|] end; apply map_ext_in; intros p Hp; apply A in Hp; unfold ends.
    + destruct (Z.ltb_spec (Z.of_nat (snd p)) (Z.of_nat (fst p))); [lia|reflexivity].
    + destruct (Z.ltb_spec (Z.of_nat (fst p)) (Z.of_nat (snd p))); [reflexivity|lia].
  Qed.
  Lemma even_segment : forall n, (3 <= n)%nat -> even (get_idx_segment (Z.of_nat n)) (map (fun p => (Z.of_nat (fst p), Z.of_nat (snd p))) (pairs (seq 1 (n - 1)))).
  Proof.
    intros n Hn. apply even_half. unfold get_idx_segment.
    assert (Z1 : zrange 1 (Z.of_nat n) = map Z.of_nat (seq 1 (n - 1))) by (apply (range_seq 1); lia).
    eapply even_perm; [|apply (ends_pairs 1 (n - 1))]. rewrite Z1.
    apply even_map_in; [apply (even_sample _ 2); rewrite map_length, seq_length; lia|].
    intros l Hl. apply arrangements_two in Hl. destruct l as [|a [|b [|]]]; try discriminate Hl. reflexivity.
  Qed.
  (** The children of the two cut points i < j. *)
  Definition two_point_children (p1 p2 : list gv) (ij : nat * nat) : list gv * list gv :=
    let (i, j) := ij in
    (firstn i p1 ++ firstn (j - i) (skipn i p2) ++ skipn j p1, firstn i p2 ++ firstn (j - i) (skipn i p1) ++ skipn j p2).
  Theorem C73_two_point : forall (p1 p2 : list gv) n, length p1 = n -> length p2 = n -> (3 <= n)%nat ->
    even (two_point (Z.of_nat n) p1 p2) (map (two_point_children p1 p2) (pairs (seq 1 (n - 1)))).
  Proof.
    intros p1 p2 n L1 L2 Hn. unfold two_point.
    assert (X : map (two_point_children p1 p2) (pairs (seq 1 (n - 1))) = map (fun s => let '(a, b) := s in
      (slice_to p1 a ++ slice p2 a b ++ slice_from p1 b, slice_to p2 a ++ slice p1 a b ++ slice_from p2 b)) (map (fun p => (Z.of_nat (fst p), Z.of_nat (snd p))) (pairs (seq 1 (n - 1))))).
    { rewrite map_map. apply map_ext_in. intros [i j] Hij. apply in_pairs_seq in Hij. cbn [fst snd two_point_children].
      rewrite !slice_to_in, !slice_in, !slice_from_in by lia. rewrite !Nat2Z.id. repeat f_equal; lia. }
    rewrite X. apply even_map_in; [apply even_segment; auto|]. intros [a b] _. reflexivity.
  Qed.
  (** Order crossover: one pair of children for each pair of cut points. *)
  Theorem C73_order : forall (ok : num -> Prop), NumOrder NO ok -> forall (p1 p2 : list gv) n, length p1 = n -> length p2 = n -> (3 <= n)%nat ->
    Forall (gene_ok (ok := ok)) p1 -> Forall (gene_ok (ok := ok)) p2 -> dup_free gv_eqb p1 -> dup_free gv_eqb p2 ->
    exists f, even (order (Z.of_nat n) p1 p2) (map f (pairs (seq 1 (n - 1)))) /\
      forall i j, (1 <= i < j)%nat -> (j < n)%nat ->
        order_child_at gv_eqb i j p1 p2 (fst (f (i, j))) /\ order_child_at gv_eqb i j p2 p1 (snd (f (i, j))).
  Proof.
    intros ok NL p1 p2 n L1 L2 Hn G1 G2 D1 D2.
    exists (fun p => (order_child (Z.of_nat n) (Z.of_nat (fst p)) (Z.of_nat (snd p)) p1 p2, order_child (Z.of_nat n) (Z.of_nat (fst p)) (Z.of_nat (snd p)) p2 p1)). split.
    - unfold order. rewrite <- (map_map (fun p => (Z.of_nat (fst p), Z.of_nat (snd p))) (fun s => (order_child (Z.of_nat n) (fst s) (snd s) p1 p2, order_child (Z.of_nat n) (fst s) (snd s) p2 p1))).
      apply even_map_in; [apply even_segment; auto|]. intros [a b] _. reflexivity.
    - intros i j Hi Hj. cbn [fst snd]. split; apply order_spec_at; apply (order_child_spec NL); auto; lia.
  Qed.
  (** Uniform crossover: every choice of a parent for every gene. *)
  Theorem C73_uniform : forall (p1 p2 : list gv) n, length p1 = n -> length p2 = n ->
    even (uniform (Z.of_nat n) p1 p2) (map (fun c => (c, c)) (products (map (fun xy => [fst xy; snd xy]) (combine p1 p2)))).
  Proof.
    intros p1 p2 n L1 L2. unfold uniform. apply even_map.
    assert (X : map (fun xy => [fst xy; snd xy]) (combine p1 p2) = map (fun i => [nth (Z.to_nat i) p1 (GInt 0); nth (Z.to_nat i) p2 (GInt 0)]) (zrange 0 (Z.of_nat n))).
    { change (zrange 0 (Z.of_nat n)) with (zrange (Z.of_nat 0) (Z.of_nat n)). rewrite range_seq, map_map by lia. rewrite Nat.sub_0_r. erewrite (map_ext (fun x => [nth (Z.to_nat (Z.of_nat x)) p1 (GInt 0); nth (Z.to_nat (Z.of_nat x)) p2 (GInt 0)])); [|intros; rewrite Nat2Z.id; reflexivity].
      clear - L1 L2. revert p2 n L1 L2. induction p1 as [|x p1 IH]; intros [|y p2] n L1 L2; cbn [length] in *; subst n; try discriminate; [reflexivity|].
      cbn [combine map seq]. f_equal. rewrite <- seq_shift, map_map. cbn [nth]. apply IH; auto. }
    rewrite X. apply even_mmap. intros i Hi. apply in_zrange in Hi. unfold uniform_gene.
    apply (even_map_in (randint 1 2) _ (fun c => nth (Z.to_nat i) (if c =? 1 then p1 else p2) (GInt 0)) [1; 2]); [apply even_randint; lia|].
    intros c Hc. unfold lift_opt. rewrite py_nth_in by (destruct (c =? 1); lia). rewrite (nth_error_nth' _ (GInt 0)) by (destruct (c =? 1); lia). reflexivity.
  Qed.
  (** get_children returns either child with probability 1/2: the probability that the
      individual it creates has a given kind of genotype. *)
  Theorem C73_child : forall k len first p1 p2 l s (P : list gv -> bool), even (crossover k len p1 p2) l ->
    averages s (fun o => match o with Ok r s' => indicator (P (genotype (heap s' r))) | _ => 0%Q end) (get_child k len first p1 p2)
      (inject_Z (Z.of_nat (length (filter P (flat_map (fun c => [fst c; snd c]) l)))) / inject_Z (2 * Z.of_nat (length l))).
  Proof.
    intros k len first p1 p2 l s P E. unfold get_child. set (i0 := heap s first).
    set (f := fun o : outcome nat => _).
    assert (A : averages s f (bind (crossover k len p1 p2) (fun gs => bind (randint 1 2) (fun coin => alloc (set_genotype (if coin =? 1 then fst gs else snd gs) (empty_like i0)))))
       (mean (map (fun c => mean (map (fun g => indicator (P g)) [fst c; snd c])) l))).
    { apply averages_even; auto. intros c Hc. eapply averages_eq; [|apply averages_even with (l := [1; 2]) (r := fun coin => indicator (P (if coin =? 1 then fst c else snd c)));
        [apply even_randint; lia|]]; [reflexivity|]. intros coin _.
      set (g := if coin =? 1 then fst c else snd c).
      eapply averages_eq; [|apply (averages_det s f _ (alloc (set_genotype g (empty_like i0)) s))].
      - unfold f, alloc. cbn [heap]. unfold upd. rewrite Nat.eqb_refl. reflexivity.
      - intros t. reflexivity. }
    eapply averages_same with (s := s); [eapply averages_eq; [|exact A]|intros t; reflexivity].
    rewrite <- (mean_flat (fun g => indicator (P g)) (fun c : list gv * list gv => [fst c; snd c]) 2); [|lia|reflexivity].
    unfold mean. rewrite map_length, qsum_indicator. replace (length (flat_map (fun c : list gv * list gv => [fst c; snd c]) l)) with (2 * length l)%nat by (clear; induction l; cbn [flat_map length app]; lia).
    rewrite Nat2Z.inj_mul. reflexivity.
  Qed.

  (** *** Moves of permutations *)
  (** Genes i and j exchanged; the stretch i .. j reversed; gene i moved to position j;
      the stretch of c genes from i moved to position j of the others. *)
  Definition exchanged (g : list gv) (ij : nat * nat) : list gv :=
    map (fun p => nth (if Nat.eqb p (fst ij) then snd ij else if Nat.eqb p (snd ij) then fst ij else p) g (GInt 0)) (seq 0 (length g)).
  Definition reversed (g : list gv) (ij : nat * nat) : list gv :=
    let (i, j) := ij in firstn i g ++ rev (firstn (S j - i) (skipn i g)) ++ skipn (S j) g.
  Definition shifted_to (g : list gv) (c i j : nat) : list gv :=
    let rest := firstn i g ++ skipn (i + c) g in firstn j rest ++ firstn c (skipn i g) ++ skipn j rest.
  Lemma even_two_idx : forall n, (2 <= n)%nat ->
    even (two_idx (Z.of_nat n)) (map (fun p => (Z.of_nat (fst p), Z.of_nat (snd p))) (pairs (seq 0 n)) ++ map (fun p => (Z.of_nat (snd p), Z.of_nat (fst p))) (pairs (seq 0 n))).
  Proof.
    intros n Hn. unfold two_idx. change (zrange 0 (Z.of_nat n)) with (zrange (Z.of_nat 0) (Z.of_nat n)). rewrite range_seq, Nat.sub_0_r by lia.
    eapply even_perm; [apply (even_map_in _ _ (fun l => match l with [a; b] => (a, b) | _ => (0, 0) end)); [apply (even_sample _ 2); rewrite map_length, seq_length; lia|]|].
    - intros l Hl. apply arrangements_two in Hl. destruct l as [|a [|b [|]]]; try discriminate Hl. reflexivity.
    - eapply Permutation_trans; [apply Permutation_map, arrangements_2|]. rewrite map_app, pairs_map, !map_map. apply Permutation_refl.
  Qed.
  Lemma swap_exchanged : forall (g : list gv) i j, (i < length g)%nat -> (j < length g)%nat -> swap_genes (Z.of_nat i) (Z.of_nat j) g = exchanged g (i, j).
  Proof.
    intros g i j Hi Hj. unfold swap_genes, exchanged. rewrite !Nat2Z.id. destruct (nth_error_some_lt g i Hi) as (x & Ex). destruct (nth_error_some_lt g j Hj) as (y & Ey).
    rewrite Ex, Ey. apply nth_error_ext. intros p. cbn [fst snd]. rewrite list_set_nth_error by (rewrite list_set_length; auto). rewrite list_set_nth_error by auto.
    destruct (Nat.lt_ge_cases p (length g)) as [Hp|Hp].
    - assert (Es : nth_error (seq 0 (length g)) p = Some p) by (rewrite (nth_error_nth' _ 0%nat) by (rewrite seq_length; auto); rewrite seq_nth by auto; reflexivity).
      rewrite (map_nth_error _ _ _ Es).
      assert (N : forall q z, nth_error g q = Some z -> nth q g (GInt 0) = z) by (intros; apply nth_error_nth; auto).
      destruct (Nat.eqb_spec p j) as [Nj|Nj], (Nat.eqb_spec p i) as [Ni|Ni]; try (f_equal; symmetry; apply N; congruence). apply nth_error_nth'. auto.
    - assert (E1 : nth_error g p = None) by (apply nth_error_None; auto).
      assert (E2 : nth_error (map (fun p0 => nth (if Nat.eqb p0 i then j else if Nat.eqb p0 j then i else p0) g (GInt 0)) (seq 0 (length g))) p = None) by (apply nth_error_None; rewrite map_length, seq_length; auto).
      rewrite E1, E2. destruct (Nat.eqb_spec p j); [lia|]. destruct (Nat.eqb_spec p i); [lia|reflexivity].
  Qed.
  Lemma exchanged_sym : forall g i j, exchanged g (i, j) = exchanged g (j, i).
  Proof. intros g i j. apply map_ext. intros p. cbn [fst snd]. f_equal. destruct (Nat.eqb_spec p i), (Nat.eqb_spec p j); congruence. Qed.
  Theorem C73_swap : forall (g : list gv), (2 <= length g)%nat -> even (swap_mut g) (map (exchanged g) (pairs (seq 0 (length g)))).
  Proof.
    intros g Hg. apply even_half. unfold swap_mut, zlen.
    assert (X : map (exchanged g) (pairs (seq 0 (length g))) ++ map (exchanged g) (pairs (seq 0 (length g))) =
      map (fun ij => swap_genes (fst ij) (snd ij) g) (map (fun p => (Z.of_nat (fst p), Z.of_nat (snd p))) (pairs (seq 0 (length g))) ++ map (fun p => (Z.of_nat (snd p), Z.of_nat (fst p))) (pairs (seq 0 (length g))))).
    { rewrite map_app, !map_map. f_equal; apply map_ext_in; intros [i j] Hij; apply in_pairs_seq in Hij; cbn [fst snd]; rewrite swap_exchanged by lia; auto using exchanged_sym. }
    rewrite X. apply even_map. apply even_two_idx. auto.
  Qed.
  Theorem C73_inversion : forall (g : list gv), (2 <= length g)%nat -> even (inversion g) (map (reversed g) (pairs (seq 0 (length g)))).
  Proof.
    intros g Hg. apply even_half. unfold inversion, zlen.
    assert (K : forall a b, (a < b < length g)%nat -> invert_genes (Z.of_nat a) (Z.of_nat b) g = reversed g (a, b)).
    { intros a b Ha. unfold invert_genes, reversed. rewrite slice_to_in, slice_in, slice_from_in by lia.
      replace (Z.to_nat (Z.of_nat b + 1)) with (S b) by lia. rewrite !Nat2Z.id. reflexivity. }
    assert (X : map (reversed g) (pairs (seq 0 (length g))) ++ map (reversed g) (pairs (seq 0 (length g))) =
      map (fun ij => let '(a, b) := if snd ij <? fst ij then (snd ij, fst ij) else (fst ij, snd ij) in invert_genes a b g)
        (map (fun p => (Z.of_nat (fst p), Z.of_nat (snd p))) (pairs (seq 0 (length g))) ++ map (fun p => (Z.of_nat (snd p), Z.of_nat (fst p))) (pairs (seq 0 (length g))))).
    { rewrite map_app, !map_map. f_equal; apply map_ext_in; intros [i j] Hij; apply in_pairs_seq in Hij; cbn [fst snd]; rewrite <- K by lia.
      - destruct (Z.ltb_spec (Z.of_nat j) (Z.of_nat i)); [lia|reflexivity].
      - destruct (Z.ltb_spec (Z.of_nat i) (Z.of_nat j)); [reflexivity|lia]. }
    rewrite X. apply even_map_in; [apply even_two_idx; auto|]. intros [a b] _. cbn [fst snd]. destruct (b <? a); reflexivity.
  Qed.
  (** Movement: every gene to every other position. *)
  Theorem C73_movement : forall (g : list gv), (2 <= length g)%nat ->
    even (movement g) (map (fun ij => shifted_to g 1 (fst ij) (snd ij)) (pairs (seq 0 (length g)) ++ map (fun p => (snd p, fst p)) (pairs (seq 0 (length g))))).
  Proof.
    intros g Hg. unfold movement, zlen.
    assert (K : forall a b, (a < length g)%nat -> (b < length g)%nat -> move_gene (Z.of_nat a) (Z.of_nat b) g = shifted_to g 1 a b).
    { intros a b Ha Hb. unfold move_gene, shifted_to. rewrite !Nat2Z.id. destruct (nth_error_some_lt g a Ha) as (x & Ex). rewrite Ex.
      unfold remove_at, list_insert. rewrite Nat.add_1_r. assert (F : firstn 1 (skipn a g) = [x]).
      { clear - Ex. revert a Ex. induction g as [|y g IH]; intros [|a] Ex; cbn in *; try discriminate; [congruence|]. apply IH; auto. }
      rewrite F. reflexivity. }
    assert (X : map (fun ij => shifted_to g 1 (fst ij) (snd ij)) (pairs (seq 0 (length g)) ++ map (fun p => (snd p, fst p)) (pairs (seq 0 (length g)))) =
      map (fun ij => move_gene (fst ij) (snd ij) g) (map (fun p => (Z.of_nat (fst p), Z.of_nat (snd p))) (pairs (seq 0 (length g))) ++ map (fun p => (Z.of_nat (snd p), Z.of_nat (fst p))) (pairs (seq 0 (length g))))).
    { rewrite !map_app, !map_map. f_equal; apply map_ext_in; intros [i j] Hij; apply in_pairs_seq in Hij; cbn [fst snd]; rewrite K by lia; reflexivity. }
    rewrite X. apply even_map. apply even_two_idx. auto.
  Qed.
  (** Shift: the length of the stretch evenly from 1 .. n - 2, then its start, then its
      new place evenly from those that remain. *)
  Theorem C73_shift : forall (g : list gv) s f, (3 <= length g)%nat ->
    averages s f (shift g) (mean (map (fun c => mean (map (fun i => mean (map (fun j => f (Ok (shifted_to g c i j) s))
      (filter (fun j => negb (Nat.eqb j i)) (seq 0 (S (length g - c)))))) (seq 0 (S (length g - c))))) (seq 1 (length g - 2)))).
  Proof.
    intros g s f Hg. unfold shift, zlen.
    set (R := fun c i : Z => mean (map (fun j => f (Ok (shifted_to g (Z.to_nat c) (Z.to_nat i) j) s)) (filter (fun j => negb (Nat.eqb j (Z.to_nat i))) (seq 0 (S (length g - Z.to_nat c)))))).
    set (R' := fun c : Z => mean (map (R c) (zrange 0 (Z.of_nat (length g) - c + 1)))).
    assert (Z0 : forall m, zrange 0 (Z.of_nat m) = map Z.of_nat (seq 0 m)).
    { intros m. change (zrange 0 (Z.of_nat m)) with (zrange (Z.of_nat 0) (Z.of_nat m)). rewrite range_seq, Nat.sub_0_r by lia. reflexivity. }
    eapply averages_eq; [|apply averages_even with (l := zrange 1 (Z.of_nat (length g) - 2 + 1)) (r := R'); [apply even_randint; lia|]].
    - replace (zrange 1 (Z.of_nat (length g) - 2 + 1)) with (map Z.of_nat (seq 1 (length g - 2))) by (rewrite <- seq_zrange; f_equal; lia).
      rewrite map_map. apply mean_ext. intros c Hc. apply in_seq in Hc. unfold R'. replace (Z.of_nat (length g) - Z.of_nat c + 1) with (Z.of_nat (S (length g - c))) by lia.
      rewrite Z0, map_map. apply mean_ext. intros i Hi. unfold R. rewrite !Nat2Z.id. reflexivity.
    - intros c Hc. apply in_zrange in Hc. unfold R'. apply averages_even; [apply even_randint; lia|].
      intros i Hi. apply in_zrange in Hi.
      assert (Lr : length (slice_to g i ++ slice_from g (i + c)) = (length g - Z.to_nat c)%nat) by (rewrite slice_to_in, slice_from_in, app_length, firstn_length, skipn_length by lia; lia).
      rewrite Lr. replace (Z.of_nat (length g - Z.to_nat c) + 1) with (Z.of_nat (S (length g - Z.to_nat c))) by lia. rewrite Z0.
      assert (Fl : filter (fun j => negb (j =? i)) (map Z.of_nat (seq 0 (S (length g - Z.to_nat c)))) = map Z.of_nat (filter (fun j => negb (Nat.eqb j (Z.to_nat i))) (seq 0 (S (length g - Z.to_nat c))))).
      { generalize (seq 0 (S (length g - Z.to_nat c))). intros l. induction l as [|j l IH]; auto. cbn [map filter]. rewrite IH.
        replace (Z.of_nat j =? i) with (Nat.eqb j (Z.to_nat i)); [destruct (Nat.eqb j (Z.to_nat i)); reflexivity|]. destruct (Nat.eqb_spec j (Z.to_nat i)), (Z.eqb_spec (Z.of_nat j) i); lia. }
      rewrite Fl. unfold R.
      set (js := filter (fun j => negb (Nat.eqb j (Z.to_nat i))) (seq 0 (S (length g - Z.to_nat c)))).
      assert (Nj : js <> []).
      { assert (I : In (if Nat.eqb (Z.to_nat i) 0 then 1 else 0)%nat js).
        { apply filter_In. split; [apply in_seq; destruct (Nat.eqb (Z.to_nat i) 0); lia|]. destruct (Nat.eqb_spec (Z.to_nat i) 0); apply negb_true_iff, Nat.eqb_neq; lia. }
        intros C. rewrite C in I. destruct I. }
      assert (Hj : forall j, In j js -> (j <= length g - Z.to_nat c)%nat) by (intros j Hj; apply filter_In in Hj; destruct Hj as [Hj _]; apply in_seq in Hj; lia).
      eapply averages_eq; [|apply averages_even with (l := map Z.of_nat js) (r := fun j => f (Ok (shifted_to g (Z.to_nat c) (Z.to_nat i) (Z.to_nat j)) s)); [apply even_choice; destruct js; [congruence|discriminate]|]].
      + rewrite map_map. apply mean_ext. intros j _. rewrite Nat2Z.id. reflexivity.
      + intros j' Hj'. apply in_map_iff in Hj'. destruct Hj' as (j & <- & I). apply Hj in I. rewrite Nat2Z.id.
        assert (Y : slice_to (slice_to g i ++ slice_from g (i + c)) (Z.of_nat j) ++ slice g i (i + c) ++ slice_from (slice_to g i ++ slice_from g (i + c)) (Z.of_nat j) = shifted_to g (Z.to_nat c) (Z.to_nat i) j).
        { unfold shifted_to. rewrite (slice_to_in _ (Z.of_nat j)), (slice_from_in _ (Z.of_nat j)) by (rewrite Lr; lia). rewrite slice_to_in, slice_from_in, slice_in by lia. rewrite Nat2Z.id.
          replace (Z.to_nat (i + c)) with (Z.to_nat i + Z.to_nat c)%nat by lia. replace (Z.to_nat i + Z.to_nat c - Z.to_nat i)%nat with (Z.to_nat c) by lia. reflexivity. }
        rewrite Y. apply averages_ret.
  Qed.
End Uniform.

(** *** Concrete cases *)
Local Existing Instance Qops.
Definition bits_are (l : list bool) (g : list gv) : bool :=
  Nat.eqb (length l) (length g) && forallb (fun bx => match snd bx with GBit b => Bool.eqb b (fst bx) | _ => false end) (combine l g).
Definition ints_are (l : list Z) (g : list gv) : bool :=
  Nat.eqb (length l) (length g) && forallb (fun bx => match snd bx with GInt b => b =? fst bx | _ => false end) (combine l g).
Definition two_small : list (@bgene Qops) := [(0%Q, 7%Q, 1%Q); (0%Q, 3%Q, 1%Q)].
(** A binary population of two genes with 3 and 2 bits: each of the 32 strings has
    probability 1/32. *)
Example C73_binary_case : forall gray s, exists g, prepare (GenBinary gray two_small (mkBP [] [] [] [])) = inr g /\
  chance (get_generated_individ g) s (returns (bits_are [true; false; false; true; true])) (1 # 32).
Proof.
  intros gray s. eexists. split; [reflexivity|].
  edestruct (C73_binary gray two_small (mkBP [] [] [] [])) as (bp & Ebp & E); [reflexivity|reflexivity|].
  
  assert (N : num_bits bp = [3; 2]) by (change (num_bits bp) with (match (inr bp : exn + bparams) with inr b => num_bits b | inl _ => [] end); rewrite <- Ebp; vm_compute; reflexivity).
  rewrite N in E. eapply averages_eq; [|apply C73_share; exact E]. vm_compute. reflexivity.
Qed.
(** Three of the four values 1 .. 4: each ordered triple has probability 1/24. *)
Example C73_ordered_case : forall s, chance (get_generated_individ (GenOrd 1 4 3)) s (returns (ints_are [3; 1; 4])) (1 # 24).
Proof. intros s. eapply averages_eq; [|apply C73_share, C73_ordered; lia]. vm_compute. reflexivity. Qed.
(** Equal entries of a pool add up. *)
Example C73_categorical_case : forall s,
  chance (get_generated_individ (GenCat [CRange 0 6 3; CList [GInt 7; GInt 7; GInt 8]])) s (returns (ints_are [3; 7])) (2 # 9).
Proof.
  intros s. eapply averages_eq; [|apply C73_share, C73_categorical]; [vm_compute; reflexivity|].
  constructor; [cbn; lia|]. constructor; [discriminate|]. constructor.
Qed.
Definition abc : list gv := [GInt 1; GInt 2; GInt 3; GInt 4].
Definition uvw : list gv := [GInt 4; GInt 3; GInt 2; GInt 1].
Example C73_crossovers_case : forall s,
  chance (one_point 4 abc uvw) s (returns (fun c => ints_are [1; 3; 2; 1] (fst c))) (1 # 3) /\
  chance (two_point 4 abc uvw) s (returns (fun c => ints_are [1; 3; 2; 4] (fst c))) (1 # 3) /\
  chance (uniform 4 abc uvw) s (returns (fun c => ints_are [1; 3; 2; 4] (fst c))) (1 # 16).
Proof.
  intros s. split; [|split]; (eapply averages_eq; [|apply C73_share; first [apply (C73_one_point abc uvw 4) | apply (C73_two_point abc uvw 4) | apply (C73_uniform abc uvw 4)]; auto]); vm_compute; reflexivity.
Qed.
Example C73_child_case : forall s first,
  averages s (fun o => match o with Ok r s' => indicator (ints_are [4; 2; 3; 4] (genotype (heap s' r))) | _ => 0%Q end) (get_child OnePoint 4 first abc uvw) (1 # 6).
Proof. intros s first. eapply averages_eq; [|apply C73_child; apply (C73_one_point abc uvw 4); auto]. vm_compute. reflexivity. Qed.
Example C73_moves_case : forall s,
  chance (swap_mut abc) s (returns (ints_are [1; 4; 3; 2])) (1 # 6) /\
  chance (inversion abc) s (returns (ints_are [1; 4; 3; 2])) (1 # 6) /\
  chance (movement abc) s (returns (ints_are [1; 3; 2; 4])) (1 # 6) /\
  chance (shift abc) s (returns (ints_are [2; 3; 1; 4])) (1 # 8).
Proof.
  intros s. split; [|split; [|split]]; [| | |eapply averages_eq; [|apply C73_shift; cbn; lia]; vm_compute; reflexivity];
    (eapply averages_eq; [|apply C73_share; first [apply C73_swap | apply C73_inversion | apply C73_movement]; cbn; lia]); vm_compute; reflexivity.
Qed.

Print Assumptions C73_unique. Print Assumptions C73_share.
Print Assumptions C73_binary. Print Assumptions C73_ordered. Print Assumptions C73_categorical.
Print Assumptions C73_one_point. Print Assumptions C73_two_point. Print Assumptions C73_order. Print Assumptions C73_uniform. Print Assumptions C73_child.
Print Assumptions C73_swap. Print Assumptions C73_inversion. Print Assumptions C73_movement. Print Assumptions C73_shift.
