(** Proofs about crossovers (Crossover.v). *)
From Coq Require Import ZArith List Bool Lia Permutation.
From Verif Require Import Spec Num State Binary Population GaData Crossover ListLemmas Rnd Exec Laws.
Import ListNotations.
Open Scope Z_scope.

Section CrossoverProofs.
  Context {NO : NumOps}.

  Lemma one_point_possible : forall (p1 p2 : list gv) n, length p1 = n -> length p2 = n -> (2 <= n)%nat ->
    possible (one_point (Z.of_nat n) p1 p2)
      (fun c => exists k, (1 <= k <= n - 1)%nat /\
         c = (firstn k p1 ++ skipn k p2, firstn k p2 ++ skipn k p1)).
  Proof.
    intros p1 p2 n L1 L2 Hn. unfold one_point. eapply possible_iff.
    - apply possible_bind; [apply possible_randint; lia|]. intros k Hk. apply possible_ret.
    - intros c. split.
      + intros (k & Hk & ->). exists (Z.to_nat k). split; [lia|].
        rewrite !slice_to_in, !slice_from_in by lia. reflexivity.
      + intros (k & Hk & ->). exists (Z.of_nat k). split; [lia|].
        rewrite !slice_to_in, !slice_from_in by lia. rewrite Nat2Z.id. reflexivity.
  Qed.
  Lemma one_point_short : forall (p1 p2 : list gv) n s, n < 2 -> one_point n p1 p2 s = Err ValueError.
  Proof. intros. unfold one_point, bind. rewrite randint_empty by lia. reflexivity. Qed.

  Lemma segment_possible : forall n, 3 <= n ->
    possible (get_idx_segment n) (fun ab => 1 <= fst ab < snd ab /\ snd ab <= n - 1).
  Proof.
    intros n Hn. unfold get_idx_segment. eapply possible_iff.
    - apply possible_bind; [apply possible_sample; rewrite zrange_length_Z; lia|].
      intros l Hl. cbv beta in Hl. apply picks_nodup_iff in Hl; [|apply zrange_nodup].
      destruct Hl as (L & N & I).
      destruct l as [|a [|b [|]]]; simpl in L; try lia.
      instantiate (1 := fun l ab => match l with [a; b] => ab = (if b <? a then (b, a) else (a, b)) | _ => False end).
      apply possible_ret.
    - intros [x y]. simpl. split.
      + intros (l & Hl & E). apply picks_nodup_iff in Hl; [|apply zrange_nodup].
        destruct Hl as (L & N & I). destruct l as [|a [|b [|]]]; simpl in L; try lia.
        assert (Ia : In a (zrange 1 n)) by (apply I; left; auto). assert (Ib : In b (zrange 1 n)) by (apply I; right; left; auto).
        apply in_zrange in Ia, Ib. assert (a <> b) by (intros ->; inversion N as [|? ? N1 N2]; apply N1; left; auto).
        destruct (b <? a) eqn:E1; inversion E; subst; [apply Z.ltb_lt in E1|apply Z.ltb_ge in E1]; lia.
      + intros H. exists [x; y]. split.
        * apply picks_nodup_iff; [apply zrange_nodup|]. split; [reflexivity|]. split.
          -- repeat constructor; simpl; intuition lia.
          -- intros z [<-|[<-|[]]]; apply in_zrange; lia.
        * destruct (y <? x) eqn:E; auto. apply Z.ltb_lt in E. lia.
  Qed.
  Lemma segment_short : forall n s, n < 3 -> get_idx_segment n s = Err ValueError.
  Proof.
    intros. unfold get_idx_segment, bind. rewrite sample_error; [reflexivity|].
    right. rewrite zrange_length_Z. lia.
  Qed.

  Lemma two_point_possible : forall (p1 p2 : list gv) n, length p1 = n -> length p2 = n -> (3 <= n)%nat ->
    possible (two_point (Z.of_nat n) p1 p2)
      (fun c => exists i j, (1 <= i < j)%nat /\ (j <= n - 1)%nat /\
         c = (firstn i p1 ++ firstn (j - i) (skipn i p2) ++ skipn j p1,
              firstn i p2 ++ firstn (j - i) (skipn i p1) ++ skipn j p2)).
  Proof.
    intros p1 p2 n L1 L2 Hn. unfold two_point. eapply possible_iff.
    - apply possible_bind; [apply segment_possible; lia|]. intros [a b] Hk.
      instantiate (1 := fun ab c => c = (slice_to p1 (fst ab) ++ slice p2 (fst ab) (snd ab) ++ slice_from p1 (snd ab),
         slice_to p2 (fst ab) ++ slice p1 (fst ab) (snd ab) ++ slice_from p2 (snd ab))).
      apply possible_ret.
    - intros c. split.
      + intros ([a b] & Hk & ->). simpl in *. exists (Z.to_nat a), (Z.to_nat b). split; [lia|]. split; [lia|].
        rewrite !slice_to_in, !slice_from_in, !slice_in by lia. reflexivity.
      + intros (i & j & H1 & H2 & ->). exists (Z.of_nat i, Z.of_nat j). simpl. split; [lia|].
        rewrite !slice_to_in, !slice_from_in, !slice_in by lia. rewrite !Nat2Z.id. reflexivity.
  Qed.
  Lemma two_point_short : forall (p1 p2 : list gv) n s, n < 3 -> two_point n p1 p2 s = Err ValueError.
  Proof. intros. unfold two_point, bind. rewrite segment_short by lia. reflexivity. Qed.

  Lemma uniform_possible : forall (p1 p2 : list gv) n, (n <= length p1)%nat -> (n <= length p2)%nat ->
    possible (uniform (Z.of_nat n) p1 p2)
      (fun c => fst c = snd c /\ length (fst c) = n /\
         forall i, (i < n)%nat -> nth_error (fst c) i = nth_error p1 i \/ nth_error (fst c) i = nth_error p2 i).
  Proof.
    intros p1 p2 n L1 L2. unfold uniform. eapply possible_iff.
    - apply possible_bind.
      + apply possible_mmap with (R := fun i g => nth_error p1 (Z.to_nat i) = Some g \/ nth_error p2 (Z.to_nat i) = Some g).
        intros i Hi. apply in_zrange in Hi. unfold uniform_gene. eapply possible_iff.
        * apply possible_bind; [apply possible_randint; lia|]. intros k Hk.
          instantiate (1 := fun k g => nth_error (if k =? 1 then p1 else p2) (Z.to_nat i) = Some g).
          assert (HL : i < Z.of_nat (length (if k =? 1 then p1 else p2))) by (destruct (k =? 1); lia).
          unfold lift_opt. rewrite py_nth_in by lia.
          destruct (nth_error (if k =? 1 then p1 else p2) (Z.to_nat i)) eqn:E.
          -- eapply possible_iff; [apply possible_ret|]. intros a. cbv beta. split; congruence.
          -- apply nth_error_None in E. lia.
        * intros g. split.
          -- intros (k & Hk & E). destruct (k =? 1); auto.
          -- intros [E|E]; [exists 1|exists 2]; (split; [lia|exact E]).
      + intros l Hl. apply possible_ret.
    - intros c. split.
      + intros (l & F & ->). simpl. split; auto.
        assert (L : length l = n) by (apply Forall2_length in F; rewrite zrange_length in F; lia).
        split; auto. intros i Hi.
        assert (K : forall (is : list Z) l a, Forall2 (fun i g => nth_error p1 (Z.to_nat i) = Some g \/ nth_error p2 (Z.to_nat i) = Some g) is l ->
           is = zrange a (Z.of_nat n) -> 0 <= a -> forall j, (j < length l)%nat ->
             nth_error l j = nth_error p1 (Z.to_nat a + j) \/ nth_error l j = nth_error p2 (Z.to_nat a + j)).
        { clear. induction is as [|x is IH]; intros l a F E Ha j Hj; inversion F; subst; [simpl in Hj; lia|].
          destruct (Z_lt_le_dec a (Z.of_nat n)); [|rewrite zrange_nil in E by lia; discriminate].
          rewrite zrange_cons in E by lia. inversion E; subst. destruct j.
          - rewrite Nat.add_0_r. simpl. destruct H1; [left|right]; congruence.
          - simpl. destruct (IH l' (a + 1) H3 eq_refl ltac:(lia) j) as [K|K]; [simpl in Hj; lia|left|right];
              rewrite K; f_equal; lia. }
        apply (K _ _ 0 F eq_refl); lia.
      + intros (E & L & H). exists (fst c). split; [|destruct c; simpl in *; congruence].
        rewrite zrange_eq. rewrite Z.sub_0_r, Nat2Z.id. 
        assert (K : forall l m, length l = m -> forall off, (forall i, (i < m)%nat -> nth_error l i = nth_error p1 (off + i) \/ nth_error l i = nth_error p2 (off + i)) ->
          Forall2 (fun i g => nth_error p1 (Z.to_nat i) = Some g \/ nth_error p2 (Z.to_nat i) = Some g)
             (map (fun i => 0 + Z.of_nat i) (seq off m)) l).
        { clear. induction l as [|g l IH]; intros m Hm off H; simpl in Hm; subst; [constructor|].
          cbn [seq map]. constructor.
          - rewrite Z.add_0_l, Nat2Z.id. destruct (H O ltac:(lia)) as [K|K]; simpl in K; rewrite Nat.add_0_r in K; auto.
          - apply IH; auto. intros i Hi. destruct (H (S i) ltac:(lia)) as [K|K]; simpl in K;
              [left|right]; rewrite K; f_equal; lia. }
        apply K; auto.
  Qed.
  (** A parent that is too short: some draws raise IndexError. *)
  Lemma py_nth_over : forall {A} (l : list A) i, Z.of_nat (length l) <= i -> py_nth l i = None.
  Proof.
    intros A l i H. unfold py_nth. destruct (i <? 0) eqn:E0; [apply Z.ltb_lt in E0; lia|].
    assert (B : (Z.of_nat (length l) <=? i) = true) by (apply Z.leb_le; lia). rewrite B, orb_true_r. reflexivity.
  Qed.
  Lemma uniform_short_raises : forall (p1 p2 : list gv) n s, (length p1 < n \/ length p2 < n)%nat ->
    exists t, uniform (Z.of_nat n) p1 p2 (set_tape t s) = Err IndexError.
  Proof.
    intros p1 p2 n s H.
    assert (C : exists c p, (c = 0 \/ c = 1) /\ p = (if 1 + c mod 2 =? 1 then p1 else p2) /\ (length p < n)%nat).
    { destruct H; [exists 0, p1|exists 1, p2]; auto. }
    destruct C as (c & p & Hc & Ep & HL). exists (fun _ => c). unfold uniform, bind.
    assert (K : forall m a s, 0 <= a -> a = Z.of_nat n - Z.of_nat m -> a <= Z.of_nat (length p) ->
      tape s = (fun _ => c) -> mmap (uniform_gene p1 p2) (zrange a (Z.of_nat n)) s = Err IndexError).
    { induction m as [|m IH]; intros a s' Ha Em Hl Ht; [lia|].
      rewrite zrange_cons by lia. cbn [mmap]. unfold bind at 1.
      assert (D : uniform_gene p1 p2 a s' = lift_opt IndexError (py_nth p a) s').
      { unfold uniform_gene, bind, randint, draw, ret. change (2 <? 1) with false. cbv iota beta.
        change (2 - 1 + 1) with 2. unfold bind. rewrite Ht. rewrite Ep. unfold lift_opt.
        destruct (py_nth _ _); [|reflexivity]. f_equal. destruct s'; simpl in *; subst; reflexivity. }
      rewrite D. destruct (Z.eq_dec a (Z.of_nat (length p))) as [Ea|Ea].
      - rewrite py_nth_over by lia. reflexivity.
      - rewrite py_nth_in by lia. destruct (nth_error p (Z.to_nat a)) eqn:E1; [|apply nth_error_None in E1; lia].
        cbn [lift_opt]. unfold bind. rewrite IH; auto; lia. }
    rewrite (K n 0); auto; lia.
  Qed.

  (** *** Order crossover *)
  Section Order.
    Context {ok : num -> Prop} (NL : NumOrder NO ok).
    Notation gok := (Forall (gene_ok (ok := ok))).

    Lemma gv_mem_memE : forall x l, gv_mem x l = true <-> memE gv_eqb x l.
    Proof.
      induction l as [|y l IH]; simpl; split; intros H; try discriminate; [inversion H| |].
      - apply orb_true_iff in H. destruct H; [left|right]; auto. apply IH; auto.
      - apply orb_true_iff. inversion H; subst; auto. right. apply IH; auto.
    Qed.
    Lemma gv_mem_false : forall x l, gv_mem x l = false <-> Forall (fun y => gv_eqb x y = false) l.
    Proof.
      induction l as [|y l IH]; simpl; split; intros H; auto.
      - apply orb_false_iff in H. destruct H. constructor; auto. apply IH; auto.
      - apply orb_false_iff. inversion H; subst. split; auto. apply IH; auto.
    Qed.

    (** At most one element of a duplicate-free list equals a given gene. *)
    Lemma filter_eq_one : forall y l, gene_ok (ok := ok) y -> gok l -> dup_free gv_eqb l ->
      (length (filter (fun x => gv_eqb x y) l) <= 1)%nat.
    Proof.
      intros y l Hy Hl HD. induction HD as [|x l Hx HD IH]; simpl; auto.
      inversion Hl; subst. destruct (gv_eqb x y) eqn:E; [|apply IH; auto]. simpl.
      replace (filter (fun x0 => gv_eqb x0 y) l) with (@nil gv); auto.
      symmetry. clear IH HD. induction l as [|z l IH]; simpl; auto.
      inversion Hx; subst. inversion Hl; subst. inversion H2; subst. destruct (gv_eqb z y) eqn:Ez.
      - assert (gv_eqb x z = true); [|congruence].
        apply (gv_eqb_trans NL) with y; auto. apply (gv_eqb_sym NL); auto.
      - apply IH; auto.
    Qed.
    Lemma filter_mem_count : forall seg l, gok seg -> gok l -> dup_free gv_eqb l ->
      (length (filter (fun x => gv_mem x seg) l) <= length seg)%nat.
    Proof.
      induction seg as [|y seg IH]; intros l Hs Hl HD; simpl.
      - clear. induction l; simpl; auto.
      - inversion Hs; subst. specialize (IH l H2 Hl HD). pose proof (filter_eq_one y l H1 Hl HD).
        assert (K : forall l, (length (filter (fun x => gv_eqb x y || gv_mem x seg) l) <=
          length (filter (fun x => gv_eqb x y) l) + length (filter (fun x => gv_mem x seg) l))%nat).
        { clear. induction l as [|x l IH]; simpl; auto. destruct (gv_eqb x y), (gv_mem x seg); simpl; lia. }
        specialize (K l). lia.
    Qed.
    Lemma filter_split_length : forall (f : gv -> bool) l,
      (length (filter f l) + length (filter (fun x => negb (f x)) l) = length l)%nat.
    Proof. induction l as [|x l IH]; simpl; auto. destruct (f x); simpl; lia. Qed.

    Lemma dup_free_app : forall (eqb : gv -> gv -> bool) a b, dup_free eqb (a ++ b) <->
      dup_free eqb a /\ dup_free eqb b /\ (forall x y, In x a -> In y b -> eqb x y = false).
    Proof.
      induction a as [|x a IH]; intros b; simpl; split.
      - intros H. split; [constructor|]. split; auto. intros ? ? [].
      - intros (_ & H & _). auto.
      - intros H. inversion H; subst. apply IH in H3. destruct H3 as (A & B & C).
        apply Forall_app in H2. destruct H2. split; [constructor; auto|]. split; auto.
        intros u v [<-|Hu] Hv; [rewrite Forall_forall in H1; auto|auto].
      - intros (H1 & H2 & H3). inversion H1; subst. constructor.
        + apply Forall_app. split; auto. apply Forall_forall. intros; apply H3; auto.
        + apply IH. split; auto.
    Qed.
    Lemma dup_free_filter : forall (eqb : gv -> gv -> bool) f l, dup_free eqb l -> dup_free eqb (filter f l).
    Proof.
      induction 1 as [|x l H HD IH]; simpl; [constructor|]. destruct (f x); auto. constructor; auto.
      apply Forall_forall. intros y Hy. apply filter_In in Hy. rewrite Forall_forall in H. apply H. tauto.
    Qed.

    (** What the child of [p1] (segment) and [p2] (filling) looks like for the cut
        points i < j. *)
    Definition order_spec (i j : nat) (p1 p2 c : list gv) : Prop :=
      let seg := firstn (j - i) (skipn i p1) in
      length c = length p1 /\
      firstn (j - i) (skipn i c) = seg /\
      skipn j c ++ firstn i c =
        firstn (length p1 - (j - i)) (filter (fun x => negb (gv_mem x seg)) p2).

    Lemma order_child_spec : forall (p1 p2 : list gv) i j n, length p1 = n -> length p2 = n ->
      (i <= j <= n)%nat -> gok p1 -> gok p2 -> dup_free gv_eqb p2 ->
      order_spec i j p1 p2 (order_child (Z.of_nat n) (Z.of_nat i) (Z.of_nat j) p1 p2).
    Proof.
      intros p1 p2 i j n L1 L2 Hij G1 G2 D2. unfold order_child, order_spec.
      cbv zeta. rewrite (slice_in p1) by lia. rewrite !Nat2Z.id.
      set (seg := firstn (j - i) (skipn i p1)).
      set (rest := filter (fun x => negb (gv_mem x seg)) p2).
      assert (Lseg : length seg = (j - i)%nat) by (unfold seg; rewrite firstn_length, skipn_length; lia).
      assert (Gseg : gok seg).
      { apply Forall_forall. intros x Hx. rewrite Forall_forall in G1. apply G1.
        unfold seg in Hx. rewrite <- (firstn_skipn i p1). apply in_or_app. right.
        rewrite <- (firstn_skipn (j - i) (skipn i p1)). apply in_or_app. auto. }
      assert (Lrest : (n - (j - i) <= length rest)%nat).
      { pose proof (filter_mem_count seg p2 Gseg G2 D2). pose proof (filter_split_length (fun x => gv_mem x seg) p2).
        unfold rest. lia. }
      rewrite slice_to_in by lia.
      rewrite slice_in by lia.
      replace (Z.to_nat (Z.of_nat n - Z.of_nat j)) with (n - j)%nat by lia.
      replace (Z.to_nat (Z.of_nat n - Z.of_nat j + Z.of_nat i) - (n - j))%nat with i by lia.
      set (A := firstn i (skipn (n - j) rest)). set (B := firstn (n - j) rest).
      assert (LA : length A = i) by (unfold A; rewrite firstn_length, skipn_length; lia).
      assert (LB : length B = (n - j)%nat) by (unfold B; rewrite firstn_length; lia).
      split; [rewrite !app_length; lia|]. split.
      - rewrite skipn_app, LA, Nat.sub_diag, skipn_all2 by lia. cbn [app skipn].
        rewrite firstn_app, firstn_all2, Lseg, Nat.sub_diag by lia. cbn [firstn]. apply app_nil_r.
      - rewrite skipn_app, skipn_all2, LA by lia. cbn [app].
        rewrite skipn_app, skipn_all2, Lseg by lia. cbn [app].
        replace (j - i - (j - i))%nat with O by lia. cbn [skipn].
        rewrite firstn_app, LA, Nat.sub_diag, firstn_all2 by lia. cbn [firstn]. rewrite app_nil_r.
        rewrite L1. replace (n - (j - i))%nat with ((n - j) + i)%nat by lia.
        unfold A, B. apply firstn_firstn_skipn.
    Qed.

    (** Consequences of the specification: lengths, genes, no duplicates. *)
    Lemma order_spec_parts : forall i j p1 p2 c, (i <= j <= length p1)%nat -> order_spec i j p1 p2 c ->
      c = firstn i c ++ firstn (j - i) (skipn i p1) ++ skipn j c.
    Proof.
      intros i j p1 p2 c Hij (L & S & R). rewrite <- S.
      rewrite <- (firstn_skipn i c) at 1. f_equal.
      rewrite <- (firstn_skipn (j - i) (skipn i c)) at 1. f_equal.
      rewrite skipn_skipn. f_equal. lia.
    Qed.
    Lemma in_firstn_ : forall {A} n (l : list A) x, In x (firstn n l) -> In x l.
    Proof. intros. rewrite <- (firstn_skipn n l). apply in_or_app. auto. Qed.
    Lemma in_skipn_ : forall {A} n (l : list A) x, In x (skipn n l) -> In x l.
    Proof. intros. rewrite <- (firstn_skipn n l). apply in_or_app. auto. Qed.
    Lemma order_spec_genes : forall i j p1 p2 c, (i <= j <= length p1)%nat -> order_spec i j p1 p2 c ->
      incl c (p1 ++ p2).
    Proof.
      intros i j p1 p2 c Hij S x Hx. pose proof (order_spec_parts _ _ _ _ _ Hij S) as P. destruct S as (L & S & R).
      rewrite P in Hx. apply in_app_or in Hx. apply in_or_app.
      assert (K : In x (skipn j c ++ firstn i c) -> In x p2).
      { rewrite R. intros K. apply in_firstn_ in K. apply filter_In in K. tauto. }
      destruct Hx as [Hx|Hx]; [right; apply K; apply in_or_app; auto|].
      apply in_app_or in Hx. destruct Hx as [Hx|Hx].
      - left. apply in_firstn_ in Hx. apply in_skipn_ in Hx. auto.
      - right. apply K. apply in_or_app. auto.
    Qed.
    Lemma dup_free_perm : forall a b, gok a -> Permutation a b -> dup_free gv_eqb a -> dup_free gv_eqb b.
    Proof.
      intros a b G P. revert G. induction P; intros G H; auto.
      - inversion H; subst. inversion G; subst. constructor; auto.
        apply Forall_forall. intros y Hy. rewrite Forall_forall in H2. apply H2. apply Permutation_in with l'; auto. symmetry; auto.
      - inversion H; subst. inversion H3; subst. inversion H2; subst. inversion G; subst. inversion H9; subst.
        constructor; [constructor; auto|constructor; auto].
        destruct (gv_eqb x y) eqn:E; auto. apply (gv_eqb_sym NL) in E; auto; congruence.
      - apply IHP2; auto. apply Forall_forall. intros x Hx. rewrite Forall_forall in G. apply G.
        apply Permutation_in with l'; auto. symmetry; auto.
    Qed.
    Lemma order_spec_dup_free : forall i j p1 p2 c, (i <= j <= length p1)%nat -> gok p1 -> gok p2 ->
      dup_free gv_eqb p1 -> dup_free gv_eqb p2 -> order_spec i j p1 p2 c -> dup_free gv_eqb c.
    Proof.
      intros i j p1 p2 c Hij G1 G2 D1 D2 S. pose proof (order_spec_parts _ _ _ _ _ Hij S) as P. destruct S as (L & S & R).
      set (seg := firstn (j - i) (skipn i p1)) in *.
      set (rest := filter (fun x => negb (gv_mem x seg)) p2) in *.
      assert (Gseg : gok seg).
      { apply Forall_forall. intros x Hx. rewrite Forall_forall in G1. apply G1. apply in_firstn_ in Hx. apply in_skipn_ in Hx. auto. }
      assert (Grest : gok rest).
      { apply Forall_forall. intros x Hx. rewrite Forall_forall in G2. apply G2. apply filter_In in Hx. tauto. }
      assert (Dseg : dup_free gv_eqb seg).
      { rewrite <- (firstn_skipn i p1) in D1. apply dup_free_app in D1. destruct D1 as (_ & D1 & _).
        rewrite <- (firstn_skipn (j - i) (skipn i p1)) in D1. apply dup_free_app in D1. tauto. }
      set (r := firstn (length p1 - (j - i)) rest) in *.
      assert (Dr : dup_free gv_eqb r).
      { assert (D : dup_free gv_eqb rest) by (apply dup_free_filter; auto).
        rewrite <- (firstn_skipn (length p1 - (j - i)) rest) in D. apply dup_free_app in D. tauto. }
      assert (Gr : gok r).
      { apply Forall_forall. intros x Hx. rewrite Forall_forall in Grest. apply Grest. apply in_firstn_ in Hx. auto. }
      assert (Dall : dup_free gv_eqb (r ++ seg)).
      { apply dup_free_app. split; auto. split; auto. intros x y Hx Hy. apply in_firstn_ in Hx. apply filter_In in Hx.
        destruct Hx as [_ Hx]. apply negb_true_iff in Hx. apply gv_mem_false in Hx. rewrite Forall_forall in Hx. auto. }
      apply dup_free_perm with (a := r ++ seg); auto; [apply Forall_app; auto|].
      rewrite P, <- R. rewrite <- app_assoc. 
      eapply perm_trans; [apply Permutation_app_comm|]. rewrite <- app_assoc.
      apply Permutation_app_head. apply Permutation_refl.
    Qed.
    Lemma filter_perm : forall (f : gv -> bool) a b, Permutation a b -> Permutation (filter f a) (filter f b).
    Proof.
      induction 1; simpl; auto.
      - destruct (f x); auto.
      - destruct (f x), (f y); auto. apply perm_swap.
      - eapply perm_trans; eauto.
    Qed.
    Lemma order_spec_perm : forall i j p1 p2 c, (i <= j <= length p1)%nat -> gok p1 -> gok p2 ->
      dup_free gv_eqb p1 -> dup_free gv_eqb p2 -> Permutation p1 p2 -> order_spec i j p1 p2 c -> Permutation p1 c.
    Proof.
      intros i j p1 p2 c Hij G1 G2 D1 D2 PP S. pose proof (order_spec_parts _ _ _ _ _ Hij S) as P. destruct S as (L & S & R).
      set (seg := firstn (j - i) (skipn i p1)) in *.
      assert (E1 : p1 = firstn i p1 ++ seg ++ skipn j p1).
      { rewrite <- (firstn_skipn i p1) at 1. f_equal. rewrite <- (firstn_skipn (j - i) (skipn i p1)) at 1.
        unfold seg. f_equal. rewrite skipn_skipn. f_equal. lia. }
      assert (Lseg : length seg = (j - i)%nat) by (unfold seg; rewrite firstn_length, skipn_length; lia).
      assert (Gseg : gok seg).
      { apply Forall_forall. intros x Hx. rewrite Forall_forall in G1. apply G1. apply in_firstn_ in Hx. apply in_skipn_ in Hx. auto. }
      (* the genes of p1 outside the segment *)
      assert (F1 : filter (fun x => negb (gv_mem x seg)) p1 = firstn i p1 ++ skipn j p1).
      { assert (K : forall l, (forall x, In x l -> gv_mem x seg = false) -> filter (fun x => negb (gv_mem x seg)) l = l).
        { induction l as [|x l IH]; simpl; intros H; auto. rewrite (H x) by auto. simpl. f_equal. apply IH. auto. }
        assert (K2 : forall l, incl l seg -> filter (fun x => negb (gv_mem x seg)) l = []).
        { induction l as [|x l IH]; simpl; intros H; auto.
          assert (M : gv_mem x seg = true).
          { apply gv_mem_memE. apply Exists_exists. exists x. split; [apply H; left; auto|].
            apply (gv_eqb_refl NL). rewrite Forall_forall in Gseg. apply Gseg. apply H; left; auto. }
          rewrite M. simpl. apply IH. intros z Hz. apply H. right; auto. }
        rewrite E1 in D1. apply dup_free_app in D1. destruct D1 as (Da & Db & Dc).
        apply dup_free_app in Db. destruct Db as (_ & _ & Dd).
        rewrite E1 at 1. rewrite !filter_app, (K2 seg) by (apply incl_refl). cbn [app].
        f_equal; apply K; intros x Hx; apply gv_mem_false; apply Forall_forall; intros y Hy.
        - apply Dc; auto. apply in_or_app; auto.
        - destruct (gv_eqb x y) eqn:E; auto. apply (gv_eqb_sym NL) in E.
          + rewrite (Dd y x) in E by auto. discriminate.
          + rewrite Forall_forall in G1. apply G1. apply in_skipn_ in Hx. auto.
          + rewrite Forall_forall in Gseg. auto. }
      assert (F2 : Permutation (filter (fun x => negb (gv_mem x seg)) p2) (firstn i p1 ++ skipn j p1)).
      { rewrite <- F1. apply filter_perm. symmetry. auto. }
      rewrite (@firstn_all2 gv (length p1 - (j - i))) in R.
      2:{ apply Permutation_length in F2. rewrite app_length, firstn_length, skipn_length in F2. lia. }
      rewrite P. rewrite E1 at 1.
      eapply perm_trans; [apply Permutation_app_swap_app|]. symmetry.
      eapply perm_trans; [apply Permutation_app_swap_app|]. apply Permutation_app_head.
      eapply perm_trans; [apply Permutation_app_comm|]. rewrite R. auto.
    Qed.

    Lemma order_possible : forall (p1 p2 : list gv) n, length p1 = n -> length p2 = n -> (3 <= n)%nat ->
      gok p1 -> gok p2 -> dup_free gv_eqb p1 -> dup_free gv_eqb p2 ->
      possible (order (Z.of_nat n) p1 p2)
        (fun c => exists i j, (1 <= i < j)%nat /\ (j <= n - 1)%nat /\
           order_spec i j p1 p2 (fst c) /\ order_spec i j p2 p1 (snd c)).
    Proof.
      intros p1 p2 n L1 L2 Hn G1 G2 D1 D2. unfold order. eapply possible_iff.
      - apply possible_bind; [apply segment_possible; lia|]. intros [a b] Hk.
        instantiate (1 := fun ab c => c = (order_child (Z.of_nat n) (fst ab) (snd ab) p1 p2, order_child (Z.of_nat n) (fst ab) (snd ab) p2 p1)).
        apply possible_ret.
      - intros c. split.
        + intros ([a b] & Hk & ->). simpl in *. exists (Z.to_nat a), (Z.to_nat b). split; [lia|]. split; [lia|].
          pose proof (order_child_spec p1 p2 (Z.to_nat a) (Z.to_nat b) n L1 L2 ltac:(lia) G1 G2 D2) as K1.
          pose proof (order_child_spec p2 p1 (Z.to_nat a) (Z.to_nat b) n L2 L1 ltac:(lia) G2 G1 D1) as K2.
          rewrite !Z2Nat.id in K1, K2 by lia. auto.
        + intros (i & j & H1 & H2 & S1 & S2). exists (Z.of_nat i, Z.of_nat j). simpl. split; [lia|].
          (* the specification determines the child *)
          assert (U : forall p q c c', length p = n -> order_spec i j p q c -> order_spec i j p q c' -> c = c').
          { intros p q x y Lp Sx Sy. rewrite (order_spec_parts i j p q x), (order_spec_parts i j p q y); auto; try lia.
            destruct Sx as (Lx & _ & Rx), Sy as (Ly & _ & Ry).
            assert (E : skipn j x ++ firstn i x = skipn j y ++ firstn i y) by congruence.
            assert (Ls : length (skipn j x) = length (skipn j y)) by (rewrite !skipn_length; lia).
            apply app_inj_tail_iff_len in E; auto. destruct E as [-> ->]. reflexivity. }
          destruct c as [c1 c2]. simpl in *. f_equal.
          * apply (U p1 p2); auto. apply order_child_spec; auto; lia.
          * apply (U p2 p1); auto. apply order_child_spec; auto; lia.
    Qed.
  End Order.
  Lemma order_short : forall (p1 p2 : list gv) n s, n < 3 -> order n p1 p2 s = Err ValueError.
  Proof. intros. unfold order, bind. rewrite segment_short by lia. reflexivity. Qed.

  Lemma Kept_filter : forall {A} (P : A -> Prop) (f : A -> bool) l r,
    (forall x, f x = true <-> P x) -> Kept P l r <-> r = filter f l.
  Proof.
    intros A P f l r H. split.
    - induction 1 as [|x l l' Hx K IH|x l l' Hx K IH]; simpl; auto.
      + apply H in Hx. rewrite Hx. congruence.
      + destruct (f x) eqn:E; auto. apply H in E. tauto.
    - intros ->. induction l as [|x l IH]; simpl; [constructor|].
      destruct (f x) eqn:E; [apply Kept_in|apply Kept_out]; auto; [apply H; auto|].
      intros Hx. apply H in Hx. congruence.
  Qed.
  Lemma order_spec_at : forall i j p1 p2 c, order_spec i j p1 p2 c <-> order_child_at gv_eqb i j p1 p2 c.
  Proof.
    intros. unfold order_spec, order_child_at. cbv zeta.
    assert (F : forall r, Kept (fun x => ~ memE gv_eqb x (firstn (j - i) (skipn i p1))) p2 r <->
      r = filter (fun x => negb (gv_mem x (firstn (j - i) (skipn i p1)))) p2).
    { intros r. apply Kept_filter. intros x. rewrite negb_true_iff, <- gv_mem_memE.
      destruct (gv_mem x _); split; congruence. }
    split.
    - intros (L & S & R). split; auto. split; auto. eexists. split; [apply F; reflexivity|exact R].
    - intros (L & S & r & K & R). split; auto. split; auto. apply F in K. subst. exact R.
  Qed.

  (** *** execute *)
  Lemma rnd_only_one_point : forall n p1 p2, rnd_only (one_point n p1 p2).
  Proof. intros. apply rnd_only_bind; auto with rnd. Qed.
  Lemma rnd_only_segment : forall n, rnd_only (get_idx_segment n).
  Proof.
    intros. apply rnd_only_bind; auto with rnd.
    intros [|a [|b [|]]]; auto with rnd.
  Qed.
  Lemma rnd_only_crossover : forall k n p1 p2, rnd_only (crossover k n p1 p2).
  Proof.
    intros [] n p1 p2; simpl.
    - apply rnd_only_one_point.
    - apply rnd_only_bind; [apply rnd_only_segment|]. intros [a b]. auto with rnd.
    - apply rnd_only_bind; [|auto with rnd]. apply rnd_only_mmap. intros i. apply rnd_only_bind; auto with rnd.
    - apply rnd_only_bind; [apply rnd_only_segment|]. intros [a b]. auto with rnd.
  Qed.

  (** The offspring relation of each class. *)
  Definition offspring (k : crossover_kind) (n : nat) (p1 p2 c : list gv) : Prop :=
    match k with
    | OnePoint => one_point_child n p1 p2 c \/ one_point_child n p2 p1 c
    | TwoPoint => two_point_child n p1 p2 c \/ two_point_child n p2 p1 c
    | Uniform => uniform_child n p1 p2 c
    | Order => order_child_of gv_eqb n p1 p2 c \/ order_child_of gv_eqb n p2 p1 c
    end.
  Definition min_len (k : crossover_kind) : nat :=
    match k with OnePoint => 2 | TwoPoint => 3 | Uniform => 0 | Order => 3 end.

  Section Execute.
    Context {ok : num -> Prop} (NL : NumOrder NO ok).
    (** What a parent must satisfy: the common length, and for order crossover
        comparable genes without repetition. *)
    Definition parent_ok (k : crossover_kind) (n : nat) (p : list gv) : Prop :=
      length p = n /\ (k = Order -> Forall (gene_ok (ok := ok)) p /\ dup_free gv_eqb p).

    Lemma crossover_sound : forall k n p1 p2 s cs s', parent_ok k n p1 -> parent_ok k n p2 ->
      crossover k (Z.of_nat n) p1 p2 s = Ok cs s' ->
      offspring k n p1 p2 (fst cs) /\ offspring k n p1 p2 (snd cs).
    Proof.
      intros k n p1 p2 s cs s' [L1 O1] [L2 O2] H. destruct k; simpl in *.
      - destruct (le_lt_dec 2 n) as [Hn|Hn]; [|rewrite one_point_short in H by lia; discriminate].
        apply (possible_sound _ _ _ _ _ (one_point_possible p1 p2 n L1 L2 Hn)) in H.
        destruct H as [(i & Hi & ->) _]. simpl. split; [left|right]; exists i; auto.
      - destruct (le_lt_dec 3 n) as [Hn|Hn]; [|rewrite two_point_short in H by lia; discriminate].
        apply (possible_sound _ _ _ _ _ (two_point_possible p1 p2 n L1 L2 Hn)) in H.
        destruct H as [(i & j & Hi & Hj & ->) _]. simpl. split; [left|right]; exists i, j; auto.
      - apply (possible_sound _ _ _ _ _ (uniform_possible p1 p2 n ltac:(lia) ltac:(lia))) in H.
        destruct H as [(E & L & K) _]. rewrite <- E. split; split; auto.
      - destruct (le_lt_dec 3 n) as [Hn|Hn]; [|rewrite order_short in H by lia; discriminate].
        destruct (O1 eq_refl), (O2 eq_refl).
        apply (possible_sound _ _ _ _ _ (order_possible NL p1 p2 n L1 L2 Hn ltac:(auto) ltac:(auto) ltac:(auto) ltac:(auto))) in H.
        destruct H as [(i & j & Hi & Hj & S1 & S2) _]. rewrite order_spec_at in S1, S2.
        split; [left|right]; exists i, j; auto.
    Qed.
    Lemma crossover_safe : forall k n p1 p2 s, parent_ok k n p1 -> parent_ok k n p2 -> (min_len k <= n)%nat ->
      safe (crossover k (Z.of_nat n) p1 p2) s.
    Proof.
      intros k n p1 p2 s [L1 O1] [L2 O2] H. destruct k; simpl in *; eapply safe_possible.
      - apply one_point_possible; auto.
      - apply two_point_possible; auto.
      - apply uniform_possible; lia.
      - destruct (O1 eq_refl), (O2 eq_refl). apply (order_possible NL); auto.
    Qed.

    Lemma frame_heap_rnd : forall {A} (m : M A) s a s', rnd_only m -> m s = Ok a s' ->
      heap s' = heap s /\ next s' = next s /\ log s' = log s /\ rnd_seed s' = rnd_seed s /\ prng s' = prng s.
    Proof. intros A m s a s' H E. apply H in E. rewrite E. auto. Qed.

    (** The individual a child is before its evaluation: keys of the first member. *)
    Definition child_of (i0 : individ) (g : list gv) : individ := set_genotype g (empty_like i0).

    (** From [s] to [s'] only new individuals were added. *)
    Definition extends (s s' : st) : Prop :=
      (next s <= next s')%nat /\ log s' = log s /\ rnd_seed s' = rnd_seed s /\ prng s' = prng s /\
      forall r, (r < next s)%nat -> heap s' r = heap s r.
    Lemma extends_refl : forall s, extends s s.
    Proof. intros. repeat split; auto. Qed.
    Lemma extends_trans : forall a b c, extends a b -> extends b c -> extends a c.
    Proof.
      intros a b c (A1 & A2 & A3 & A4 & A5) (B1 & B2 & B3 & B4 & B5).
      split; [lia|]. repeat split; try congruence. intros r Hr. rewrite B5 by lia. auto.
    Qed.
    Lemma extends_frame : forall a b, extends a b -> frame a b.
    Proof.
      intros a b (A1 & A2 & A3 & A4 & A5). split; auto. repeat split; auto; rewrite A5; auto.
    Qed.
    Lemma extends_rnd : forall {A} (m : M A) s a s', rnd_only m -> m s = Ok a s' -> extends s s'.
    Proof. intros A m s a s' H E. apply H in E. rewrite E. repeat split; auto. Qed.
    Lemma extends_alloc : forall i s r s', alloc i s = Ok r s' -> extends s s'.
    Proof.
      intros i s r s' H. apply alloc_ok in H. destruct H as [-> ->].
      split; [cbn [next]; lia|]. do 3 (split; [reflexivity|]). intros r Hr. cbn [heap]. unfold upd. destruct (Nat.eqb r (next s)) eqn:E; auto. apply Nat.eqb_eq in E. lia.
    Qed.
    Lemma extends_do_seed : forall s u s', do_seed s = Ok u s' -> extends s s' /\ next s' = next s /\ heap s' = heap s.
    Proof. intros s u s'. unfold do_seed. destruct (rnd_seed s) eqn:E; intros H; inversion H; repeat split; auto. Qed.

    Lemma get_child_ok : forall k n first p1 p2 s r s', parent_ok k n p1 -> parent_ok k n p2 ->
      get_child k (Z.of_nat n) first p1 p2 s = Ok r s' ->
      r = next s /\ next s' = S (next s) /\ extends s s' /\
      exists c, offspring k n p1 p2 c /\ heap s' r = child_of (heap s first) c.
    Proof.
      intros k n first p1 p2 s r s' O1 O2 H. unfold get_child in H.
      bd H i0 s0 R0. apply get_ok in R0. destruct R0 as [-> ->].
      bd H gs s1 R1. bd H coin s2 R2.
      pose proof (crossover_sound _ _ _ _ _ _ _ O1 O2 R1) as [C1 C2].
      pose proof (frame_heap_rnd _ _ _ _ (rnd_only_crossover _ _ _ _) R1) as (H1 & N1 & _).
      pose proof (frame_heap_rnd _ _ _ _ (rnd_only_randint _ _) R2) as (H2 & N2 & _).
      pose proof (extends_rnd _ _ _ _ (rnd_only_crossover _ _ _ _) R1) as X1.
      pose proof (extends_rnd _ _ _ _ (rnd_only_randint _ _) R2) as X2.
      pose proof (extends_alloc _ _ _ _ H) as X3.
      apply frame_alloc in H. destruct H as (_ & -> & Hh & Hn & _).
      split; [congruence|]. split; [congruence|].
      split; [eapply extends_trans; [eassumption|eapply extends_trans; eassumption]|].
      exists (if coin =? 1 then fst gs else snd gs). split; [destruct (coin =? 1); auto|]. exact Hh.
    Qed.

    Lemma pair_ind : forall {A} (P : list A -> Prop), P [] -> (forall a, P [a]) ->
      (forall a b l, P l -> P (a :: b :: l)) -> forall l, P l.
    Proof.
      intros A P H0 H1 H2. fix IH 1. intros [|a [|b l]]; [exact H0|exact (H1 a)|exact (H2 a b l (IH l))].
    Qed.

    (** The pairs of consecutive parents. *)
    Fixpoint pairs_of {A} (l : list A) : list (A * A) :=
      match l with a :: b :: l' => (a, b) :: pairs_of l' | _ => [] end.

    Lemma cross_pairs_ok : forall l k n first s cs s',
      (forall r, In r l -> (r < next s)%nat /\ parent_ok k n (genotype (heap s r))) -> (first < next s)%nat ->
      cross_pairs k (Z.of_nat n) first l s = Ok cs s' ->
      length l = (2 * length cs)%nat /\ cs = seq (next s) (length cs) /\ next s' = (next s + length cs)%nat /\
      extends s s' /\
      Forall2 (fun p r => exists g, offspring k n (genotype (heap s (fst p))) (genotype (heap s (snd p))) g /\
                                    heap s' r = child_of (heap s first) g) (pairs_of l) cs.
    Proof.
      intros l. pattern l. apply pair_ind; clear l.
      - intros k n first s cs s' Hl Hf H. cbn [cross_pairs] in H. inv_run.
        repeat split; auto. constructor.
      - intros a k n first s cs s' Hl Hf H. discriminate.
      - intros a b l IH k n first s cs s' Hl Hf H. cbn [cross_pairs] in H.
        bd H ia sa Ra. apply get_ok in Ra. destruct Ra as [-> ->].
        bd H ib sb Rb. apply get_ok in Rb. destruct Rb as [-> ->].
        bd H c s3 R1. bd H cs' s4 R2. apply ret_ok in H. destruct H as [-> ->].
        destruct (Hl a) as [Na Oa]; [left; auto|]. destruct (Hl b) as [Nb Ob]; [right; left; auto|].
        destruct (get_child_ok _ _ _ _ _ _ _ _ Oa Ob R1) as (-> & N3 & X & g & Og & Hg).
        pose proof X as (_ & _ & _ & _ & Xh).
        destruct (IH k n first s3 cs' s4) as (L & E & N & X' & F); auto.
        + intros r Hr. destruct (Hl r) as [Nr Or]; [right; right; auto|]. split; [lia|]. rewrite Xh; auto.
        + lia.
        + cbn [length pairs_of]. split; [lia|]. split; [rewrite E at 1; rewrite N3; reflexivity|]. split; [lia|].
          split; [eapply extends_trans; eauto|]. constructor.
          * exists g. split; auto. cbn [fst snd]. destruct X' as (_ & _ & _ & _ & Xh'). rewrite Xh' by lia. exact Hg.
          * clear - F Xh Hl Hf Na. 
            assert (Hp : forall p, In p (pairs_of l) -> In (fst p) l /\ In (snd p) l).
            { clear. pattern l. apply pair_ind; clear l; simpl; try tauto.
              intros a b l IH p [<-|Hp]; simpl; auto. apply IH in Hp. tauto. }
            revert Hp F. generalize (pairs_of l) as ps. intros ps Hp F.
            induction F as [|p r ps rs (g & Og & Hg) F IH]; constructor.
            -- exists g. destruct (Hp p) as [I1 I2]; [left; auto|].
               rewrite !Xh in Og. rewrite Xh in Hg by auto. auto.
               ++ apply Hl; right; right; auto.
               ++ apply Hl; right; right; auto.
            -- apply IH. intros; apply Hp; right; auto.
    Qed.

    Lemma cross_pairs_safe : forall l k n first s m,
      (forall r, In r l -> (r < next s)%nat /\ parent_ok k n (genotype (heap s r))) -> (first < next s)%nat ->
      length l = (2 * m)%nat -> (min_len k <= n)%nat ->
      safe (cross_pairs k (Z.of_nat n) first l) s.
    Proof.
      intros l. pattern l. apply pair_ind; clear l.
      - intros. apply safe_ret.
      - intros a k n first s m Hl Hf L. simpl in L. lia.
      - intros a b l IH k n first s m Hl Hf L Hm. cbn [cross_pairs].
        destruct (Hl a) as [Na Oa]; [left; auto|]. destruct (Hl b) as [Nb Ob]; [right; left; auto|].
        apply safe_bind; [apply safe_get|]. intros ia s1 R1. inv_run.
        apply safe_bind; [apply safe_get|]. intros ib s2 R2. inv_run.
        apply safe_bind.
        { unfold get_child. apply safe_bind; [apply safe_get|]. intros i0 s3 R3. inv_run.
          apply safe_bind; [apply crossover_safe; auto|]. intros gs s4 R4.
          apply safe_bind; [eapply safe_possible; apply possible_randint; lia|]. intros. apply safe_alloc. }
        intros c s3 R3. destruct (get_child_ok _ _ _ _ _ _ _ _ Oa Ob R3) as (-> & N3 & X & _).
        destruct X as (_ & _ & _ & _ & Xh).
        apply safe_bind; [|intros; apply safe_ret].
        apply (IH k n first s3 (m - 1)%nat); auto; [|lia|simpl in L; lia].
        intros r Hr. destruct (Hl r) as [Nr Or]; [right; right; auto|]. split; [lia|]. rewrite Xh; auto.
    Qed.

    (** Everything known before a crossover runs. *)
    Definition cross_pre (k : crossover_kind) (n : nat) (gd : gadata) (s : st) : Prop :=
      (forall r, In r (members (population gd)) -> (r < next s)%nat) /\
      (exists first rest, members (population gd) = first :: rest /\ length (genotype (heap s first)) = n) /\
      (forall r, In r (parents gd) -> (r < next s)%nat /\ parent_ok k n (genotype (heap s r))).

    Lemma crossover_execute_ok : forall k n gd s gd' s', cross_pre k n gd s ->
      crossover_execute k gd s = Ok gd' s' ->
      gd' = set_children (children gd') gd /\
      length (parents gd) = (2 * length (children gd'))%nat /\
      children gd' = seq (next s) (length (children gd')) /\
      next s' = (next s + length (children gd'))%nat /\
      extends s s' /\
      Forall2 (fun p r => exists g, offspring k n (genotype (heap s (fst p))) (genotype (heap s (snd p))) g /\
                 heap s' r = child_of (heap s (hd O (members (population gd)))) g)
              (pairs_of (parents gd)) (children gd').
    Proof.
      intros k n gd s gd' s' (Hm & (first & rest & Em & Ln) & Hp) H. unfold crossover_execute in H.
      rewrite Em in H. unfold get_empty_copy in H. bd H i0 s1 R1. apply get_ok in R1. destruct R1 as [-> ->].
      rewrite Ln in H. bd H l0 s1 R1. bd R1 u s2 R2. apply ret_ok in R1. destruct R1 as [-> ->].
      bd H cs s3 R0. apply ret_ok in H. destruct H as [-> ->]. rename R2 into R1.
      apply extends_do_seed in R1. destruct R1 as (X1 & N1 & H1).
      apply cross_pairs_ok in R0.
      - destruct R0 as (L & E & N & X & F). rewrite Em. cbn [children set_children hd]. rewrite N1, H1 in *.
        repeat split; auto; try (apply (extends_trans _ _ _ X1 X)).
      - intros r Hr. rewrite N1, H1. auto.
      - rewrite N1. apply Hm. rewrite Em. left; auto.
    Qed.
    Lemma crossover_execute_safe : forall k n gd s m, cross_pre k n gd s -> (min_len k <= n)%nat ->
      length (parents gd) = (2 * m)%nat -> safe (crossover_execute k gd) s.
    Proof.
      intros k n gd s m (Hm & (first & rest & Em & Ln) & Hp) Hn L. unfold crossover_execute. rewrite Em.
      apply safe_bind; [apply safe_get|]. intros i0 s1 R1. apply get_ok in R1. destruct R1 as [-> ->]. rewrite Ln.
      apply safe_bind. { unfold get_empty_copy. apply safe_bind; [apply safe_do_seed|intros; apply safe_ret]. }
      intros l s1 R1. unfold get_empty_copy in R1. bd R1 u s2 R. apply ret_ok in R1. destruct R1 as [-> ->]. apply extends_do_seed in R. destruct R as (X1 & N1 & H1).
      apply safe_bind; [|intros; apply safe_ret]. apply cross_pairs_safe with (m := m); auto.
      - intros r Hr. rewrite N1, H1. auto.
      - rewrite N1. apply Hm. rewrite Em. left; auto.
    Qed.
  End Execute.
End CrossoverProofs.
