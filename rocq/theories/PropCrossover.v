(** Properties C11-C15: crossovers.  [possible m R] (Rnd.v): whatever the state, [m]
    finishes without exception, changes nothing but the generator and its result
    satisfies R; and for every value in R some generator state produces it. *)
From Coq Require Import ZArith QArith List Bool Lia Permutation.
From Verif Require Import Spec Num State Binary Population GaData Crossover ListLemmas Rnd Exec Laws
  CrossoverProofs Demo.
Import ListNotations.
Open Scope Z_scope.

Section Crossovers.
  Context {NO : NumOps}.

  (** C11.  The exact set of possible pairs of children. *)
  Theorem C11_one_point : forall (p1 p2 : list gv) n, length p1 = n -> length p2 = n -> (2 <= n)%nat ->
    possible (one_point (Z.of_nat n) p1 p2)
      (fun c => exists k, (1 <= k <= n - 1)%nat /\
         c = (firstn k p1 ++ skipn k p2, firstn k p2 ++ skipn k p1)).
  Proof. exact one_point_possible. Qed.
  Theorem C11_too_short : forall (p1 p2 : list gv) n s, n < 2 -> one_point n p1 p2 s = Err ValueError.
  Proof. exact one_point_short. Qed.
  (** Position-wise inheritance: at each position the children carry the two genes of
      the parents, the first position is kept and the last one exchanged. *)
  Theorem C11_inheritance : forall (p1 p2 : list gv) n s c1 c2 s', length p1 = n -> length p2 = n ->
    one_point (Z.of_nat n) p1 p2 s = Ok (c1, c2) s' ->
    length c1 = n /\ length c2 = n /\
    (forall i d, (i < n)%nat -> (nth i c1 d = nth i p1 d /\ nth i c2 d = nth i p2 d) \/
                                (nth i c1 d = nth i p2 d /\ nth i c2 d = nth i p1 d)) /\
    (forall d, nth 0 c1 d = nth 0 p1 d /\ nth (n - 1) c1 d = nth (n - 1) p2 d).
  Proof.
    intros p1 p2 n s c1 c2 s' L1 L2 H.
    destruct (le_lt_dec 2 n) as [Hn|Hn]; [|rewrite one_point_short in H by lia; discriminate].
    apply (possible_sound _ _ _ _ _ (one_point_possible p1 p2 n L1 L2 Hn)) in H.
    destruct H as [(k & Hk & E) _]. injection E as -> ->.
    assert (N : forall (a b : list gv) i d, length a = n -> nth i (firstn k a ++ skipn k b) d =
      if (i <? k)%nat then nth i a d else nth i b d).
    { intros a b i d La. destruct (Nat.ltb_spec i k).
      - rewrite app_nth1 by (rewrite firstn_length; lia). apply firstn_nth; auto.
      - rewrite app_nth2 by (rewrite firstn_length; lia). rewrite firstn_length, skipn_nth. f_equal. lia. }
    split; [rewrite app_length, firstn_length, skipn_length; lia|].
    split; [rewrite app_length, firstn_length, skipn_length; lia|]. split.
    - intros i d Hi. rewrite !N by auto. destruct (i <? k)%nat; auto.
    - intros d. rewrite !N by auto. split.
      + destruct (Nat.ltb_spec 0 k); auto; lia.
      + destruct (Nat.ltb_spec (n - 1) k); auto; lia.
  Qed.

  (** C12. *)
  Theorem C12_two_point : forall (p1 p2 : list gv) n, length p1 = n -> length p2 = n -> (3 <= n)%nat ->
    possible (two_point (Z.of_nat n) p1 p2)
      (fun c => exists i j, (1 <= i < j)%nat /\ (j <= n - 1)%nat /\
         c = (firstn i p1 ++ firstn (j - i) (skipn i p2) ++ skipn j p1,
              firstn i p2 ++ firstn (j - i) (skipn i p1) ++ skipn j p2)).
  Proof. exact two_point_possible. Qed.
  Theorem C12_too_short : forall (p1 p2 : list gv) n s, n < 3 -> two_point n p1 p2 s = Err ValueError.
  Proof. exact two_point_short. Qed.
  (** Both ends stay with their parent, some inner gene is exchanged. *)
  Theorem C12_inheritance : forall (p1 p2 : list gv) n s c1 c2 s', length p1 = n -> length p2 = n ->
    two_point (Z.of_nat n) p1 p2 s = Ok (c1, c2) s' ->
    length c1 = n /\ length c2 = n /\
    (forall i d, (i < n)%nat -> (nth i c1 d = nth i p1 d /\ nth i c2 d = nth i p2 d) \/
                                (nth i c1 d = nth i p2 d /\ nth i c2 d = nth i p1 d)) /\
    (forall d, nth 0 c1 d = nth 0 p1 d /\ nth (n - 1) c1 d = nth (n - 1) p1 d) /\
    exists i, (1 <= i <= n - 2)%nat /\ forall d, nth i c1 d = nth i p2 d /\ nth i c2 d = nth i p1 d.
  Proof.
    intros p1 p2 n s c1 c2 s' L1 L2 H.
    destruct (le_lt_dec 3 n) as [Hn|Hn]; [|rewrite two_point_short in H by lia; discriminate].
    apply (possible_sound _ _ _ _ _ (two_point_possible p1 p2 n L1 L2 Hn)) in H.
    destruct H as [(k & j & Hk & Hj & E) _]. injection E as -> ->.
    assert (N : forall (a b : list gv) i d, length a = n -> length b = n ->
      nth i (firstn k a ++ firstn (j - k) (skipn k b) ++ skipn j a) d =
      if ((k <=? i) && (i <? j))%nat then nth i b d else nth i a d).
    { intros a b i d La Lb. destruct (Nat.leb_spec k i), (Nat.ltb_spec i j); simpl.
      - rewrite app_nth2, app_nth1 by (rewrite ?firstn_length, ?skipn_length; lia).
        rewrite firstn_nth, skipn_nth by (rewrite firstn_length; lia). rewrite firstn_length. f_equal. lia.
      - rewrite app_nth2, app_nth2 by (rewrite ?firstn_length, ?skipn_length; lia).
        rewrite skipn_nth, !firstn_length, skipn_length. f_equal. lia.
      - rewrite app_nth1 by (rewrite firstn_length; lia). apply firstn_nth; auto.
      - rewrite app_nth1 by (rewrite firstn_length; lia). apply firstn_nth; auto. }
    assert (L : forall (a b : list gv), length a = n -> length b = n -> length (firstn k a ++ firstn (j - k) (skipn k b) ++ skipn j a) = n).
    { intros a b La Lb. rewrite !app_length, !firstn_length, !skipn_length. lia. }
    split; [apply L; auto|]. split; [apply L; auto|]. split; [|split].
    - intros i d Hi. rewrite !N by auto. destruct (_ && _); auto.
    - intros d. rewrite !N by auto. split.
      + destruct (Nat.leb_spec k 0); auto; lia.
      + destruct (Nat.leb_spec k (n - 1)), (Nat.ltb_spec (n - 1) j); simpl; auto; lia.
    - exists k. split; [lia|]. intros d. rewrite !N by auto.
      destruct (Nat.leb_spec k k), (Nat.ltb_spec k j); simpl; auto; lia.
  Qed.

  (** C13. *)
  Theorem C13_uniform : forall (p1 p2 : list gv) n, (n <= length p1)%nat -> (n <= length p2)%nat ->
    possible (uniform (Z.of_nat n) p1 p2)
      (fun c => fst c = snd c /\ length (fst c) = n /\
         forall i, (i < n)%nat -> nth_error (fst c) i = nth_error p1 i \/ nth_error (fst c) i = nth_error p2 i).
  Proof. exact uniform_possible. Qed.
  Theorem C13_short_parent : forall (p1 p2 : list gv) n s, (length p1 < n \/ length p2 < n)%nat ->
    exists t, uniform (Z.of_nat n) p1 p2 (set_tape t s) = Err IndexError.
  Proof. exact uniform_short_raises. Qed.

  (** C14.  [ok] are the numbers that can be compared (all but NaN). *)
  Theorem C14_order : forall (ok : num -> Prop), NumOrder NO ok ->
    forall (p1 p2 : list gv) n, length p1 = n -> length p2 = n -> (3 <= n)%nat ->
    Forall (gene_ok (ok := ok)) p1 -> Forall (gene_ok (ok := ok)) p2 ->
    dup_free gv_eqb p1 -> dup_free gv_eqb p2 ->
    possible (order (Z.of_nat n) p1 p2)
      (fun c => exists i j, (1 <= i < j)%nat /\ (j <= n - 1)%nat /\
         order_child_at gv_eqb i j p1 p2 (fst c) /\ order_child_at gv_eqb i j p2 p1 (snd c)).
  Proof.
    intros ok NL p1 p2 n L1 L2 Hn G1 G2 D1 D2. eapply possible_iff; [apply (order_possible NL); auto|].
    intros c. split; intros (i & j & H1 & H2 & H3 & H4); exists i, j; split; auto; split; auto;
      split; apply order_spec_at; auto.
  Qed.
  Theorem C14_tours : forall (ok : num -> Prop), NumOrder NO ok ->
    forall (p1 p2 : list gv) n s c1 c2 s', length p1 = n -> length p2 = n ->
    Forall (gene_ok (ok := ok)) p1 -> Forall (gene_ok (ok := ok)) p2 ->
    dup_free gv_eqb p1 -> dup_free gv_eqb p2 ->
    order (Z.of_nat n) p1 p2 s = Ok (c1, c2) s' ->
    forall c, c = c1 \/ c = c2 ->
    length c = n /\ dup_free gv_eqb c /\ incl c (p1 ++ p2) /\
    (Permutation p1 p2 -> Permutation c p1).
  Proof.
    intros ok NL p1 p2 n s c1 c2 s' L1 L2 G1 G2 D1 D2 H c Hc.
    destruct (le_lt_dec 3 n) as [Hn|Hn]; [|rewrite order_short in H by lia; discriminate].
    apply (possible_sound _ _ _ _ _ (order_possible NL p1 p2 n L1 L2 Hn G1 G2 D1 D2)) in H.
    destruct H as [(i & j & Hi & Hj & S1 & S2) _]. simpl in S1, S2. destruct Hc as [->| ->].
    - split; [destruct S1; lia|]. split; [apply (order_spec_dup_free NL i j p1 p2); auto; lia|].
      split; [apply (order_spec_genes i j p1 p2); auto; lia|]. intros P. symmetry.
      apply (order_spec_perm NL i j p1 p2); auto; lia.
    - split; [destruct S2; lia|]. split; [apply (order_spec_dup_free NL i j p2 p1); auto; lia|].
      split.
      + intros x Hx. apply (order_spec_genes i j p2 p1) in Hx; auto; [|lia]. apply in_app_or in Hx. apply in_or_app. tauto.
      + intros P. eapply perm_trans; [|symmetry; exact P]. symmetry.
        apply (order_spec_perm NL i j p2 p1); auto; try lia. symmetry; auto.
  Qed.
  Theorem C14_too_short : forall (p1 p2 : list gv) n s, n < 3 -> order n p1 p2 s = Err ValueError.
  Proof. exact order_short. Qed.

  (** C15.  [cross_pre]: the members and parents exist, the parents have the length n
      of the first member and, for order crossover, no repeated genes.  The children
      are the consecutive new references, one per pair of parents, with the keys of the
      first member and no values but the genotype; every existing individual is exactly
      as before. *)
  Theorem C15_children : forall (ok : num -> Prop), NumOrder NO ok ->
    forall k n gd s gd' s', cross_pre (ok := ok) k n gd s ->
    crossover_execute k gd s = Ok gd' s' ->
    gd' = set_children (children gd') gd /\
    length (parents gd) = (2 * length (children gd'))%nat /\
    children gd' = seq (next s) (length (children gd')) /\
    (forall r, (r < next s)%nat -> heap s' r = heap s r) /\ log s' = log s /\
    Forall2 (fun pq r =>
        offspring k n (genotype (heap s (fst pq))) (genotype (heap s (snd pq))) (genotype (heap s' r)) /\
        score (heap s' r) = SVNone /\ obj_score (heap s' r) = SVNone /\ feasible (heap s' r) = true /\
        idx_individ (heap s' r) = None /\
        exists first, head (members (population gd)) = Some first /\
          phenotype (heap s' r) = (match phenotype (heap s first) with None => None | Some _ => Some None end) /\
          rank (heap s' r) = match rank (heap s first) with None => None | Some _ => Some SVNone end)
      (pairs_of (parents gd)) (children gd').
  Proof.
    intros ok NL k n gd s gd' s' P H. destruct (crossover_execute_ok NL _ _ _ _ _ _ P H) as (E & L & C & N & X & F).
    destruct X as (_ & X1 & _ & _ & X2). repeat split; auto.
    destruct P as (_ & (first & rest & Em & _) & _). rewrite Em in *.
    eapply Forall2_impl; [|exact F]. intros pq r (g & Og & ->). cbn. repeat split; auto. exists first. auto.
  Qed.
  (** It does not raise when the genotypes are long enough and the parents come in
      pairs. *)
  Theorem C15_no_exception : forall (ok : num -> Prop), NumOrder NO ok ->
    forall k n gd s m e, cross_pre (ok := ok) k n gd s -> (min_len k <= n)%nat ->
    length (parents gd) = (2 * m)%nat -> crossover_execute k gd s <> Err e.
  Proof. intros ok NL k n gd s m e P Hn L. apply (crossover_execute_safe NL k n gd s m); auto. Qed.
End Crossovers.

(** Concrete runs meeting the hypotheses. *)
Local Existing Instance Qops.
Example C11_example : value (one_point 4 (ints [1;2;3;4]) (ints [5;6;7;8]) (world [] [1])) = Some (ints [1;2;7;8], ints [5;6;3;4]).
Proof. run. Qed.
Example C12_example : value (two_point 4 (ints [1;2;3;4]) (ints [5;6;7;8]) (world [] [2; 0])) = Some (ints [1;6;7;4], ints [5;2;3;8]).
Proof. run. Qed.
Example C13_example : value (uniform 3 (ints [1;2;3]) (ints [5;6;7]) (world [] [0;1;0])) = Some (ints [1;6;3], ints [1;6;3]).
Proof. run. Qed.
(** The hypotheses of C14 hold for these parents and the run does what the theorem says. *)
Example C14_example :
  Forall (gene_ok (ok := fun _ => True)) (ints [1;2;3;4;5]) /\
  dup_free gv_eqb (ints [1;2;3;4;5]) /\ dup_free gv_eqb (ints [5;3;1;2;4]) /\
  value (order 5 (ints [1;2;3;4;5]) (ints [5;3;1;2;4]) (world [] [1; 2])) = Some (ints [1;2;3;4;5], ints [4;5;1;2;3]).
Proof.
  split; [repeat constructor|]. split; [repeat constructor|]. split; [repeat constructor|]. run.
Qed.
(** Three members, two pairs of parents, order crossover. *)
Definition C15_state := world [ind (ints [1;2;3;4]) (q 1); ind (ints [4;3;2;1]) (q 2); ind (ints [2;4;1;3]) (q 0)] [].
Definition C15_gd : gadata := set_parents [0;1;2;1]%nat (gd_of (cat_pop 3)).
Example C15_example :
  cross_pre (ok := fun _ => True) Order 4 C15_gd C15_state /\
  observe (fun gd' s' => (children gd', genotype (heap s' 3%nat), genotype (heap s' 4%nat)))
     (crossover_execute Order C15_gd C15_state) = Some ([3; 4]%nat, ints [1;2;4;3], ints [1;4;3;2]).
Proof.
  split.
  - assert (P : forall r, (r < 3)%nat -> parent_ok (ok := fun _ => True) Order 4 (genotype (heap C15_state r))).
    { intros [|[|[|r]]] Hr; try lia; (split; [reflexivity|]; intros _; split; repeat constructor). }
    split; [|split].
    + intros r Hr. simpl in *. intuition lia.
    + eexists _, _. split; reflexivity.
    + intros r Hr. assert (r < 3)%nat by (simpl in Hr; intuition lia). split; [simpl; lia|]. apply P; auto.
  - run.
Qed.

Print Assumptions C11_one_point.
Print Assumptions C11_too_short.
Print Assumptions C11_inheritance.
Print Assumptions C12_two_point.
Print Assumptions C12_too_short.
Print Assumptions C12_inheritance.
Print Assumptions C13_uniform.
Print Assumptions C13_short_parent.
Print Assumptions C14_order.
Print Assumptions C14_tours.
Print Assumptions C14_too_short.
Print Assumptions C15_children.
Print Assumptions C15_no_exception.
