(** Statement C81: crossovers that keep both children (num_offsprings other than 1). *)
From Coq Require Import ZArith QArith List Bool Lia Permutation.
From Verif Require Import Spec Num State Binary Population GaData Crossover Offsprings ListLemmas Rnd Exec Laws
  CrossoverProofs Demo PropCrossover.
Import ListNotations.
Open Scope Z_scope.

Section C81.
  Context {NO : NumOps}.
  (** The two children of one pair come from the same cut. *)
  Definition twins (k : crossover_kind) (n : nat) (p1 p2 c1 c2 : list gv) : Prop :=
    match k with
    | OnePoint => exists i, (1 <= i <= n - 1)%nat /\ c1 = firstn i p1 ++ skipn i p2 /\ c2 = firstn i p2 ++ skipn i p1
    | TwoPoint => exists i j, (1 <= i < j)%nat /\ (j <= n - 1)%nat /\
        c1 = firstn i p1 ++ firstn (j - i) (skipn i p2) ++ skipn j p1 /\ c2 = firstn i p2 ++ firstn (j - i) (skipn i p1) ++ skipn j p2
    | Uniform => c1 = c2 /\ length c1 = n /\ forall i, (i < n)%nat -> nth_error c1 i = nth_error p1 i \/ nth_error c1 i = nth_error p2 i
    | Order => exists i j, (1 <= i < j)%nat /\ (j <= n - 1)%nat /\ order_child_at gv_eqb i j p1 p2 c1 /\ order_child_at gv_eqb i j p2 p1 c2
    end.
  Section Order.
    Context {ok : num -> Prop} (NL : NumOrder NO ok).
    (** Exactly these pairs of children are possible. *)
    Theorem C81_twins : forall k n p1 p2, parent_ok (ok := ok) k n p1 -> parent_ok (ok := ok) k n p2 -> (min_len k <= n)%nat ->
      possible (crossover k (Z.of_nat n) p1 p2) (fun c => twins k n p1 p2 (fst c) (snd c)).
    Proof.
      intros k n p1 p2 [L1 O1] [L2 O2] H. destruct k; cbn [crossover min_len] in *.
      - eapply possible_iff; [apply C11_one_point; eauto|]. intros [c1 c2]. cbn. split; intros (i & Hi & E); exists i; split; auto; [inversion E; auto|destruct E; congruence].
      - eapply possible_iff; [apply C12_two_point; eauto|]. intros [c1 c2]. cbn. split; intros (i & j & Hi & Hj & E); exists i, j; split; auto; split; auto; [inversion E; auto|destruct E; congruence].
      - eapply possible_iff; [apply C13_uniform; lia|]. intros [c1 c2]. cbn. tauto.
      - destruct (O1 eq_refl), (O2 eq_refl). eapply possible_iff; [eapply (C14_order ok NL); eauto|]. intros [c1 c2]. cbn. tauto.
    Qed.
    Lemma twins_sound : forall k n p1 p2 s cs s', parent_ok (ok := ok) k n p1 -> parent_ok (ok := ok) k n p2 -> crossover k (Z.of_nat n) p1 p2 s = Ok cs s' -> twins k n p1 p2 (fst cs) (snd cs).
    Proof.
      intros k n p1 p2 s cs s' O1 O2 H. destruct (le_lt_dec (min_len k) n) as [L|L].
      - exact (proj1 (possible_sound _ _ _ _ _ (C81_twins k n p1 p2 O1 O2 L) H)).
      - destruct k; cbn [min_len crossover] in *; try lia; [rewrite one_point_short in H by lia|rewrite two_point_short in H by lia|rewrite order_short in H by lia]; discriminate.
    Qed.
    Lemma both_ok : forall k n first p1 p2 s c s', parent_ok (ok := ok) k n p1 -> parent_ok (ok := ok) k n p2 ->
      get_children_both k (Z.of_nat n) first p1 p2 s = Ok c s' ->
      c = (next s, S (next s)) /\ next s' = S (S (next s)) /\ extends s s' /\
      exists g1 g2, twins k n p1 p2 g1 g2 /\ heap s' (next s) = child_of (heap s first) g1 /\ heap s' (S (next s)) = child_of (heap s first) g2.
    Proof.
      intros k n first p1 p2 s c s' O1 O2 H. unfold get_children_both in H. bd H i0 s0 R0. apply get_ok in R0. destruct R0 as [-> ->].
      bd H gs s1 R1. bd H a s2 R2. bd H b s3 R3. apply ret_ok in H. destruct H as [-> ->].
      pose proof (twins_sound _ _ _ _ _ _ _ O1 O2 R1) as T. pose proof (frame_heap_rnd _ _ _ _ (rnd_only_crossover _ _ _ _) R1) as (H1 & N1 & _).
      pose proof (extends_rnd _ _ _ _ (rnd_only_crossover _ _ _ _) R1) as X1. pose proof (extends_alloc _ _ _ _ R2) as X2. pose proof (extends_alloc _ _ _ _ R3) as X3.
      apply alloc_ok in R2, R3. destruct R2 as [-> ->], R3 as [-> ->]. cbn [next heap] in *.
      split; [congruence|]. split; [congruence|]. split; [eapply extends_trans; [exact X1|]; eapply extends_trans; eassumption|].
      exists (fst gs), (snd gs). split; [exact T|]. unfold upd. rewrite <- N1, !Nat.eqb_refl. split; [|reflexivity].
      destruct (Nat.eqb_spec (next s1) (S (next s1))); [lia|]. reflexivity.
    Qed.
    (** Consecutive pairs. *)
    Lemma pairs_both_ok : forall l k n first s cs s',
      (forall r, In r l -> (r < next s)%nat /\ parent_ok (ok := ok) k n (genotype (heap s r))) -> (first < next s)%nat ->
      cross_pairs_both k (Z.of_nat n) first l s = Ok cs s' ->
      length cs = length l /\ cs = seq (next s) (length cs) /\ next s' = (next s + length cs)%nat /\ extends s s' /\
      Forall2 (fun p c => exists g1 g2, twins k n (genotype (heap s (fst p))) (genotype (heap s (snd p))) g1 g2 /\
                                    heap s' (fst c) = child_of (heap s first) g1 /\ heap s' (snd c) = child_of (heap s first) g2) (pairs_of l) (pairs_of cs).
    Proof.
      intros l. pattern l. apply pair_ind; clear l.
      - intros k n first s cs s' Hl Hf H. cbn [cross_pairs_both] in H. apply ret_ok in H. destruct H as [-> ->]. split; [reflexivity|]. split; [reflexivity|]. split; [cbn; lia|]. split; [apply extends_refl|constructor].
      - intros a k n first s cs s' Hl Hf H. discriminate.
      - intros a b l IH k n first s cs s' Hl Hf H. cbn [cross_pairs_both] in H.
        bd H ia sa Ra. apply get_ok in Ra. destruct Ra as [-> ->]. bd H ib sb Rb. apply get_ok in Rb. destruct Rb as [-> ->].
        bd H c s3 R1. bd H cs' s4 R2. apply ret_ok in H. destruct H as [-> ->].
        destruct (Hl a) as [Na Oa]; [left; auto|]. destruct (Hl b) as [Nb Ob]; [right; left; auto|].
        destruct (both_ok _ _ _ _ _ _ _ _ Oa Ob R1) as (-> & N3 & X & g1 & g2 & Tw & H1 & H2). pose proof X as (_ & _ & _ & _ & Xh).
        destruct (IH k n first s3 cs' s4) as (L & E & N & X' & F); auto.
        + intros r Hr. destruct (Hl r) as [Nr Or]; [right; right; auto|]. split; [lia|]. rewrite Xh; auto.
        + lia.
        + cbn [length fst snd pairs_of]. split; [lia|]. split; [rewrite E at 1; rewrite N3; reflexivity|]. split; [lia|].
          split; [eapply extends_trans; eauto|]. destruct X' as (_ & _ & _ & _ & Xh'). constructor.
          * exists g1, g2. cbn [fst snd]. split; auto. rewrite !Xh' by lia. auto.
          * assert (Hp : forall p, In p (pairs_of l) -> In (fst p) l /\ In (snd p) l).
            { clear. pattern l. apply pair_ind; clear l; simpl; try tauto. intros a b l IH p [<-|Hp]; simpl; auto. apply IH in Hp. tauto. }
            clear - F Xh Hl Hf Hp. revert Hp F. generalize (pairs_of l) as ps, (pairs_of cs') as qs. intros ps qs Hp F.
            induction F as [|p r ps rs (h1 & h2 & Tw & G1 & G2) F IH]; constructor.
            -- exists h1, h2. destruct (Hp p) as [I1 I2]; [left; auto|]. rewrite (Xh (fst p)), (Xh (snd p)) in Tw by (apply Hl; right; right; auto). rewrite Xh in G1, G2 by auto. auto.
            -- apply IH. intros; apply Hp; right; auto.
    Qed.
    (** As many children as parents: new individuals with the keys of the first member,
        two by two the twins of the pairs of parents; nothing else changes. *)
    Theorem C81_children : forall k n gd s gd' s', cross_pre (ok := ok) k n gd s -> crossover_execute_both k gd s = Ok gd' s' ->
      gd' = set_children (children gd') gd /\ length (children gd') = length (parents gd) /\ children gd' = seq (next s) (length (children gd')) /\
      (forall r, (r < next s)%nat -> heap s' r = heap s r) /\ log s' = log s /\
      Forall2 (fun p c => twins k n (genotype (heap s (fst p))) (genotype (heap s (snd p))) (genotype (heap s' (fst c))) (genotype (heap s' (snd c))) /\
          forall r, r = fst c \/ r = snd c -> score (heap s' r) = SVNone /\ obj_score (heap s' r) = SVNone /\ feasible (heap s' r) = true /\ idx_individ (heap s' r) = None)
        (pairs_of (parents gd)) (pairs_of (children gd')).
    Proof.
      intros k n gd s gd' s' (Hm & (first & rest & Em & Ln) & Hp) H. unfold crossover_execute_both in H. rewrite Em in H. unfold get_empty_copy in H.
      bd H i0 s1 R1. apply get_ok in R1. destruct R1 as [-> ->]. rewrite Ln in H. bd H l0 s1 R1. bd R1 u s2 R2. apply ret_ok in R1. destruct R1 as [-> ->].
      bd H cs s3 R0. apply ret_ok in H. destruct H as [-> ->]. apply extends_do_seed in R2. destruct R2 as (X1 & N1 & H1).
      apply pairs_both_ok in R0.
      - destruct R0 as (L & E & N & X & F). cbn [children set_children]. rewrite N1, H1 in *. pose proof (extends_trans _ _ _ X1 X) as (_ & Y1 & _ & _ & Y2).
        split; [reflexivity|]. split; [exact L|]. split; [exact E|]. split; [exact Y2|]. split; [exact Y1|].
        eapply Forall2_impl; [|exact F]. intros p c (g1 & g2 & Tw & G1 & G2). rewrite G1, G2. split; [exact Tw|]. intros r [->| ->]; rewrite ?G1, ?G2; cbn; auto.
      - intros r Hr. rewrite N1, H1. auto.
      - rewrite N1. apply Hm. rewrite Em. left; auto.
    Qed.
    Theorem C81_no_exception : forall k n gd s m e, cross_pre (ok := ok) k n gd s -> (min_len k <= n)%nat -> length (parents gd) = (2 * m)%nat -> crossover_execute_both k gd s <> Err e.
    Proof.
      intros k n gd s m e (Hm & (first & rest & Em & Ln) & Hp) Hn L. assert (X : safe (crossover_execute_both k gd) s); [|exact (X e)]. unfold crossover_execute_both. rewrite Em.
      apply safe_bind; [apply safe_get|]. intros i0 s1 R1. apply get_ok in R1. destruct R1 as [-> ->]. rewrite Ln.
      apply safe_bind. { unfold get_empty_copy. apply safe_bind; [apply safe_do_seed|intros; apply safe_ret]. }
      intros l0 s1 R1. unfold get_empty_copy in R1. bd R1 u s2 R2. apply ret_ok in R1. destruct R1 as [_ ->]. apply extends_do_seed in R2. destruct R2 as (_ & N1 & H1).
      apply safe_bind; [|intros; apply safe_ret].
      assert (P : forall r, In r (parents gd) -> (r < next s2)%nat /\ parent_ok (ok := ok) k n (genotype (heap s2 r))) by (intros; rewrite N1, H1; auto).
      clear - P L Hn NL. revert s2 m L P. generalize (parents gd) as l. intros l. pattern l. apply pair_ind; clear l.
      - intros. apply safe_ret.
      - intros a s m L. cbn in L. lia.
      - intros a b l IH s m L P. cbn [cross_pairs_both]. destruct (P a) as [Na Oa]; [left; auto|]. destruct (P b) as [Nb Ob]; [right; left; auto|].
        apply safe_bind; [apply safe_get|]. intros ia s1 R1. apply get_ok in R1. destruct R1 as [-> ->]. apply safe_bind; [apply safe_get|]. intros ib s2 R2. apply get_ok in R2. destruct R2 as [-> ->].
        apply safe_bind.
        { unfold get_children_both. apply safe_bind; [apply safe_get|]. intros i0 s3 R3. apply get_ok in R3. destruct R3 as [-> ->].
          apply safe_bind; [eapply crossover_safe; eauto|]. intros gs s4 R4. apply safe_bind; [apply safe_alloc|]. intros c1 s5 R5. apply safe_bind; [apply safe_alloc|intros; apply safe_ret]. }
        intros c s3 R3. destruct (both_ok _ _ _ _ _ _ _ _ Oa Ob R3) as (_ & N3 & (_ & _ & _ & _ & Xh) & _).
        apply safe_bind; [|intros; apply safe_ret]. apply (IH s3 (m - 1)%nat); [cbn in L; lia|]. intros r Hr. destruct (P r) as [Nr Or]; [right; right; auto|]. split; [lia|]. rewrite Xh; auto.
    Qed.
  End Order.
  (** One- and two-point twins hold together exactly the genes of the two parents,
      at each position the two genes of that position. *)
  Theorem C81_complementary : forall k n p1 p2 c1 c2, k = OnePoint \/ k = TwoPoint -> length p1 = n -> length p2 = n -> twins k n p1 p2 c1 c2 ->
    length c1 = n /\ length c2 = n /\ Permutation (c1 ++ c2) (p1 ++ p2) /\
    forall i d, (i < n)%nat -> (nth i c1 d = nth i p1 d /\ nth i c2 d = nth i p2 d) \/ (nth i c1 d = nth i p2 d /\ nth i c2 d = nth i p1 d).
  Proof.
    assert (PP : forall n (p1 p2 c1 c2 : list gv), length p1 = n -> length p2 = n -> length c1 = n -> length c2 = n ->
      (forall i d, (i < n)%nat -> (nth i c1 d = nth i p1 d /\ nth i c2 d = nth i p2 d) \/ (nth i c1 d = nth i p2 d /\ nth i c2 d = nth i p1 d)) -> Permutation (c1 ++ c2) (p1 ++ p2)).
    { induction n as [|n IH]; intros [|x p1] [|y p2] [|u c1] [|v c2] L1 L2 L3 L4 F; cbn in L1, L2, L3, L4; try lia; [constructor|].
      cbn [app]. assert (IHp : Permutation (c1 ++ c2) (p1 ++ p2)). { apply IH; try lia. intros i d Hi. apply (F (S i) d). lia. }
      assert (X : Permutation (u :: c1 ++ v :: c2) (u :: v :: p1 ++ p2)). { constructor. rewrite <- Permutation_middle. constructor. exact IHp. }
      rewrite X. assert (Y : Permutation (x :: p1 ++ y :: p2) (x :: y :: p1 ++ p2)). { constructor. rewrite <- Permutation_middle. reflexivity. }
      rewrite Y. destruct (F 0%nat u) as [[A B]|[A B]]; [lia| |]; cbn in A, B; subst; [reflexivity|apply perm_swap]. }
    intros k n p1 p2 c1 c2 Hk L1 L2 T.
    assert (X : length c1 = n /\ length c2 = n /\
      forall i d, (i < n)%nat -> (nth i c1 d = nth i p1 d /\ nth i c2 d = nth i p2 d) \/ (nth i c1 d = nth i p2 d /\ nth i c2 d = nth i p1 d)).
    { destruct Hk as [-> | ->]; cbn [twins] in T.
      - destruct T as (h & Hh & -> & ->). split; [rewrite app_length, firstn_length, skipn_length; lia|]. split; [rewrite app_length, firstn_length, skipn_length; lia|].
        assert (N : forall (a b : list gv) i d, length a = n -> nth i (firstn h a ++ skipn h b) d = if (i <? h)%nat then nth i a d else nth i b d).
        { intros a b i d La. destruct (Nat.ltb_spec i h).
          - rewrite app_nth1 by (rewrite firstn_length; lia). apply firstn_nth; auto.
          - rewrite app_nth2 by (rewrite firstn_length; lia). rewrite firstn_length, skipn_nth. f_equal. lia. }
        intros i d Hi. rewrite !N by auto. destruct (i <? h)%nat; auto.
      - destruct T as (h & j & Hh & Hj & -> & ->).
        assert (N : forall (a b : list gv) i d, length a = n -> length b = n ->
          nth i (firstn h a ++ firstn (j - h) (skipn h b) ++ skipn j a) d = if ((h <=? i) && (i <? j))%nat then nth i b d else nth i a d).
        { intros a b i d La Lb. destruct (Nat.leb_spec h i), (Nat.ltb_spec i j); simpl.
          - rewrite app_nth2, app_nth1 by (rewrite ?firstn_length, ?skipn_length; lia).
            rewrite firstn_nth, skipn_nth by (rewrite firstn_length; lia). rewrite firstn_length. f_equal. lia.
          - rewrite app_nth2, app_nth2 by (rewrite ?firstn_length, ?skipn_length; lia).
            rewrite skipn_nth, !firstn_length, skipn_length. f_equal. lia.
          - rewrite app_nth1 by (rewrite firstn_length; lia). apply firstn_nth; auto.
          - rewrite app_nth1 by (rewrite firstn_length; lia). apply firstn_nth; auto. }
        split; [rewrite !app_length, !firstn_length, !skipn_length; lia|]. split; [rewrite !app_length, !firstn_length, !skipn_length; lia|].
        intros i d Hi. rewrite !N by auto. destruct (_ && _); auto. }
    destruct X as (X1 & X2 & X3). split; [exact X1|]. split; [exact X2|]. split; [|exact X3]. eapply PP; eauto.
  Qed.
End C81.

(** Three members, two pairs of parents: four children. *)
Local Existing Instance Qops.
Example C81_example :
  cross_pre (ok := fun _ => True) Order 4 C15_gd C15_state /\
  observe (fun gd' s' => (children gd', genotype (heap s' 3%nat), genotype (heap s' 4%nat)))
     (crossover_execute_both Order C15_gd C15_state) = Some ([3; 4; 5; 6]%nat, ints [1;2;4;3], ints [4;3;1;2]).
Proof. split; [exact (proj1 C15_example)|]. run. Qed.
Example C81_example_one_point :
  observe (fun gd' s' => (children gd', genotype (heap s' 3%nat), genotype (heap s' 4%nat)))
     (crossover_execute_both OnePoint C15_gd C15_state) = Some ([3; 4; 5; 6]%nat, ints [1;3;2;1], ints [4;2;3;4]).
Proof. run. Qed.

Print Assumptions C81_twins.
Print Assumptions C81_children.
Print Assumptions C81_no_exception.
Print Assumptions C81_complementary.
