(** Facts about lists, Python slices and ranges. *)
From Coq Require Import ZArith List Bool Lia Permutation Sorted.
From Verif Require Import Num State.
Import ListNotations.
Open Scope Z_scope.

(** *** Ranges *)
Lemma range_len_nonneg : forall a b k, k <> 0 -> 0 <= range_len a b k.
Proof.
  intros a b k Hk. unfold range_len.
  destruct (0 <? k) eqn:E.
  - apply Z.ltb_lt in E. destruct (a <? b) eqn:E1; [|lia].
    apply Z.ltb_lt in E1. pose proof (Z.div_pos (b - a - 1) k). lia.
  - apply Z.ltb_ge in E. destruct (b <? a) eqn:E1; [|lia].
    apply Z.ltb_lt in E1. pose proof (Z.div_pos (a - b - 1) (- k)). lia.
Qed.

Lemma range_len_1 : forall a b, range_len a b 1 = Z.max 0 (b - a).
Proof.
  intros. unfold range_len. simpl. destruct (a <? b) eqn:E.
  - apply Z.ltb_lt in E. rewrite Z.div_1_r. lia.
  - apply Z.ltb_ge in E. lia.
Qed.

Lemma zrange_length : forall a b, length (zrange a b) = Z.to_nat (b - a).
Proof.
  intros. unfold zrange, py_range. rewrite map_length, seq_length, range_len_1. lia.
Qed.

Lemma zrange_length_Z : forall a b, Z.of_nat (length (zrange a b)) = Z.max 0 (b - a).
Proof. intros. rewrite zrange_length. lia. Qed.

Lemma zrange_eq : forall a b,
  zrange a b = map (fun i => a + Z.of_nat i) (seq 0 (Z.to_nat (b - a))).
Proof.
  intros. unfold zrange, py_range. rewrite range_len_1.
  replace (Z.to_nat (Z.max 0 (b - a))) with (Z.to_nat (b - a)) by lia.
  apply map_ext. intros. lia.
Qed.

Lemma in_zrange : forall a b x, In x (zrange a b) <-> a <= x < b.
Proof.
  intros. rewrite zrange_eq, in_map_iff. split.
  - intros (i & <- & Hi). apply in_seq in Hi. lia.
  - intros H. exists (Z.to_nat (x - a)). split; [lia|]. apply in_seq. lia.
Qed.

Lemma nodup_map_inj : forall {A B} (f : A -> B) l,
  (forall x y, In x l -> In y l -> f x = f y -> x = y) -> NoDup l -> NoDup (map f l).
Proof.
  induction l as [|a l IH]; intros Hf Hl; simpl; [constructor|].
  inversion Hl; subst. constructor.
  - intros Hin. apply in_map_iff in Hin. destruct Hin as (y & Hy & Hin).
    apply Hf in Hy; [subst; auto|right; auto|left; auto].
  - apply IH; auto. intros. apply Hf; auto; right; auto.
Qed.

Lemma zrange_nodup : forall a b, NoDup (zrange a b).
Proof.
  intros. rewrite zrange_eq. apply nodup_map_inj; [|apply seq_NoDup]. intros. lia.
Qed.

Lemma zrange_nth : forall a b n d, (n < Z.to_nat (b - a))%nat -> nth n (zrange a b) d = a + Z.of_nat n.
Proof.
  intros. rewrite zrange_eq.
  rewrite nth_indep with (d' := a + Z.of_nat 0) by (rewrite map_length, seq_length; auto).
  rewrite (map_nth (fun i => a + Z.of_nat i)). rewrite seq_nth by auto. lia.
Qed.

Lemma zrange_cons : forall a b, a < b -> zrange a b = a :: zrange (a + 1) b.
Proof.
  intros. rewrite !zrange_eq. replace (Z.to_nat (b - a)) with (S (Z.to_nat (b - (a + 1)))) by lia.
  simpl. f_equal; [lia|]. rewrite <- seq_shift, map_map. apply map_ext. intros. lia.
Qed.
Lemma zrange_nil : forall a b, b <= a -> zrange a b = [].
Proof. intros. rewrite zrange_eq. replace (Z.to_nat (b - a)) with O by lia. reflexivity. Qed.
Lemma zrange_snoc : forall a b, a <= b -> zrange a (b + 1) = zrange a b ++ [b].
Proof.
  intros. rewrite !zrange_eq. replace (Z.to_nat (b + 1 - a)) with (S (Z.to_nat (b - a))) by lia.
  rewrite seq_S, map_app. simpl. do 2 f_equal. lia.
Qed.

Lemma py_range_length : forall a b k, length (py_range a b k) = Z.to_nat (range_len a b k).
Proof. intros. unfold py_range. rewrite map_length, seq_length. reflexivity. Qed.

Lemma py_range_nth : forall a b k n d, (n < Z.to_nat (range_len a b k))%nat ->
  nth n (py_range a b k) d = a + Z.of_nat n * k.
Proof.
  intros. unfold py_range.
  rewrite nth_indep with (d' := a + Z.of_nat 0 * k) by (rewrite map_length, seq_length; auto).
  rewrite (map_nth (fun i => a + Z.of_nat i * k)). rewrite seq_nth by auto. reflexivity.
Qed.

Lemma in_py_range : forall a b k x,
  In x (py_range a b k) <-> exists i, 0 <= i < range_len a b k /\ x = a + i * k.
Proof.
  intros. unfold py_range. rewrite in_map_iff. split.
  - intros (i & <- & Hi). apply in_seq in Hi. exists (Z.of_nat i). split; [lia|reflexivity].
  - intros (i & Hi & ->). exists (Z.to_nat i). split.
    + rewrite Z2Nat.id by lia. reflexivity.
    + apply in_seq. lia.
Qed.

(** *** Slices with in-range bounds *)
Lemma slice_pos_in : forall n i, 0 <= i <= n -> slice_pos n i = Z.to_nat i.
Proof. intros. unfold slice_pos. destruct (i <? 0) eqn:E; [apply Z.ltb_lt in E; lia|]. lia. Qed.
Lemma slice_from_in : forall {A} (l : list A) i, 0 <= i <= Z.of_nat (length l) ->
  slice_from l i = skipn (Z.to_nat i) l.
Proof. intros. unfold slice_from. rewrite slice_pos_in by lia. reflexivity. Qed.
Lemma slice_to_in : forall {A} (l : list A) i, 0 <= i <= Z.of_nat (length l) ->
  slice_to l i = firstn (Z.to_nat i) l.
Proof. intros. unfold slice_to. rewrite slice_pos_in by lia. reflexivity. Qed.
Lemma slice_in : forall {A} (l : list A) i j, 0 <= i <= Z.of_nat (length l) -> 0 <= j <= Z.of_nat (length l) ->
  slice l i j = firstn (Z.to_nat j - Z.to_nat i) (skipn (Z.to_nat i) l).
Proof. intros. unfold slice. rewrite !slice_pos_in by lia. reflexivity. Qed.

Lemma py_nth_in : forall {A} (l : list A) i, 0 <= i < Z.of_nat (length l) ->
  py_nth l i = nth_error l (Z.to_nat i).
Proof.
  intros. unfold py_nth. destruct (i <? 0) eqn:E; [apply Z.ltb_lt in E; lia|].
  destruct (i <? 0) eqn:E1; [discriminate|]. simpl.
  destruct (Z.of_nat (length l) <=? i) eqn:E2; [apply Z.leb_le in E2; lia|]. reflexivity.
Qed.
Lemma py_nth_some : forall {A} (l : list A) i x, py_nth l i = Some x -> In x l.
Proof.
  intros A l i x. unfold py_nth. destruct (_ || _); [discriminate|]. apply nth_error_In.
Qed.
Lemma py_nth_last : forall {A} (l : list A) x, py_nth (l ++ [x]) (-1) = Some x.
Proof.
  intros. unfold py_nth. rewrite app_length. simpl length.
  change (-1 <? 0) with true. cbv beta iota zeta.
  destruct (_ <? 0) eqn:E; [apply Z.ltb_lt in E; lia|].
  destruct (_ <=? _) eqn:E2; [apply Z.leb_le in E2; lia|]. cbn [orb].
  rewrite nth_error_app2 by lia.
  replace (Z.to_nat (-1 + Z.of_nat (length l + 1)) - length l)%nat with O by lia. reflexivity.
Qed.
Lemma py_nth_nil : forall {A} i, py_nth (@nil A) i = None.
Proof.
  intros. unfold py_nth. simpl. destruct (i <? 0) eqn:E.
  - destruct (_ || _) eqn:E1; auto. apply orb_false_iff in E1. destruct E1 as [E1 _].
    apply Z.ltb_ge in E1. apply Z.ltb_lt in E. lia.
  - destruct (_ || _) eqn:E1; auto. apply orb_false_iff in E1. destruct E1 as [_ E1].
    apply Z.leb_gt in E1. apply Z.ltb_ge in E. lia.
Qed.
Lemma list_snoc : forall {A} (l : list A), l <> [] -> exists l' x, l = l' ++ [x].
Proof. intros A l H. destruct (exists_last H) as (l' & x & ->). eauto. Qed.

Lemma skipn_last : forall {A} k (l : list A) x, (k <= length l)%nat -> skipn k (l ++ [x]) = skipn k l ++ [x].
Proof.
  intros. rewrite skipn_app. replace (k - length l)%nat with O by lia. reflexivity.
Qed.

(** *** remove_at, list_insert, list_set *)
Lemma remove_at_length : forall {A} i (l : list A), (i < length l)%nat -> length (remove_at i l) = (length l - 1)%nat.
Proof. intros. unfold remove_at. rewrite app_length, firstn_length, skipn_length. lia. Qed.
Lemma remove_at_perm : forall {A} i (l : list A) d, (i < length l)%nat -> Permutation (nth i l d :: remove_at i l) l.
Proof.
  intros A i l d H. unfold remove_at.
  rewrite <- (firstn_skipn i l) at 4.
  assert (E : skipn i l = nth i l d :: skipn (S i) l).
  { clear - H. revert i H. induction l; intros i H; simpl in *; [lia|].
    destruct i; simpl; auto. apply IHl. lia. }
  rewrite E. apply Permutation_middle.
Qed.
Lemma skipn_cons_nth : forall {A} i (l : list A) d, (i < length l)%nat -> skipn i l = nth i l d :: skipn (S i) l.
Proof.
  induction i; intros l d H; destruct l; simpl in *; try lia; auto. apply IHi. lia.
Qed.
Lemma list_set_length : forall {A} (l : list A) i x, length (list_set l i x) = length l.
Proof. induction l; intros [|i] x; simpl; auto. Qed.
Lemma list_set_split : forall {A} (l : list A) i x, (i < length l)%nat ->
  list_set l i x = firstn i l ++ x :: skipn (S i) l.
Proof. induction l; intros [|i] x H; simpl in *; try lia; auto. f_equal. apply IHl. lia. Qed.
Lemma list_set_nth : forall {A} (l : list A) i x j d, (i < length l)%nat ->
  nth j (list_set l i x) d = if Nat.eqb j i then x else nth j l d.
Proof.
  induction l; intros i x j d H; simpl in *; [lia|].
  destruct i, j; simpl; auto. apply IHl. lia.
Qed.
Lemma list_insert_perm : forall {A} (l : list A) i x, Permutation (list_insert l i x) (x :: l).
Proof.
  intros. unfold list_insert. rewrite <- (firstn_skipn i l) at 3. symmetry. apply Permutation_middle.
Qed.

Lemma nth_error_nth_iff : forall {A} (l : list A) i x d,
  nth_error l i = Some x <-> (i < length l)%nat /\ nth i l d = x.
Proof.
  intros. split.
  - intros H. split; [apply nth_error_Some; congruence|apply nth_error_nth; auto].
  - intros [H <-]. apply nth_error_nth'. auto.
Qed.

Lemma firstn_nth : forall {A} n (l : list A) i d, (i < n)%nat -> nth i (firstn n l) d = nth i l d.
Proof.
  induction n; intros l i d H; [lia|]. destruct l, i; simpl; auto. apply IHn. lia.
Qed.
Lemma skipn_nth : forall {A} n (l : list A) i d, nth i (skipn n l) d = nth (n + i) l d.
Proof. induction n; intros l i d; simpl; auto. destruct l; [destruct i; reflexivity|apply IHn]. Qed.

(** Two lists with the same length and the same elements are equal. *)
Lemma list_ext : forall {A} (a b : list A) d, length a = length b ->
  (forall i, (i < length a)%nat -> nth i a d = nth i b d) -> a = b.
Proof.
  induction a; intros [|y b] d H Hn; simpl in *; try lia; auto.
  f_equal; [apply (Hn O); lia|]. apply IHa with d; [lia|]. intros i Hi. apply (Hn (S i)). lia.
Qed.

(** *** Stable insertion sort *)
Section Sort.
  Context {A : Type} (lt : A -> A -> bool).

  Lemma insert_by_perm : forall x l, Permutation (insert_by lt x l) (x :: l).
  Proof.
    induction l; simpl; auto. destruct (lt a x); auto.
    eapply perm_trans; [apply perm_skip, IHl|apply perm_swap].
  Qed.
  Lemma sort_by_perm : forall l, Permutation (sort_by lt l) l.
  Proof.
    induction l; simpl; auto. eapply perm_trans; [apply insert_by_perm|auto].
  Qed.
  Lemma sort_by_length : forall l, length (sort_by lt l) = length l.
  Proof. intros. apply Permutation_length, sort_by_perm. Qed.

  (** The order laws on the elements of the list. *)
  Definition weak_order_on (P : A -> Prop) :=
    (forall x y, P x -> P y -> lt x y = true -> lt y x = false) /\
    (forall x y z, P x -> P y -> P z -> lt y x = false -> lt z y = false -> lt z x = false).

  (** Sorted: nobody is followed by something smaller. *)
  Definition ascending (l : list A) := StronglySorted (fun x y => lt y x = false) l.

  Lemma insert_by_sorted : forall P x l, weak_order_on P -> P x -> Forall P l ->
    ascending l -> ascending (insert_by lt x l).
  Proof.
    intros P x l [Has Htr] Hx Hl Hs. induction l as [|y l IH]; simpl.
    - repeat constructor.
    - inversion Hs; subst. inversion Hl; subst. destruct (lt y x) eqn:E.
      + constructor; [apply IH; auto|].
        apply Forall_forall. intros z Hz.
        apply (Permutation_in _ (insert_by_perm x l)) in Hz. destruct Hz as [<-|Hz].
        * apply Has; auto.
        * rewrite Forall_forall in *. auto.
      + constructor; auto. constructor; auto.
        rewrite Forall_forall in *. intros z Hz. apply (Htr x y z); auto.
  Qed.
  Lemma sort_by_sorted : forall P l, weak_order_on P -> Forall P l -> ascending (sort_by lt l).
  Proof.
    intros P l Hw Hl. induction l; simpl; [constructor|].
    inversion Hl; subst. apply insert_by_sorted with P; auto.
    apply Forall_forall. intros z Hz. apply (Permutation_in _ (sort_by_perm l)) in Hz.
    rewrite Forall_forall in *. auto.
  Qed.

  (** Stability: elements with equal keys keep their order. *)
  Lemma insert_by_stable : forall (f : A -> bool) x l,
    (forall y, In y l -> f x = true -> f y = true -> lt y x = false) ->
    filter f (insert_by lt x l) = filter f (x :: l).
  Proof.
    intros f x l H. induction l as [|y l IH]; simpl; auto.
    destruct (lt y x) eqn:E; auto. simpl.
    rewrite IH by (intros z Hz; apply H; right; auto). simpl.
    destruct (f x) eqn:Ex; auto. destruct (f y) eqn:Ey; auto.
    rewrite H in E; auto; [discriminate|left; auto].
  Qed.
  Lemma sort_by_stable : forall (f : A -> bool) l,
    (forall x y, In x l -> In y l -> f x = true -> f y = true -> lt y x = false) ->
    filter f (sort_by lt l) = filter f l.
  Proof.
    intros f l H. induction l as [|x l IH]; simpl; auto.
    rewrite insert_by_stable.
    - simpl. rewrite IH; auto. intros. apply H; auto; right; auto.
    - intros y Hy. apply (Permutation_in _ (sort_by_perm l)) in Hy.
      intros. apply H; auto; [left; auto|right; auto].
  Qed.
  (** Sorting a sorted list changes nothing. *)
  Lemma sort_by_id : forall l, ascending l -> sort_by lt l = l.
  Proof.
    induction l as [|x l IH]; simpl; auto. intros Hs. inversion Hs; subst.
    rewrite IH by auto. destruct l; simpl; auto.
    inversion H2; subst. rewrite H3. reflexivity.
  Qed.
End Sort.

Lemma sort_by_ext : forall {A} (f g : A -> A -> bool) l,
  (forall x y, In x l -> In y l -> f x y = g x y) -> sort_by f l = sort_by g l.
Proof.
  intros A f g l H. induction l as [|x l IH]; simpl; auto.
  rewrite IH by (intros; apply H; right; auto).
  assert (Hx : forall y, In y (sort_by g l) -> f y x = g y x).
  { intros y Hy. apply (Permutation_in _ (sort_by_perm g l)) in Hy. apply H; [right|left]; auto. }
  clear IH H. induction (sort_by g l) as [|y m IH]; simpl; auto.
  rewrite Hx by (left; auto). destruct (g y x); auto. f_equal. apply IH. intros. apply Hx. right; auto.
Qed.

Lemma Forall2_length : forall {A B} (R : A -> B -> Prop) l l', Forall2 R l l' -> List.length l = List.length l'.
Proof. induction 1; simpl; auto. Qed.
Lemma app_inj_tail_iff_len : forall {A} (a b c d : list A), List.length a = List.length c -> a ++ b = c ++ d -> a = c /\ b = d.
Proof.
  induction a as [|x a IH]; intros b [|y c] d L E; simpl in *; try discriminate; auto.
  inversion E; subst. destruct (IH b c d) as [-> ->]; auto.
Qed.
Lemma firstn_firstn_skipn : forall {A} k i (l : list A), firstn k l ++ firstn i (skipn k l) = firstn (k + i) l.
Proof.
  induction k; intros i l; simpl; auto. destruct l as [|x l]; simpl; [destruct i; reflexivity|]. f_equal. apply IHk.
Qed.
Lemma skipn_skipn : forall {A} x y (l : list A), skipn x (skipn y l) = skipn (x + y) l.
Proof.
  intros A x y. revert x. induction y; intros x l.
  - rewrite Nat.add_0_r. reflexivity.
  - rewrite Nat.add_succ_r. destruct l; simpl; [destruct x; reflexivity|apply IHy].
Qed.
Lemma Forall2_impl : forall {A B} (P Q : A -> B -> Prop) l l', (forall a b, P a b -> Q a b) -> Forall2 P l l' -> Forall2 Q l l'.
Proof. intros A B P Q l l' H F. induction F; constructor; auto. Qed.
