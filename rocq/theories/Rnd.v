(** Exact sets of possible results of computations that only draw random numbers. *)
From Coq Require Import ZArith List Bool Lia Permutation.
From Verif Require Import Num State ListLemmas.
Import ListNotations.
Open Scope Z_scope.

Section Rnd.
  Context {NO : NumOps}.

  (** A finite prefix of raw draws put in front of a generator state. *)
  Fixpoint papp (ds : list Z) (t : nat -> Z) : nat -> Z :=
    match ds with
    | [] => t
    | d :: ds' => fun i => match i with O => d | S i' => papp ds' t i' end
    end.
  Lemma papp_app : forall a b t, papp (a ++ b) t = papp a (papp b t).
  Proof. induction a; simpl; auto. intros. rewrite IHa. reflexivity. Qed.

  (** [possible m R]: from every state [m] succeeds, changes only the generator and
      returns an element of [R]; and each element of [R] is returned for suitable
      draws, whatever follows them. *)
  Definition possible {A} (m : M A) (R : A -> Prop) : Prop :=
    (forall s, exists a t, m s = Ok a (set_tape t s) /\ R a) /\
    (forall a, R a -> exists ds, forall t s, m (set_tape (papp ds t) s) = Ok a (set_tape t s)).

  Lemma set_tape_set : forall t t' s, set_tape t (set_tape t' s) = set_tape t s.
  Proof. reflexivity. Qed.
  Lemma set_tape_same : forall s, set_tape (tape s) s = s.
  Proof. destruct s; reflexivity. Qed.

  Lemma possible_ret : forall {A} (a : A), possible (ret a) (fun x => x = a).
  Proof.
    intros. split.
    - intros s. exists a, (tape s). rewrite set_tape_same. auto.
    - intros x ->. exists []. reflexivity.
  Qed.

  Lemma possible_bind : forall {A B} (m : M A) (k : A -> M B) R R',
    possible m R -> (forall a, R a -> possible (k a) (R' a)) ->
    possible (bind m k) (fun b => exists a, R a /\ R' a b).
  Proof.
    intros A B m k R R' [Hm1 Hm2] Hk. split.
    - intros s. destruct (Hm1 s) as (a & t & Ha & Ra).
      destruct (proj1 (Hk a Ra) (set_tape t s)) as (b & t' & Hb & Rb).
      exists b, t'. unfold bind. rewrite Ha, Hb, set_tape_set. eauto.
    - intros b (a & Ra & Rb). destruct (Hm2 a Ra) as (ds & Hds).
      destruct (proj2 (Hk a Ra) b Rb) as (ds' & Hds').
      exists (ds ++ ds'). intros t s. rewrite papp_app. unfold bind. rewrite Hds. apply Hds'.
  Qed.

  Lemma possible_iff : forall {A} (m : M A) (R R' : A -> Prop),
    possible m R -> (forall a, R a <-> R' a) -> possible m R'.
  Proof.
    intros A m R R' [H1 H2] E. split.
    - intros s. destruct (H1 s) as (a & t & Ha & Ra). exists a, t. split; auto. apply E; auto.
    - intros a Ra. apply H2, E, Ra.
  Qed.

  (** What [possible] says about single runs. *)
  Lemma possible_sound : forall {A} (m : M A) R s a s', possible m R -> m s = Ok a s' ->
    R a /\ s' = set_tape (tape s') s.
  Proof.
    intros A m R s a s' [H _] E. destruct (H s) as (a' & t & E' & Ra). rewrite E in E'.
    inversion E'; subst. split; auto.
  Qed.
  Lemma possible_complete : forall {A} (m : M A) R s a, possible m R -> R a ->
    exists t t', m (set_tape t s) = Ok a (set_tape t' s).
  Proof.
    intros A m R s a [_ H] Ra. destruct (H a Ra) as (ds & Hds).
    exists (papp ds (tape s)), (tape s). apply Hds.
  Qed.

  Lemma possible_draw : forall k, 0 < k -> possible (draw k) (fun x => 0 <= x < k).
  Proof.
    intros k Hk. split.
    - intros s. unfold draw. eexists _, _. split; [reflexivity|]. apply Z.mod_pos_bound; auto.
    - intros a Ha. exists [a]. intros t s. unfold draw. simpl. rewrite Z.mod_small by lia. reflexivity.
  Qed.

  Lemma possible_randint : forall a b, a <= b -> possible (randint a b) (fun x => a <= x <= b).
  Proof.
    intros a b H. unfold randint. destruct (b <? a) eqn:E; [apply Z.ltb_lt in E; lia|].
    eapply possible_iff.
    - apply possible_bind; [apply possible_draw; lia|]. intros k Hk. apply possible_ret.
    - intros x. split.
      + intros (k & Hk & ->). lia.
      + intros Hx. exists (x - a). lia.
  Qed.
  Lemma randint_empty : forall a b s, b < a -> randint a b s = Err ValueError.
  Proof. intros. unfold randint. destruct (b <? a) eqn:E; auto. apply Z.ltb_ge in E; lia. Qed.

  Lemma possible_choice : forall {A} (l : list A), l <> [] -> possible (choice l) (fun x => In x l).
  Proof.
    intros A [|d l] H; [congruence|]. unfold choice.
    eapply possible_iff.
    - apply possible_bind; [apply possible_draw; simpl; lia|]. intros k Hk. apply possible_ret.
    - intros x. split.
      + intros (k & Hk & ->). apply nth_In. lia.
      + intros Hx. apply (In_nth _ _ d) in Hx. destruct Hx as (n & Hn & E).
        exists (Z.of_nat n). rewrite Nat2Z.id. split; [lia|congruence].
  Qed.

  Lemma possible_randrange : forall a b k, k <> 0 -> 0 < range_len a b k ->
    possible (randrange a b k) (fun x => In x (py_range a b k)).
  Proof.
    intros a b k Hk Hl. unfold randrange. destruct (k =? 0) eqn:E; [apply Z.eqb_eq in E; lia|].
    destruct (range_len a b k <=? 0) eqn:E1; [apply Z.leb_le in E1; lia|].
    eapply possible_iff.
    - apply possible_bind; [apply possible_draw; auto|]. intros i Hi. apply possible_ret.
    - intros x. rewrite in_py_range. split; intros (i & Hi & ->); eauto.
  Qed.

  Lemma possible_random : possible random_ (fun x => exists k, 0 <= k < 2 ^ 53 /\ x = nrand k).
  Proof.
    unfold random_. eapply possible_iff.
    - apply possible_bind; [apply possible_draw; reflexivity|]. intros k Hk. apply possible_ret.
    - intros x. reflexivity.
  Qed.

  (** Loops. *)
  Lemma possible_mmap : forall {A B} (f : A -> M B) (R : A -> B -> Prop) l,
    (forall a, In a l -> possible (f a) (R a)) -> possible (mmap f l) (fun bs => Forall2 R l bs).
  Proof.
    intros A B f R l. induction l as [|a l IH]; intros H; simpl.
    - eapply possible_iff; [apply possible_ret|]. intros bs. split.
      + intros ->. constructor.
      + intros H1. inversion H1. auto.
    - eapply possible_iff.
      + apply possible_bind; [apply H; left; auto|]. intros b Hb.
        apply possible_bind; [apply IH; intros; apply H; right; auto|].
        intros bs Hbs. apply possible_ret.
      + intros bs. split.
        * intros (b & Hb & bs' & Hbs & ->). constructor; auto.
        * intros H1. inversion H1; subst. eauto 6.
  Qed.

  (** sample: the possible results are the lists of elements at distinct positions. *)
  Inductive picks {A} : nat -> list A -> list A -> Prop :=
  | picks_O : forall l, picks O l []
  | picks_S : forall k l i x r, nth_error l i = Some x -> picks k (remove_at i l) r ->
      picks (S k) l (x :: r).

  Lemma possible_sample_loop : forall {A} k (l : list A), (k <= length l)%nat ->
    possible (sample_loop k l) (picks k l).
  Proof.
    intros A k. induction k; intros l Hk; simpl.
    - eapply possible_iff; [apply possible_ret|]. intros a. split.
      + intros ->. constructor.
      + intros H. inversion H. auto.
    - destruct l as [|d l]; [simpl in Hk; lia|].
      eapply possible_iff.
      + apply possible_bind; [apply possible_draw; simpl; lia|]. intros i Hi. cbv beta in Hi.
        apply possible_bind; [apply IHk; rewrite remove_at_length; simpl length in *; lia|].
        intros r Hr. apply possible_ret.
      + intros a. split.
        * intros (i & Hi & r & Hr & ->). econstructor; [|eauto].
          apply nth_error_nth'. simpl length in *. lia.
        * intros H. inversion H; subst. exists (Z.of_nat i). rewrite Nat2Z.id.
          apply nth_error_nth_iff with (d := d) in H1. destruct H1 as [H1 <-].
          split; [simpl length in *; lia|]. exists r. auto.
  Qed.
  Lemma possible_sample : forall {A} (l : list A) k, 0 <= k <= Z.of_nat (length l) ->
    possible (sample l k) (picks (Z.to_nat k) l).
  Proof.
    intros. unfold sample. destruct (_ || _) eqn:E.
    - apply orb_true_iff in E. rewrite !Z.ltb_lt in E. lia.
    - apply possible_sample_loop. lia.
  Qed.
  Lemma sample_error : forall {A} (l : list A) k s, k < 0 \/ Z.of_nat (length l) < k ->
    sample l k s = Err ValueError.
  Proof.
    intros. unfold sample. destruct (_ || _) eqn:E; auto.
    apply orb_false_iff in E. rewrite !Z.ltb_ge in E. lia.
  Qed.

  Lemma picks_length : forall {A} k (l r : list A), picks k l r -> length r = k.
  Proof. induction 1; simpl; auto. Qed.
  Lemma picks_sub : forall {A} k (l r : list A), picks k l r -> exists rest, Permutation (r ++ rest) l.
  Proof.
    induction 1 as [l|k l i x r Hn Hp IH].
    - exists l. auto.
    - destruct IH as (rest & IH). exists rest. simpl.
      assert (Hi : (i < length l)%nat) by (apply nth_error_Some; congruence).
      eapply perm_trans; [apply perm_skip, IH|].
      pose proof (remove_at_perm i l x Hi) as P.
      rewrite (nth_error_nth l i x Hn) in P. exact P.
  Qed.
  Lemma picks_incl : forall {A} k (l r : list A), picks k l r -> incl r l.
  Proof.
    intros A k l r H. destruct (picks_sub _ _ _ H) as (rest & P). intros x Hx.
    apply (Permutation_in _ P), in_or_app. auto.
  Qed.
  Lemma picks_nodup : forall {A} k (l r : list A), picks k l r -> NoDup l -> NoDup r.
  Proof.
    intros A k l r H Hl. destruct (picks_sub _ _ _ H) as (rest & P).
    apply (Permutation_NoDup (Permutation_sym P)) in Hl.
    clear - Hl. induction r; [constructor|]. inversion Hl; subst. constructor; auto.
    intros Hin. apply H1. apply in_or_app; auto.
  Qed.
  (** Conversely every duplicate-free selection can be picked. *)
  Lemma picks_of_sub : forall {A} (r l rest : list A), Permutation (r ++ rest) l -> picks (length r) l r.
  Proof.
    induction r as [|x r IH]; intros l rest P; [constructor|].
    assert (Hx : In x l) by (apply (Permutation_in _ P); left; auto).
    apply (In_nth _ _ x) in Hx. destruct Hx as (i & Hi & E).
    simpl. econstructor.
    - apply nth_error_nth_iff with (d := x). split; eauto.
    - apply IH with rest. apply Permutation_cons_inv with x.
      eapply perm_trans; [exact P|].
      rewrite <- E at 1. symmetry. apply remove_at_perm. auto.
  Qed.
  Lemma picks_iff : forall {A} k (l r : list A),
    picks k l r <-> length r = k /\ exists rest, Permutation (r ++ rest) l.
  Proof.
    split.
    - intros H. split; [eapply picks_length; eauto|eapply picks_sub; eauto].
    - intros [<- (rest & P)]. eapply picks_of_sub; eauto.
  Qed.
  Lemma nodup_incl_sub : forall {A} (r l : list A), NoDup r -> incl r l -> exists rest, Permutation (r ++ rest) l.
  Proof.
    induction r as [|x r IH]; intros l Hn Hi; [exists l; auto|].
    inversion Hn; subst. assert (Hx : In x l) by (apply Hi; left; auto).
    apply in_split in Hx. destruct Hx as (l1 & l2 & ->).
    destruct (IH (l1 ++ l2)) as (rest & P); auto.
    - intros y Hy. assert (In y (l1 ++ x :: l2)) by (apply Hi; right; auto).
      apply in_app_or in H. apply in_or_app. destruct H as [H|[->|H]]; auto. contradiction.
    - exists rest. simpl. apply Permutation_cons_app. auto.
  Qed.
  Lemma picks_nodup_iff : forall {A} k (l r : list A), NoDup l ->
    (picks k l r <-> length r = k /\ NoDup r /\ incl r l).
  Proof.
    intros A k l r Hl. split.
    - intros H. split; [eapply picks_length; eauto|]. split; [eapply picks_nodup; eauto|eapply picks_incl; eauto].
    - intros (Hk & Hn & Hi). apply picks_iff. split; auto. apply nodup_incl_sub; auto.
  Qed.
End Rnd.
