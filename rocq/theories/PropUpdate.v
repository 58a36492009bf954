(** GaData.update: C35. *)
From Coq Require Import String.
From Coq Require Import ZArith QArith List Bool Lia Permutation Sorted.
From Verif Require Import Spec Num State Binary Population GaData NewGeneration ListLemmas Rnd Exec Laws
  SelectionProofs NewGenProofs UpdateProofs PropNewGeneration Demo.
Import ListNotations.
Open Scope list_scope.
Open Scope Z_scope.

(** Every individual of the list has a usable scalar score. *)
Definition scored {NO : NumOps} (ok : num -> Prop) (s : st) (l : list nat) : Prop :=
  forall r, In r l -> exists x, score (heap s r) = SV1 x /\ ok x.
(** The score of r is below / above x / equal to x. *)
Definition score_below {NO : NumOps} (s : st) (x : num) (r : nat) : bool :=
  match score (heap s r) with SV1 y => nltb y x | _ => false end.
Definition score_above {NO : NumOps} (s : st) (x : num) (r : nat) : bool :=
  match score (heap s r) with SV1 y => nltb x y | _ => false end.
Definition score_is {NO : NumOps} (s : st) (x : num) (r : nat) : bool :=
  match score (heap s r) with SV1 y => neqb x y | _ => false end.
(** x is the score of rank k (counted from 0) of the list: at most k scores are
    smaller, at most n-1-k are larger. *)
Definition order_statistic {NO : NumOps} (s : st) (l : list nat) (k : nat) (x : num) : Prop :=
  (exists r, In r l /\ score (heap s r) = SV1 x) /\
  count_if (score_below s x) l <= Z.of_nat k /\
  count_if (score_above s x) l <= Z.of_nat (length l) - 1 - Z.of_nat k.

Section Facts.
  Context {NO : NumOps}.
  Lemma count_perm : forall {A} (f : A -> bool) l l', Permutation l l' -> count_if f l = count_if f l'.
  Proof.
    intros A f l l' P. unfold count_if. f_equal. induction P; cbn; auto.
    - destruct (f x); cbn; congruence.
    - destruct (f x), (f y); reflexivity.
    - congruence.
  Qed.
  Lemma count_app : forall {A} (f : A -> bool) l l', count_if f (l ++ l') = count_if f l + count_if f l'.
  Proof. intros. unfold count_if. rewrite filter_app, app_length. lia. Qed.
  Lemma count_le : forall {A} (f : A -> bool) l, count_if f l <= Z.of_nat (length l).
  Proof. intros A f l. unfold count_if. induction l; cbn [filter length]; [lia|]. destruct (f a); cbn [length]; lia. Qed.
  Lemma count_none : forall {A} (f : A -> bool) l, (forall x, In x l -> f x = false) -> count_if f l = 0.
  Proof.
    intros A f l. unfold count_if. induction l as [|a l IH]; intros H; [reflexivity|]. cbn [filter]. rewrite H by (left; auto).
    apply IH. intros. apply H; right; auto.
  Qed.
  Lemma sorted_statistic : forall ok s l k r x, NumOrder NO ok -> scored ok s l -> by_score s l ->
    nth_error l k = Some r -> score (heap s r) = SV1 x -> order_statistic s l k x.
  Proof.
    intros ok s l k r x NL Sc B Hk Ex.
    assert (Hr : In r l) by (eapply nth_error_In; eauto). assert (Hl : (k < length l)%nat) by (apply nth_error_Some; congruence).
    destruct (Sc r Hr) as (x' & Ex' & Ox). rewrite Ex in Ex'. inversion Ex'; subst x'. clear Ex'.
    split; [eauto|]. split.
    - rewrite <- (firstn_skipn k l) at 1. rewrite count_app. rewrite (count_none _ (skipn k l)).
      + pose proof (count_le (score_below s x) (firstn k l)). rewrite firstn_length in *. lia.
      + intros a Ha. apply In_nth_error in Ha. destruct Ha as (i & Ha).
        assert (Ha' : nth_error l (k + i) = Some a). { rewrite <- Ha. rewrite <- (firstn_skipn k l) at 1. rewrite nth_error_app2 by (rewrite firstn_length; lia). f_equal. rewrite firstn_length. lia. }
        unfold score_below. destruct (score (heap s a)) as [|y|] eqn:Ey; auto. eapply (B k (k + i)%nat r a x y); eauto. lia.
    - rewrite <- (firstn_skipn (S k) l) at 1. rewrite count_app. rewrite (count_none _ (firstn (S k) l)).
      + pose proof (count_le (score_above s x) (skipn (S k) l)). rewrite skipn_length in *. lia.
      + intros a Ha. apply In_nth_error in Ha. destruct Ha as (i & Ha).
        assert (Hi : (i < S k)%nat). { assert (i < length (firstn (S k) l))%nat by (apply nth_error_Some; congruence). rewrite firstn_length in *. lia. }
        assert (Ha' : nth_error l i = Some a). { rewrite <- Ha. rewrite <- (firstn_skipn (S k) l) at 1. rewrite nth_error_app1 by (rewrite firstn_length; lia). reflexivity. }
        unfold score_above. destruct (score (heap s a)) as [|y|] eqn:Ey; auto. eapply (B i k a r y x); eauto. lia.
  Qed.
End Facts.

(** C35.  After update the population is a stably sorted permutation of itself, no
    individual has changed, and the entries appended to the histories are the scores
    of rank n-1 (maximum), floor(n/2) and 0 (minimum). *)
Theorem C35_update : forall {NO : NumOps} ok, NumOrder NO ok -> forall gd s gd' s', is_multi gd = false ->
  scored ok s (members (population gd)) -> flag_true (population gd) s -> update gd s = Ok gd' s' ->
  let l := members (population gd) in let l' := members (population gd') in let n := length l in
  s' = s /\ Permutation l' l /\ by_score s l' /\ is_sorted (population gd') = true /\
  (forall x, ok x -> filter (score_is s x) l' = filter (score_is s x) l) /\
  exists best mediocre worst,
    hist_best gd' = hist_best gd ++ [SV1 best] /\ order_statistic s l (n - 1) best /\
    hist_mediocre gd' = hist_mediocre gd ++ [SV1 mediocre] /\ order_statistic s l (n / 2) mediocre /\
    hist_worst gd' = hist_worst gd ++ [SV1 worst] /\ order_statistic s l 0 worst.
Proof.
  intros NO ok NL gd s gd' s' M Sc F H. cbv zeta. unfold update in H. rewrite M in H. apply update_single_ok in H.
  destruct H as [-> (l0 & b & md & w & S1 & Em & Ew & Bs & ->)]. cbn [members population updated set_sorted set_members is_sorted].
  split; auto.
  assert (P : Permutation (l0 ++ [b]) (members (population gd))) by (eapply sorted_from_perm; eauto).
  assert (Sc' : scored ok s (l0 ++ [b])) by (intros r Hr; apply Sc; eapply Permutation_in; eauto).
  assert (K : forall r, In r (members (population gd)) -> scalar_key ok KScore s r).
  { intros r Hr. destruct (Sc r Hr) as (x & E & Hx). exists x. cbn. rewrite E. auto. }
  assert (X : by_score s (l0 ++ [b]) /\ forall x, ok x -> filter (score_is s x) (l0 ++ [b]) = filter (score_is s x) (members (population gd))).
  { unfold sorted_from in S1. unfold flag_true in F. destruct (is_sorted (population gd)); [rewrite S1; auto|].
    apply sort_ok in S1. destruct S1 as (_ & _ & S2). destruct (S2 ok NL K) as [A St]. split.
    - apply (asc_by_score ok); auto. intros r Hr. apply K. eapply Permutation_in; eauto.
    - intros x Hx. apply St; auto. }
  destruct X as [B St]. split; auto. split; auto. split; auto. split; auto.
  assert (Os : forall k r, nth_error (l0 ++ [b]) k = Some r -> exists x, score (heap s r) = SV1 x /\ order_statistic s (members (population gd)) k x).
  { intros k r Hr. destruct (Sc' r (nth_error_In _ _ Hr)) as (x & Ex & _). exists x. split; auto.
    destruct (sorted_statistic ok s _ k r x NL Sc' B Hr Ex) as ((r' & Hr' & Er') & C1 & C2). 
    rewrite (count_perm _ _ _ P) in C1. rewrite (count_perm _ _ _ P) in C2. rewrite (Permutation_length P) in C2. split; [|auto].
    exists r'. split; auto. eapply Permutation_in; eauto. }
  assert (Hb : nth_error (l0 ++ [b]) (length (members (population gd)) - 1) = Some b).
  { rewrite <- (Permutation_length P), app_length. cbn [length]. rewrite nth_error_app2 by lia. replace (_ - _ - _)%nat with 0%nat by lia. reflexivity. }
  rewrite (Permutation_length P) in Em.
  destruct (Os _ _ Hb) as (xb & Exb & Ob). destruct (Os _ _ Em) as (xm & Exm & Om). destruct (Os _ _ Ew) as (xw & Exw & Ow).
  exists xb, xm, xw. cbn [hist_best hist_mediocre hist_worst updated]. rewrite Exb, Exm, Exw. auto 10.
Qed.
(** update never raises on a non-empty generation with usable scores. *)
Theorem C35_total : forall {NO : NumOps} ok gd s, is_multi gd = false -> scored ok s (members (population gd)) ->
  members (population gd) <> [] ->
  (best_solution gd = BNone \/ exists i g x, best_solution gd = BSingle i g /\ score i = SV1 x) ->
  forall e, update gd s <> Err e.
Proof.
  intros NO ok gd s M Sc Ne B. unfold update. rewrite M. apply (update_single_safe ok); auto.
  intros r Hr. destruct (Sc r Hr) as (x & E & Hx). exists x. cbn. rewrite E. auto.
Qed.

(** *** Concrete case: scores 4, 1, 3, 1 *)
Local Existing Instance Qops.
Definition upd4 : st := world [ind (ints [1]) (q 4); ind (ints [2]) (q 1); ind (ints [3]) (q 3); ind (ints [4]) (q 1)] [].
Example C35_case : observe (fun gd' _ => (members (population gd'), hist_best gd', hist_mediocre gd', hist_worst gd'))
    (update (gd_of (cat_pop 4)) upd4) = Some ([1; 3; 2; 0]%nat, [q 4], [q 3], [q 1]).
Proof. run. Qed.
Example C35_hypotheses : scored (fun _ => True) upd4 (members (population (gd_of (cat_pop 4)))) /\ flag_true (population (gd_of (cat_pop 4))) upd4.
Proof.
  split; [|discriminate]. intros r Hr. cbn in Hr. destruct Hr as [<-|[<-|[<-|[<-|[]]]]]; cbn; eexists; split; try reflexivity; trivial.
Qed.
(** The mediocre entry is the upper median (3), not the average of the scores (9/4)
    nor of the two middle ones (2). *)
Print Assumptions C35_update.
Print Assumptions C35_total.
