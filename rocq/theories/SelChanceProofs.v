(** Selection probabilities: counting tournaments, drawn values in an interval, and
    loops that draw again. *)
From Coq Require Import ZArith QArith Qround List Bool Lia Lqa Permutation.
From Verif Require Import Spec Num State Binary Population GaData Selection
  ListLemmas Rnd Exec Laws SelectionProofs VegaProofs Chance ChanceProofs.
Import ListNotations.
Open Scope Z_scope.

(** *** Counting *)
Lemma splits_perm : forall {A} (l : list A) p, In p (splits l) -> Permutation l (fst p :: snd p).
Proof.
  intros A l. induction l as [|x l IH]; intros p H; [destruct H|]. destruct H as [<-|H]; [apply Permutation_refl|].
  apply in_map_iff in H. destruct H as (p' & <- & H). cbn [fst snd]. eapply Permutation_trans; [apply perm_skip, IH; exact H|]. apply perm_swap.
Qed.
Lemma arrangements_in : forall {A} k (l : list A) tr, In tr (arrangements k l) -> length tr = k /\ incl tr l.
Proof.
  intros A k. induction k as [|k IH]; intros l tr H; cbn [arrangements] in H.
  - destruct H as [<-|[]]. split; auto. intros x [].
  - apply in_flat_map in H. destruct H as (p & Hp & H). apply in_map_iff in H. destruct H as (tr' & <- & H). apply IH in H. destruct H as [L I].
    apply splits_perm in Hp. split; [cbn; lia|]. intros x [<-|Hx]; (eapply Permutation_in; [symmetry; exact Hp|]); [left|right]; auto.
Qed.
Lemma filter_perm_length : forall {A} (P : A -> bool) a b, Permutation a b -> length (filter P a) = length (filter P b).
Proof.
  intros A P a b H. induction H; cbn [filter]; auto; [|destruct (P x), (P y); auto|congruence]. destruct (P x); cbn; congruence.
Qed.
Lemma filter_flat_map : forall {A B} (P : B -> bool) (f : A -> list B) l, filter P (flat_map f l) = flat_map (fun a => filter P (f a)) l.
Proof. intros A B P f l. induction l as [|a l IH]; auto. cbn [flat_map]. rewrite filter_app, IH. reflexivity. Qed.
(** The arrangements all of whose elements have a property. *)
Lemma arrangements_filter : forall {A} (P : A -> bool) k l, length (filter (forallb P) (arrangements k l)) = falling (length (filter P l)) k.
Proof.
  intros A P k. induction k as [|k IH]; intros l; [reflexivity|]. cbn [arrangements falling]. rewrite filter_flat_map.
  assert (G : forall ps, incl ps (splits l) -> length (flat_map (fun p => filter (forallb P) (map (cons (fst p)) (arrangements k (snd p)))) ps)
    = (length (filter P (map fst ps)) * falling (length (filter P l) - 1) k)%nat).
  { intros ps. induction ps as [|p ps IHp]; intros I; auto. cbn [flat_map map filter]. rewrite app_length, IHp by (intros x Hx; apply I; right; auto).
    assert (E : length (filter (forallb P) (map (cons (fst p)) (arrangements k (snd p)))) = if P (fst p) then falling (length (filter P (snd p))) k else 0%nat).
    { rewrite <- IH. generalize (arrangements k (snd p)). intros ls. induction ls as [|x ls IHl]; cbn [map filter forallb]; [destruct (P (fst p)); auto|].
      destruct (P (fst p)); cbn [andb] in *; auto. destruct (forallb P x); cbn [length]; auto. }
    rewrite E. pose proof (filter_perm_length P _ _ (splits_perm l p (I p (or_introl eq_refl)))) as X. cbn [filter] in X.
    destruct (P (fst p)); cbn [length] in *; [|lia]. rewrite X. replace (S (length (filter P (snd p))) - 1)%nat with (length (filter P (snd p))) by lia. lia. }
  rewrite G by apply incl_refl. rewrite splits_fst. reflexivity.
Qed.
Lemma falling_step : forall n k, falling (S n) (S k) = (falling n (S k) + S k * falling n k)%nat.
Proof.
  intros n k. revert n. induction k as [|k IH]; intros n; [cbn; lia|].
  change (falling (S n) (S (S k))) with (S n * falling (S n - 1) (S k))%nat. replace (S n - 1)%nat with n by lia.
  destruct n as [|n]; [cbn; lia|]. change (falling (S n) (S (S k))) with (S n * falling (S n - 1) (S k))%nat. replace (S n - 1)%nat with n by lia.
  pose proof (IH n) as X. change (falling (S n) (S k)) with (S n * falling (S n - 1) k)%nat in *. replace (S n - 1)%nat with n in * by lia. nia.
Qed.
Lemma falling_pos : forall k n, (k <= n)%nat -> (0 < falling n k)%nat.
Proof. intros k. induction k as [|k IH]; intros n H; cbn [falling]; [lia|]. apply Nat.mul_pos_pos; [lia|apply IH; lia]. Qed.
Lemma falling_mono : forall k a b, (a <= b)%nat -> (falling a k <= falling b k)%nat.
Proof. intros k. induction k as [|k IH]; intros a b H; cbn [falling]; [lia|]. apply Nat.mul_le_mono; [lia|apply IH; lia]. Qed.

Lemma mean_indicator : forall {A} (P : A -> bool) l, (mean (map (fun a => indicator (P a)) l) == inject_Z (Z.of_nat (length (filter P l))) / inject_Z (Z.of_nat (length l)))%Q.
Proof.
  intros A P l. unfold mean. rewrite map_length.
  assert (X : (qsum_of (map (fun a => indicator (P a)) l) == inject_Z (Z.of_nat (length (filter P l))))%Q); [|rewrite X; reflexivity].
  induction l as [|a l IH]; [reflexivity|]. cbn [map qsum_of filter]. rewrite IH. destruct (P a); cbn [indicator length]; [|ring].
  rewrite Nat2Z.inj_succ. unfold Z.succ. rewrite inject_Z_plus. ring.
Qed.
(** The numbers below n from a to b - 1. *)
Lemma count_below : forall n a b, 0 <= a <= b -> b <= n -> Z.of_nat (length (filter (fun k => (a <=? k) && (k <? b)) (below n))) = b - a.
Proof.
  intros n a b Ha Hb. unfold below.
  assert (N : forall l : list Z, (forall k, In k l -> (a <=? k) && (k <? b) = false) -> filter (fun k => (a <=? k) && (k <? b)) l = []).
  { intros l. induction l as [|k l IH]; intros H; auto. cbn [filter]. rewrite (H k (or_introl eq_refl)). apply IH. intros; apply H; right; auto. }
  assert (Y : forall l : list Z, (forall k, In k l -> (a <=? k) && (k <? b) = true) -> filter (fun k => (a <=? k) && (k <? b)) l = l).
  { intros l. induction l as [|k l IH]; intros H; auto. cbn [filter]. rewrite (H k (or_introl eq_refl)). f_equal. apply IH. intros; apply H; right; auto. }
  replace (Z.to_nat n) with (Z.to_nat a + (Z.to_nat (b - a) + Z.to_nat (n - b)))%nat by lia.
  rewrite !seq_app, !map_app, !filter_app, !app_length. rewrite N, Y, N.
  - rewrite map_length, seq_length. cbn [length]. lia.
  - intros k Hk. apply in_map_iff in Hk. destruct Hk as (j & <- & Hj). apply in_seq in Hj. apply andb_false_iff. right. apply Z.ltb_ge. lia.
  - intros k Hk. apply in_map_iff in Hk. destruct Hk as (j & <- & Hj). apply in_seq in Hj. apply andb_true_iff. split; [apply Z.leb_le|apply Z.ltb_lt]; lia.
  - intros k Hk. apply in_map_iff in Hk. destruct Hk as (j & <- & Hj). apply in_seq in Hj. apply andb_false_iff. left. apply Z.leb_gt. lia.
Qed.
Lemma filter_split : forall {A} (P Q R : A -> bool) l, (forall a, In a l -> (R a = true <-> P a = true \/ Q a = true)) -> (forall a, In a l -> P a = true -> Q a = true -> False) ->
  length (filter R l) = (length (filter P l) + length (filter Q l))%nat.
Proof.
  intros A P Q R l. induction l as [|a l IH]; intros H D; auto. cbn [filter]. specialize (H a (or_introl eq_refl)) as Ha. specialize (D a (or_introl eq_refl)) as Da.
  assert (X := IH ltac:(intros; apply H; right; auto) ltac:(intros; eapply D; eauto; right; auto)).
  destruct (P a), (Q a), (R a); cbn [length]; try lia; try (exfalso; tauto); exfalso; destruct Ha; intuition discriminate.
Qed.

Section Tournament.
  Context {NO : NumOps}.
  (** The winner of a tournament of given positions. *)
  Definition winner (s : st) (idx : option Z) (l : list nat) (tr : list Z) : nat :=
    match get_best idx l tr s with Ok b _ => b | _ => O end.
  Lemma winner_ok : forall (ok : num -> Prop), NumOrder NO ok -> forall s idx l tr, keys_ok ok s idx l -> tr <> [] ->
    (forall p, In p tr -> 0 <= p < Z.of_nat (length l)) ->
    (forall t, get_best idx l tr (set_tape t s) = Ok (winner s idx l tr) (set_tape t s)) /\
    (exists p, In p tr /\ nth_error l (Z.to_nat p) = Some (winner s idx l tr)) /\
    forall y, key_at idx (heap s (winner s idx l tr)) = Some y ->
      forall p r x, In p tr -> nth_error l (Z.to_nat p) = Some r -> key_at idx (heap s r) = Some x -> nltb y x = false.
  Proof.
    intros ok NL s idx l tr K Ne Rg. destruct tr as [|p rest]; [congruence|].
    assert (Hp : 0 <= p < Z.of_nat (length l)) by (apply Rg; left; auto).
    destruct (nth_error l (Z.to_nat p)) as [r|] eqn:Er; [|apply nth_error_None in Er; lia].
    assert (Hrl : In r l) by (eapply nth_error_In; eauto).
    assert (Hr : forall p', In p' rest -> 0 <= p' < Z.of_nat (length l)) by (intros; apply Rg; right; auto).
    assert (Eq : forall t, get_best idx l (p :: rest) (set_tape t s) = get_best_loop idx l rest r (set_tape t s)).
    { intros t. cbn [get_best]. unfold bind, lift_opt. rewrite py_nth_nat by auto. rewrite Er. reflexivity. }
    assert (St : forall rest' b t s1, (forall p', In p' rest' -> 0 <= p' < Z.of_nat (length l)) -> In b l -> get_best_loop idx l rest' b s = Ok s1 s -> get_best_loop idx l rest' b (set_tape t s) = Ok s1 (set_tape t s)).
    { intros rest'. induction rest' as [|q rest' IH]; intros b t s1 Hq Hb H; cbn [get_best_loop] in *.
      - inversion H; subst. reflexivity.
      - unfold bind at 1 in H. unfold bind at 1. unfold lift_opt in *. destruct (py_nth l q) as [r'|] eqn:E; [|discriminate].
        assert (In r' l) by (rewrite py_nth_nat in E by (apply Hq; left; auto); eapply nth_error_In; eauto).
        unfold bind at 1 2, get in H. unfold bind at 1 2, get. destruct (K r' H0) as (x & Kx & _). destruct (K b Hb) as (y & Ky & _).
        unfold bind in H |- *. cbn [heap set_tape]. rewrite (better_key idx _ _ _ _ s Kx Ky) in H. rewrite (better_key idx _ _ _ _ (set_tape t s) Kx Ky).
        apply IH; auto; [intros; apply Hq; right; auto|]. destruct (nltb y x); auto. }
    destruct (get_best_total ok idx l rest r s K Hrl Hr) as (b & Eb).
    assert (W : winner s idx l (p :: rest) = b). { unfold winner. rewrite <- (set_tape_same s), Eq, set_tape_same, Eb. reflexivity. }
    rewrite W. split; [|apply (get_best_loop_ok ok NL) in Eb; auto; destruct Eb as (_ & Hin & Hmax); split].
    - intros t. rewrite Eq. apply St; auto.
    - destruct Hin as [->|(q & Hq & E)]; [exists p; split; [left|]; auto|exists q; split; [right|]; auto].
    - intros y Hy p' r' x [<-|Hp'] E Hx.
      + rewrite Er in E. inversion E; subst r'. apply (proj1 (Hmax y Hy)); auto.
      + eapply (proj2 (Hmax y Hy)); eauto.
  Qed.
  Lemma tournament_mean : forall (ok : num -> Prop), NumOrder NO ok -> forall s idx t l f, keys_ok ok s idx l -> 1 <= t <= Z.of_nat (length l) ->
    averages s f (run_tournament idx t l) (mean (map (fun tr => f (Ok (winner s idx l tr) s)) (arrangements (Z.to_nat t) (zrange 0 (Z.of_nat (length l)))))).
  Proof.
    intros ok NL s idx t l f K Ht. unfold run_tournament. apply averages_even; [apply even_sample; rewrite zrange_length_Z; lia|].
    intros tr Htr. apply arrangements_in in Htr. destruct Htr as [L I]. apply averages_det. intros u.
    apply (winner_ok ok NL); auto; [destruct tr; [cbn in L; lia|discriminate]|]. intros p Hp. apply I, in_zrange in Hp. lia.
  Qed.
  (** The positions of a list with a property of their key. *)
  Definition key_has (P : num -> bool) (s : st) (idx : option Z) (r : nat) : bool :=
    match key_at idx (heap s r) with Some y => P y | None => false end.
  Lemma positions_count : forall (P : num -> bool) s idx l ks, keys_of s idx l ks ->
    length (filter (fun p => match nth_error l (Z.to_nat p) with Some r => key_has P s idx r | None => false end) (zrange 0 (Z.of_nat (length l)))) = length (filter P ks).
  Proof.
    intros P s idx l ks K. rewrite <- (Z.sub_0_r (Z.of_nat (length l))) at 1. 
    assert (G : forall l0, length (filter (fun p => match nth_error (l0 ++ l) (Z.to_nat p) with Some r => key_has P s idx r | None => false end)
       (map Z.of_nat (seq (length l0) (length l)))) = length (filter P ks)).
    { induction K as [|r k l ks Hk K IH]; intros l0; auto. cbn [length seq map filter]. rewrite Nat2Z.id.
      rewrite nth_error_app2, Nat.sub_diag by lia. cbn [nth_error]. unfold key_has at 1. rewrite Hk.
      specialize (IH (l0 ++ [r])). rewrite <- app_assoc, app_length in IH. cbn [app length] in IH. rewrite Nat.add_1_r in IH. destruct (P k); cbn [length]; auto. }
    specialize (G []). cbn [app length] in G. rewrite <- G. do 2 f_equal. rewrite <- (seq_zrange 0 (length l)). f_equal; lia.
  Qed.
End Tournament.

(** *** Loops that draw again *)
Section Retry.
  Context {NO : NumOps}.
  Lemma mean_scale : forall {A} (f : A -> Q) c l, (mean (map (fun a => c * f a) l) == c * mean (map f l))%Q.
  Proof.
    intros A f c l. unfold mean. rewrite !map_length.
    assert (X : (qsum_of (map (fun a => c * f a) l) == c * qsum_of (map f l))%Q); [|rewrite X; unfold Qdiv; ring].
    induction l as [|a l IH]; cbn [map qsum_of]; [ring|]. rewrite IH. ring.
  Qed.
  Lemma averages_scale : forall {A} s (f : outcome A -> Q) c m q, averages s f m q -> averages s (fun o => c * f o)%Q m (c * q)%Q.
  Proof.
    intros A s f c m q H. induction H as [m o q Hm Hq|m k mk r q Hk Hm Hr IH Hq].
    - eapply av_done; [exact Hm|]. rewrite Hq. reflexivity.
    - eapply av_draw; [exact Hk|exact Hm|exact IH|]. rewrite Hq. symmetry. apply mean_scale.
  Qed.
  Definition exhausted {A} (o : outcome A) : bool := match o with NoFuel => true | _ => false end.
  Fixpoint geo (p : Q) (f : nat) : Q := match f with O => 0%Q | S f' => (1 + p * geo p f')%Q end.
  Lemma geo_closed : forall p f, (geo p f * (1 - p) == 1 - qpow p f)%Q.
  Proof. intros p f. induction f as [|f IH]; cbn [geo qpow]; [ring|]. transitivity ((1 - p) + p * (geo p f * (1 - p)))%Q; [ring|]. rewrite IH. ring. Qed.

  Lemma retry_mean : forall {A} s (m : M A) (again : A -> bool) (loop : nat -> M A) (k : nat -> A -> M A) (F : outcome A -> Q) p q e,
    (forall o, occurs m s o -> exists b u, o = Ok b (set_tape u s)) ->
    (forall t, loop O (set_tape t s) = NoFuel) -> (forall f t, loop (S f) (set_tape t s) = bind m (k f) (set_tape t s)) ->
    (forall f b t, k f b (set_tape t s) = if again b then loop f (set_tape t s) else Ok b (set_tape t s)) ->
    (forall b s1 s2, F (Ok b s1) = F (Ok b s2)) -> (F NoFuel == e)%Q ->
    chance m s (returns again) p ->
    averages s (fun o => match o with Ok b s' => if again b then 0%Q else F (Ok b s') | _ => 0%Q end) m q ->
    forall f, averages s F (loop f) (q * geo p f + e * qpow p f)%Q.
  Proof.
    intros A s m again loop k F p q e Hm H0 HS Hk HF He Hp Hq f. induction f as [|f IH].
    - apply averages_eq with (F NoFuel); [cbn [geo qpow]; rewrite He; ring|]. apply averages_det. intros t. cbn [with_tape]. auto.
    - set (v := (q * geo p f + e * qpow p f)%Q) in *.
      eapply averages_same with (s := s) (m := bind m (k f)); [|intros t; apply HS].
      apply averages_bind with (r := fun b s' => if again b then v else F (Ok b s')).
      + apply averages_eq with (v * p + q)%Q; [unfold v; cbn [geo qpow]; ring|].
        apply averages_ext with (f := fun o => (v * indicator (returns again o) + match o with Ok b s' => if again b then 0 else F (Ok b s') | _ => 0 end)%Q).
        * apply averages_plus; [| |apply averages_scale; exact Hp|exact Hq].
          -- intros t o. destruct o; reflexivity.
          -- intros t o. destruct o; cbn [with_tape]; try reflexivity. destruct (again a); [reflexivity|]. rewrite (HF a (set_tape t s0) s0). reflexivity.
        * intros o Ho. destruct (Hm o Ho) as (b & u & ->). cbn [returns]. destruct (again b); cbn [indicator]; ring.
      + intros b s' Ho. destruct (Hm _ Ho) as (b' & u & E). inversion E; subst b' s'. clear E.
        destruct (again b) eqn:Eb.
        * eapply averages_same with (s := s); [exact IH|]. intros t. rewrite set_tape_set, Hk, Eb. reflexivity.
        * eapply averages_eq; [|apply averages_det with (o := Ok b (set_tape u s))]; [reflexivity|]. intros t. rewrite set_tape_set, Hk, Eb. cbn [with_tape]. rewrite set_tape_set. reflexivity.
  Qed.
  Lemma retry_exhausted : forall {A} s (m : M A) (again : A -> bool) (loop : nat -> M A) (k : nat -> A -> M A) p,
    (forall o, occurs m s o -> exists b u, o = Ok b (set_tape u s)) ->
    (forall t, loop O (set_tape t s) = NoFuel) -> (forall f t, loop (S f) (set_tape t s) = bind m (k f) (set_tape t s)) ->
    (forall f b t, k f b (set_tape t s) = if again b then loop f (set_tape t s) else Ok b (set_tape t s)) ->
    chance m s (returns again) p -> forall f, chance (loop f) s exhausted (qpow p f).
  Proof.
    intros A s m again loop k p Hm H0 HS Hk Hp f. apply averages_eq with (0 * geo p f + 1 * qpow p f)%Q; [ring|].
    apply (retry_mean s m again loop k); auto; try reflexivity.
    eapply averages_eq; [|apply averages_ext with (f := fun o => (0 * indicator (returns again o))%Q); [apply averages_scale; exact Hp|]]; [ring|].
    intros o _. destruct o; cbn [exhausted indicator]; try ring. destruct (again a); ring.
  Qed.
  Lemma retry_returns : forall {A} s (m : M A) (again : A -> bool) (loop : nat -> M A) (k : nat -> A -> M A) (P : A -> bool) p q,
    (forall o, occurs m s o -> exists b u, o = Ok b (set_tape u s)) ->
    (forall t, loop O (set_tape t s) = NoFuel) -> (forall f t, loop (S f) (set_tape t s) = bind m (k f) (set_tape t s)) ->
    (forall f b t, k f b (set_tape t s) = if again b then loop f (set_tape t s) else Ok b (set_tape t s)) ->
    chance m s (returns again) p -> chance m s (returns (fun b => P b && negb (again b))) q ->
    forall f, chance (loop f) s (returns P) (q * geo p f)%Q.
  Proof.
    intros A s m again loop k P p q Hm H0 HS Hk Hp Hq f. apply averages_eq with (q * geo p f + 0 * qpow p f)%Q; [ring|].
    apply (retry_mean s m again loop k); auto; try reflexivity.
    eapply averages_ext; [exact Hq|]. intros o _. destruct o; cbn [returns indicator]; try reflexivity. destruct (P a), (again a); reflexivity.
  Qed.
  Lemma even_outcomes : forall {A} (m : M A) l s o, even m l -> occurs m s o -> exists b u, o = Ok b (set_tape u s) /\ In b l.
  Proof.
    intros A m l s o E Ho. destruct o as [b s'|e|].
    - destruct (even_occurs m l s b s' E Ho) as (I & u & ->). eauto.
    - destruct (Ho (tape s)) as (t & H). destruct (proj1 E (set_tape t s)) as (b & t' & _ & H'). rewrite H in H'. discriminate.
    - destruct (Ho (tape s)) as (t & H). destruct (proj1 E (set_tape t s)) as (b & t' & _ & H'). rewrite H in H'. discriminate.
  Qed.
End Retry.
