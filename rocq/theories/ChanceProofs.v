(** Rules for [averages] and [even] (Chance.v). *)
From Coq Require Import ZArith Znumtheory QArith List Bool Lia Lqa Permutation Field Setoid Morphisms.
From Verif Require Import Num State ListLemmas Rnd Chance.
Import ListNotations.
Open Scope Z_scope.

(** *** Sums and means *)
Lemma qsum_app : forall a b, (qsum_of (a ++ b) == qsum_of a + qsum_of b)%Q.
Proof. induction a as [|x a IH]; intros b; cbn [qsum_of app map]; [ring|]. rewrite IH. ring. Qed.
Lemma qsum_ext : forall {A} (f g : A -> Q) l, (forall a, In a l -> f a == g a)%Q -> (qsum_of (map f l) == qsum_of (map g l))%Q.
Proof.
  intros A f g l. induction l as [|a l IH]; intros H; cbn [qsum_of app map flat_map]; [reflexivity|]. rewrite (H a (or_introl eq_refl)), IH; [reflexivity|]. intros; apply H; right; auto.
Qed.
Lemma qsum_scale : forall {A} (f : A -> Q) c l, (qsum_of (map (fun a => f a * c) l) == qsum_of (map f l) * c)%Q.
Proof. intros A f c l. induction l as [|a l IH]; cbn [qsum_of app map]; [ring|]. rewrite IH. ring. Qed.
Lemma qsum_const : forall {A} c (l : list A), (qsum_of (map (fun _ => c) l) == inject_Z (Z.of_nat (length l)) * c)%Q.
Proof.
  intros A c l. induction l as [|a l IH]; [cbn [map qsum_of length]; ring|]. cbn [map qsum_of length]. rewrite Nat2Z.inj_succ. unfold Z.succ. rewrite inject_Z_plus.
  rewrite IH. ring.
Qed.
Lemma qsum_plus : forall {A} (f g : A -> Q) l, (qsum_of (map (fun a => f a + g a) l) == qsum_of (map f l) + qsum_of (map g l))%Q.
Proof. intros A f g l. induction l as [|a l IH]; cbn [qsum_of app map]; [ring|]. rewrite IH. ring. Qed.
Lemma qsum_perm : forall a b, Permutation a b -> (qsum_of a == qsum_of b)%Q.
Proof. induction 1; cbn [qsum_of]; try reflexivity; try (rewrite IHPermutation; reflexivity); [ring|]. rewrite IHPermutation1. auto. Qed.
Lemma qsum_flat : forall {A B} (g : B -> Q) (L : A -> list B) l,
  (qsum_of (map g (flat_map L l)) == qsum_of (map (fun a => qsum_of (map g (L a))) l))%Q.
Proof. intros A B g L l. induction l as [|a l IH]; cbn [qsum_of app map flat_map]; [reflexivity|]. rewrite map_app, qsum_app, IH. reflexivity. Qed.

Lemma len_nonzero : forall {A} (l : list A), l <> [] -> ~ (inject_Z (Z.of_nat (length l)) == 0)%Q.
Proof.
  intros A [|a l] H E; [congruence|]. cbn [length] in E. unfold Qeq in E. cbn in E. lia.
Qed.
Lemma mean_ext : forall {A} (f g : A -> Q) l, (forall a, In a l -> f a == g a)%Q -> (mean (map f l) == mean (map g l))%Q.
Proof. intros A f g l H. unfold mean. rewrite !map_length, (qsum_ext f g l H). reflexivity. Qed.
Lemma mean_const : forall {A} c (l : list A), l <> [] -> (mean (map (fun _ => c) l) == c)%Q.
Proof. intros A c l H. unfold mean. rewrite map_length, qsum_const. field. apply len_nonzero; auto. Qed.
Lemma mean_same : forall {A} (f : A -> Q) c l, l <> [] -> (forall a, In a l -> f a == c)%Q -> (mean (map f l) == c)%Q.
Proof. intros A f c l Hl H. rewrite (mean_ext f (fun _ => c) l H). apply mean_const; auto. Qed.
Lemma mean_perm : forall {A} (f : A -> Q) a b, Permutation a b -> (mean (map f a) == mean (map f b))%Q.
Proof.
  intros A f a b H. unfold mean. rewrite !map_length, (Permutation_length H). rewrite (qsum_perm (map f a) (map f b)); [reflexivity|]. apply Permutation_map; auto.
Qed.
Lemma mean_singleton : forall x, (mean [x] == x)%Q.
Proof. intros x. unfold mean. cbn [qsum_of length]. field. Qed.
Lemma mean_double : forall {A} (f : A -> Q) l, (mean (map f (l ++ l)) == mean (map f l))%Q.
Proof.
  intros A f [|a l]; [reflexivity|]. unfold mean. rewrite map_app, qsum_app, app_length, !map_length, Nat2Z.inj_add, inject_Z_plus.
  assert (N : ~ (inject_Z (Z.of_nat (length (a :: l))) == 0)%Q) by (apply len_nonzero; discriminate).
  field. split; auto. intros E. apply N. lra.
Qed.
Lemma mean_flat : forall {A B} (g : B -> Q) (L : A -> list B) n l, (n > 0)%nat -> (forall a, In a l -> length (L a) = n) ->
  (mean (map g (flat_map L l)) == mean (map (fun a => mean (map g (L a))) l))%Q.
Proof.
  intros A B g L n l Hn Hl. destruct l as [|a0 l0]; [reflexivity|]. set (l := a0 :: l0) in *. unfold mean at 1 2. rewrite qsum_flat, !map_length.
  assert (El : length (flat_map L l) = (length l * n)%nat).
  { clear - Hl. clearbody l. induction l as [|a l IH]; cbn; auto. rewrite app_length, IH, (Hl a) by (try left; auto; intros; apply Hl; right; auto). lia. }
  rewrite El, Nat2Z.inj_mul, inject_Z_mult.
  assert (N1 : ~ (inject_Z (Z.of_nat (length l)) == 0)%Q) by (apply len_nonzero; discriminate).
  assert (N2 : ~ (inject_Z (Z.of_nat n) == 0)%Q) by (unfold Qeq; cbn; lia).
  rewrite (qsum_ext (fun a => mean (map g (L a))) (fun a => qsum_of (map g (L a)) * / inject_Z (Z.of_nat n))%Q l).
  - rewrite qsum_scale. field. auto.
  - intros a Ha. unfold mean. rewrite map_length, (Hl a Ha). reflexivity.
Qed.

(** *** 0 .. k - 1 *)
Lemma below_in : forall k d, In d (below k) <-> 0 <= d < k.
Proof.
  intros k d. unfold below. rewrite in_map_iff. split.
  - intros (n & <- & H). apply in_seq in H. lia.
  - intros H. exists (Z.to_nat d). split; [lia|]. apply in_seq. lia.
Qed.
Lemma below_length : forall k, length (below k) = Z.to_nat k.
Proof. intros. unfold below. rewrite map_length, seq_length. reflexivity. Qed.
Lemma below_nonempty : forall k, 0 < k -> below k <> [].
Proof. intros k H E. assert (L : length (below k) = O) by (rewrite E; reflexivity). rewrite below_length in L. lia. Qed.

Lemma seq_offset : forall c b z, map (fun i => (b + i)%nat) (seq z c) = seq (b + z) c.
Proof. induction c as [|c IH]; intros b z; auto. cbn [seq map]. rewrite IH, Nat.add_succ_r. reflexivity. Qed.

(** The mean over a residue is the mean over a whole number of periods. *)
Lemma mean_period : forall (r : Z -> Q) k n, 0 < k -> 0 < n -> (mean (map (fun d => r (d mod k)) (below (k * n))) == mean (map r (below k)))%Q.
Proof.
  intros r k n Hk Hn.
  assert (S0 : forall m j, (0 <= j)%Z -> (qsum_of (map (fun d => r (d mod k)) (map Z.of_nat (seq (Z.to_nat (k * j)) (m * Z.to_nat k)))) == inject_Z (Z.of_nat m) * qsum_of (map r (below k)))%Q).
  { induction m as [|m IH]; intros j Hj; [cbn; ring|].
    replace (S m * Z.to_nat k)%nat with (Z.to_nat k + m * Z.to_nat k)%nat by lia.
    rewrite seq_app, !map_app, qsum_app.
    replace (Z.to_nat (k * j) + Z.to_nat k)%nat with (Z.to_nat (k * (j + 1))) by nia. rewrite (IH (j + 1)) by lia.
    assert (E : (qsum_of (map (fun d => r (d mod k)) (map Z.of_nat (seq (Z.to_nat (k * j)) (Z.to_nat k)))) == qsum_of (map r (below k)))%Q).
    { unfold below. rewrite !map_map.
      replace (seq (Z.to_nat (k * j)) (Z.to_nat k)) with (map (fun i => (Z.to_nat (k * j) + i)%nat) (seq 0 (Z.to_nat k))).
      - rewrite map_map. apply qsum_ext. intros i Hi. apply in_seq in Hi. replace (Z.of_nat (Z.to_nat (k * j) + i)) with (Z.of_nat i + j * k) by nia.
        rewrite Z.mod_add, Z.mod_small by lia. reflexivity.
      - rewrite seq_offset, Nat.add_0_r. reflexivity. }
    rewrite E, Nat2Z.inj_succ. unfold Z.succ. rewrite inject_Z_plus. ring. }
  unfold mean. rewrite !map_length, !below_length. unfold below at 1. specialize (S0 (Z.to_nat n) 0). rewrite Z.mul_0_r in S0.
  replace (Z.to_nat n * Z.to_nat k)%nat with (Z.to_nat (k * n)) in S0 by nia. rewrite S0 by lia.
  rewrite !Z2Nat.id by nia. rewrite inject_Z_mult. field. split; unfold Qeq; cbn; lia.
Qed.

Section Rules.
  Context {NO : NumOps}.

  Lemma set_set : forall t t' s, set_tape t (set_tape t' s) = set_tape t s.
  Proof. reflexivity. Qed.

  Lemma averages_eq : forall {A} s (f : outcome A -> Q) m q q', (q == q')%Q -> averages s f m q -> averages s f m q'.
  Proof. intros A s f m q q' E H. destruct H; [eapply av_done|eapply av_draw]; eauto; rewrite <- E; auto. Qed.
  Lemma averages_same : forall {A} s s' (f : outcome A -> Q) m q m', averages s f m q -> (forall t, m' (set_tape t s') = m (set_tape t s)) ->
    averages s' f m' q.
  Proof.
    intros A s s' f m q m' H. revert m'. induction H as [m o q Hm Hq|m k mk r q Hk Hm Hr IH Hq]; intros m' E.
    - eapply av_done; [|exact Hq]. intros t. rewrite E. apply Hm.
    - apply (av_draw s' f m' k (fun d s1 => mk d (set_tape (tape s1) s)) r q Hk); auto.
      + intros t. rewrite E, Hm. reflexivity.
  Qed.
  (** Only the values of [f] on outcomes that occur matter. *)
  Definition occurs {A} (m : M A) (s : st) (o : outcome A) : Prop := forall u, exists t, m (set_tape t s) = with_tape u o.
  Lemma occurs_draw : forall {A} (m : M A) s k (m' : Z -> M A) d o, 0 <= d < k ->
    (forall t, m (set_tape t s) = m' (t O mod k) (set_tape (fun i => t (S i)) s)) -> occurs (m' d) s o -> occurs m s o.
  Proof.
    intros A m s k m' d o Hd Hm H u. destruct (H u) as [t Ht]. exists (papp [d] t). rewrite Hm. cbn [papp]. rewrite Z.mod_small by auto. exact Ht.
  Qed.
  Lemma averages_ext : forall {A} s (f g : outcome A -> Q) m q, averages s f m q -> (forall o, occurs m s o -> f o == g o)%Q -> averages s g m q.
  Proof.
    intros A s f g m q H. induction H as [m o q Hm Hq|m k mk r q Hk Hm Hr IH Hq]; intros E.
    - eapply av_done; [exact Hm|]. rewrite Hq. apply E. intros u. exists u. apply Hm.
    - eapply av_draw; eauto. intros d Hd. apply IH; auto. intros o Ho. apply E. eapply occurs_draw; eauto.
  Qed.

  Lemma averages_ret : forall {A} s (f : outcome A -> Q) a, averages s f (ret a) (f (Ok a s)).
  Proof. intros. apply (av_done s f (ret a) (Ok a s)); reflexivity. Qed.
  Lemma averages_draw : forall s (f : outcome Z -> Q) k, 0 < k -> averages s f (draw k) (mean (map (fun d => f (Ok d s)) (below k))).
  Proof.
    intros s f k Hk. eapply (av_draw s f (draw k) k (fun d => ret d)); [exact Hk|reflexivity| |reflexivity].
    intros d Hd. apply (averages_ret s f d).
  Qed.
  (** A deterministic computation that may change the state but not the generator. *)
  Lemma averages_det : forall {A} s (f : outcome A -> Q) m o, (forall t, m (set_tape t s) = with_tape t o) -> averages s f m (f o).
  Proof. intros. eapply av_done; eauto. reflexivity. Qed.

  Lemma averages_bind : forall {A B} s (f : outcome B -> Q) (m : M A) (k : A -> M B) (r : A -> st -> Q) q,
    averages s (fun o => match o with Ok a s' => r a s' | Err e => f (Err e) | NoFuel => f NoFuel end) m q ->
    (forall a s', occurs m s (Ok a s') -> averages s' f (k a) (r a s')) -> averages s f (bind m k) q.
  Proof.
    intros A B s f m k r q H. induction H as [m o q Hm Hq|m n mk p q Hn Hm Hr IH Hq]; intros Hk.
    - destruct o as [a s'|e|].
      + eapply averages_eq; [symmetry; exact Hq|]. eapply averages_same; [apply Hk; intros u; exists u; apply Hm|]. intros t. unfold bind. rewrite Hm. reflexivity.
      + eapply av_done with (o := Err e); [|exact Hq]. intros t. unfold bind. rewrite Hm. reflexivity.
      + eapply av_done with (o := NoFuel); [|exact Hq]. intros t. unfold bind. rewrite Hm. reflexivity.
    - apply (av_draw s f (bind m k) n (fun d => bind (mk d) k) p q Hn); auto; [intros t; unfold bind; rewrite Hm; reflexivity|].
      + intros d Hd. apply IH; auto. intros a s' Ho. apply Hk. eapply occurs_draw; eauto.
  Qed.

  (** *** The mean is well defined *)
  Definition blind {A} (f : outcome A -> Q) : Prop := forall t o, (f (with_tape t o) == f o)%Q.
  Lemma averages_constant : forall {A} s (f : outcome A -> Q) m q o, blind f -> averages s f m q ->
    (forall t, exists u, m (set_tape t s) = with_tape u o) -> (q == f o)%Q.
  Proof.
    intros A s f m q o B H. induction H as [m o' q Hm Hq|m n mk p q Hn Hm Hr IH Hq]; intros E.
    - rewrite Hq. destruct (E (tape s)) as [u Hu]. rewrite Hm in Hu. rewrite <- (B (tape s) o'), Hu. apply B.
    - rewrite Hq. apply mean_same; [apply below_nonempty; auto|]. intros d Hd. apply below_in in Hd. apply IH; auto.
      intros t. destruct (E (papp [d] t)) as [u Hu]. exists u. rewrite Hm in Hu. cbn [papp] in Hu. rewrite Z.mod_small in Hu by auto. exact Hu.
  Qed.
  Lemma averages_unique : forall {A} s (f : outcome A -> Q) m q q', blind f -> averages s f m q -> averages s f m q' -> (q == q')%Q.
  Proof.
    intros A s f m q q' B H. revert q'. induction H as [m o q Hm Hq|m n mk p q Hn Hm Hr IH Hq]; intros q' H'.
    - rewrite Hq. symmetry. eapply averages_constant; [exact B|exact H'|]. intros t. exists t. apply Hm.
    - inversion H' as [m1 o' q1 Hm' Hq'|m1 n' mk' p' q1 Hn' Hm' Hr' Hq']; subst.
      + rewrite Hq'. eapply averages_constant; [exact B| |intros t; exists t; apply Hm']. eapply av_draw; eauto.
      + rewrite Hq, Hq'. rewrite <- (mean_period p n n' Hn Hn'), <- (mean_period p' n' n Hn' Hn), (Z.mul_comm n' n). apply mean_ext.
        intros d _. assert (R := Z.mod_pos_bound d n Hn). assert (R' := Z.mod_pos_bound d n' Hn'). apply IH; auto.
        eapply averages_same; [apply Hr'; exact R'|]. intros t.
        pose proof (Hm (papp [d] t)) as E. rewrite Hm' in E. cbn [papp] in E. symmetry. exact E.
  Qed.
  Lemma indicator_blind : forall {A} (P : A -> bool), blind (fun o : outcome A => indicator (returns P o)).
  Proof. intros A P t o. destruct o; reflexivity. Qed.

  (** Sums of functions. *)
  Lemma averages_plus : forall {A} s (f g : outcome A -> Q) m p q, blind f -> blind g -> averages s f m p -> averages s g m q -> averages s (fun o => f o + g o)%Q m (p + q).
  Proof.
    intros A s f g m p q Bf Bg H. revert q. induction H as [m o p Hm Hp|m n mk r p Hn Hm Hr IH Hp]; intros q Hg.
    - assert (E : (q == g o)%Q) by (eapply averages_constant; [exact Bg|exact Hg|]; intros t; exists t; apply Hm). eapply av_done; [exact Hm|]. rewrite Hp, E. reflexivity.
    - inversion Hg as [m1 o' q1 Hm' Hq'|m1 n' mk' r' q1 Hn' Hm' Hr' Hq']; subst.
      + assert (E : (p == f o')%Q). { eapply averages_constant; [exact Bf|eapply av_draw; eauto|intros t; exists t; apply Hm']. }
        eapply av_done; [exact Hm'|]. rewrite E, Hq'. reflexivity.
      + apply (av_draw s _ m (n * n') (fun d => mk (d mod n)) (fun d => r (d mod n) + r' (d mod n'))%Q); [nia| | |].
        * intros t. rewrite Hm. rewrite (Zmod_div_mod n (n * n') (t O)); auto; [nia|]. exists n'. ring.
        * intros d _. assert (R := Z.mod_pos_bound d n Hn). assert (R' := Z.mod_pos_bound d n' Hn'). apply IH; auto.
          eapply averages_same; [apply Hr'; exact R'|]. intros t. pose proof (Hm (papp [d] t)) as E. rewrite Hm' in E. cbn [papp] in E. symmetry. exact E.
        * rewrite Hp, Hq'. rewrite <- (mean_period r n n' Hn Hn'), <- (mean_period r' n' n Hn' Hn), (Z.mul_comm n' n).
          unfold mean. rewrite !map_length, qsum_plus. field. apply len_nonzero. apply below_nonempty. nia.
  Qed.

  (** *** Equidistribution *)
  Lemma even_nonempty : forall {A} (m : M A) l, even m l -> l <> [].
  Proof. intros A m l [H _] ->. destruct (H (mkSt (fun _ => blank_individ) 0 (fun _ => 0) (fun _ _ => 0) None (fun _ _ => 0) [])) as (a & t & [] & _). Qed.
  Lemma even_ret : forall {A} (a : A), even (ret a) [a].
  Proof.
    intros A a. split.
    - intros s. exists a, (tape s). rewrite set_tape_same. split; [left|]; reflexivity.
    - intros s f. eapply averages_eq; [|apply averages_ret]. cbn [map]. rewrite mean_singleton. reflexivity.
  Qed.
  Lemma even_draw : forall k, 0 < k -> even (draw k) (below k).
  Proof.
    intros k Hk. split.
    - intros s. unfold draw. eexists _, _. split; [|reflexivity]. apply below_in. apply Z.mod_pos_bound; auto.
    - intros s f. apply averages_draw; auto.
  Qed.
  Lemma even_perm : forall {A} (m : M A) l l', even m l -> Permutation l l' -> even m l'.
  Proof.
    intros A m l l' [H0 H] P. split.
    - intros s. destruct (H0 s) as (a & t & Ha & E). exists a, t. split; auto. eapply Permutation_in; eauto.
    - intros s f. eapply averages_eq; [|apply H]. apply mean_perm; auto.
  Qed.
  Lemma even_half : forall {A} (m : M A) l, even m (l ++ l) -> even m l.
  Proof.
    intros A m l [H0 H]. split.
    - intros s. destruct (H0 s) as (a & t & Ha & E). exists a, t. split; auto. apply in_app_or in Ha. tauto.
    - intros s f. eapply averages_eq; [|apply H]. apply mean_double.
  Qed.
  Lemma even_same : forall {A} (m m' : M A) l, even m l -> (forall s, m' s = m s) -> even m' l.
  Proof.
    intros A m m' l [H0 H] E. split.
    - intros s. rewrite E. apply H0.
    - intros s f. eapply averages_same; [apply H|]. intros t. apply E.
  Qed.
  Lemma even_occurs : forall {A} (m : M A) l s a s', even m l -> occurs m s (Ok a s') -> In a l /\ exists u, s' = set_tape u s.
  Proof.
    intros A m l s a s' [H0 _] Ho. destruct (Ho (tape s)) as (t & E). destruct (H0 (set_tape t s)) as (b & t' & Hb & E'). rewrite E in E'. cbn [with_tape] in E'.
    inversion E' as [[Ea Es]]. subst b. split; auto. exists (tape s'). destruct s, s'. cbn in *. inversion Es; subst. reflexivity.
  Qed.
  (** A computation with an equidistributed first part. *)
  Lemma averages_even : forall {A B} s (f : outcome B -> Q) (m : M A) (k : A -> M B) l (r : A -> Q), even m l ->
    (forall a, In a l -> averages s f (k a) (r a)) -> averages s f (bind m k) (mean (map r l)).
  Proof.
    intros A B s f m k l r E Hk. apply (averages_bind s f m k (fun a _ => r a)).
    - eapply averages_eq; [|apply E]. reflexivity.
    - intros a s' Ho. destruct (even_occurs _ _ _ _ _ E Ho) as (Ha & u & ->). eapply averages_same; [apply Hk; auto|]. reflexivity.
  Qed.
  Lemma even_bind : forall {A B} (m : M A) (k : A -> M B) l (L : A -> list B) n, even m l -> (forall a, In a l -> even (k a) (L a)) ->
    (forall a, In a l -> length (L a) = n) -> even (bind m k) (flat_map L l).
  Proof.
    intros A B m k l L n E Hk Hn. split.
    - intros s. destruct (proj1 E s) as (a & t & Ha & Em). destruct (proj1 (Hk a Ha) (set_tape t s)) as (b & t' & Hb & Eb).
      exists b, t'. split; [apply in_flat_map; eauto|]. unfold bind. rewrite Em, Eb. reflexivity.
    - intros s f. eapply averages_eq; [|apply (averages_even s f m k l (fun a => mean (map (fun b => f (Ok b s)) (L a))) E)].
      + symmetry. apply mean_flat with (n := n); auto. pose proof (even_nonempty _ _ E) as Hl. destruct l as [|a l]; [congruence|].
        rewrite <- (Hn a (or_introl eq_refl)). pose proof (even_nonempty _ _ (Hk a (or_introl eq_refl))) as La. destruct (L a); [congruence|cbn; lia].
      + intros a Ha. apply (proj2 (Hk a Ha)).
  Qed.
  Lemma even_map : forall {A B} (m : M A) (g : A -> B) l, even m l -> even (bind m (fun a => ret (g a))) (map g l).
  Proof.
    intros A B m g l E. assert (X : flat_map (fun a => [g a]) l = map g l) by (clear; induction l; cbn; congruence).
    rewrite <- X. apply even_bind with (n := 1%nat); auto. intros a _. apply even_ret.
  Qed.

  (** *** Module random *)
  Lemma even_map_in : forall {A B} (m : M A) (k : A -> M B) (g : A -> B) l, even m l -> (forall a, In a l -> k a = ret (g a)) -> even (bind m k) (map g l).
  Proof.
    intros A B m k g l E H. assert (X : flat_map (fun a => [g a]) l = map g l) by (clear; induction l; cbn; congruence).
    rewrite <- X. apply even_bind with (n := 1%nat); auto. intros a Ha. rewrite H by auto. apply even_ret.
  Qed.
  Lemma even_randint : forall a b, a <= b -> even (randint a b) (zrange a (b + 1)).
  Proof.
    intros a b H. unfold randint. destruct (b <? a) eqn:E; [apply Z.ltb_lt in E; lia|].
    assert (X : zrange a (b + 1) = map (fun k => a + k) (below (b - a + 1))).
    { unfold zrange, py_range, range_len, below. cbn [Z.ltb Z.compare]. destruct (a <? b + 1) eqn:E1; [|apply Z.ltb_ge in E1; lia].
      rewrite map_map, Z.div_1_r. replace (b + 1 - a - 1 + 1) with (b - a + 1) by lia. apply map_ext. intros i. lia. }
    rewrite X. apply even_map. apply even_draw. lia.
  Qed.
  Lemma nth_below : forall {A} (l : list A) d, map (fun k => nth (Z.to_nat k) l d) (below (Z.of_nat (length l))) = l.
  Proof.
    intros A l d. unfold below. rewrite map_map, Nat2Z.id. induction l as [|a l IH]; auto. cbn [length seq map]. f_equal.
    rewrite <- seq_shift, map_map. rewrite <- IH at 2. apply map_ext. intros i. rewrite !Nat2Z.id. reflexivity.
  Qed.
  Lemma even_choice : forall {A} (l : list A), l <> [] -> even (choice l) l.
  Proof.
    intros A [|d l] H; [congruence|]. unfold choice. pose proof (nth_below (d :: l) d) as X.
    eapply even_perm; [|rewrite <- X; apply Permutation_refl]. apply (even_map (draw (Z.of_nat (length (d :: l)))) (fun k => nth (Z.to_nat k) (d :: l) d)). apply even_draw. cbn; lia.
  Qed.
  (** sample *)
  Lemma splits_nth : forall {A} (l : list A) d, splits l = map (fun i => (nth i l d, remove_at i l)) (seq 0 (length l)).
  Proof.
    intros A l d. induction l as [|x l IH]; auto. cbn [splits length seq map]. f_equal. rewrite IH, map_map, <- seq_shift, map_map. apply map_ext. intros i. reflexivity.
  Qed.
  Lemma splits_length : forall {A} (l : list A) p, In p (splits l) -> S (length (snd p)) = length l.
  Proof.
    intros A l. induction l as [|x l IH]; intros p H; [destruct H|]. destruct H as [<-|H]; auto. apply in_map_iff in H. destruct H as (p' & <- & H). cbn. rewrite (IH p' H). reflexivity.
  Qed.
  Lemma splits_count : forall {A} (l : list A), length (splits l) = length l.
  Proof. intros A l. induction l as [|x l IH]; auto. cbn. rewrite map_length, IH. reflexivity. Qed.
  Lemma arrangements_count : forall {A} k (l : list A), length (arrangements k l) = falling (length l) k.
  Proof.
    intros A k. induction k as [|k IH]; intros l; auto. cbn [arrangements falling].
    assert (G : forall ps, (forall p, In p ps -> S (length (snd p)) = length l) -> length (flat_map (fun p : A * list A => map (cons (fst p)) (arrangements k (snd p))) ps) = (length ps * falling (length l - 1) k)%nat).
    { induction ps as [|p ps IHp]; intros H; auto. cbn. rewrite app_length, map_length, IH, IHp by (intros; apply H; right; auto).
      replace (length (snd p)) with (length l - 1)%nat by (rewrite <- (H p) by (left; auto); lia). reflexivity. }
    rewrite G by (apply splits_length). rewrite splits_count. reflexivity.
  Qed.
  Lemma even_sample_loop : forall {A} k (l : list A), (k <= length l)%nat -> even (sample_loop k l) (arrangements k l).
  Proof.
    intros A k. induction k as [|k IH]; intros l Hl; [apply even_ret|]. destruct l as [|d l]; [cbn in Hl; lia|]. cbn [sample_loop arrangements].
    assert (X : flat_map (fun p => map (cons (fst p)) (arrangements k (snd p))) (splits (d :: l)) =
                flat_map (fun i => map (cons (nth (Z.to_nat i) (d :: l) d)) (arrangements k (remove_at (Z.to_nat i) (d :: l)))) (below (Z.of_nat (length (d :: l))))).
    { rewrite (splits_nth (d :: l) d). unfold below. rewrite Nat2Z.id, !flat_map_concat_map, !map_map. f_equal. apply map_ext. intros i. rewrite Nat2Z.id. reflexivity. }
    rewrite X. assert (RL : forall a, In a (below (Z.of_nat (length (d :: l)))) -> S (length (remove_at (Z.to_nat a) (d :: l))) = length (d :: l)).
    { intros a Ha. apply below_in in Ha. unfold remove_at. rewrite app_length, firstn_length, skipn_length. lia. }
    apply even_bind with (n := falling (length l) k).
    - apply even_draw. cbn; lia.
    - intros a Ha. apply even_map. apply IH. specialize (RL a Ha). cbn [length] in *. lia.
    - intros a Ha. rewrite map_length, arrangements_count. specialize (RL a Ha). cbn [length] in RL. f_equal. lia.
  Qed.
  Lemma even_sample : forall {A} (l : list A) k, 0 <= k <= Z.of_nat (length l) -> even (sample l k) (arrangements (Z.to_nat k) l).
  Proof.
    intros A l k H. unfold sample. destruct ((k <? 0) || (Z.of_nat (length l) <? k)) eqn:E.
    - apply orb_true_iff in E. rewrite !Z.ltb_lt in E. lia.
    - apply even_sample_loop. lia.
  Qed.
  (** Loops *)
  Lemma even_mmap : forall {A B} (f : A -> M B) (L : A -> list B) l, (forall a, In a l -> even (f a) (L a)) -> even (mmap f l) (products (map L l)).
  Proof.
    intros A B f L l. induction l as [|a l IH]; intros H; [apply even_ret|]. cbn [mmap map products].
    apply even_bind with (n := length (products (map L l))); [apply H; left; auto| |intros; apply map_length].
    intros b _. apply even_map. apply IH. intros; apply H; right; auto.
  Qed.
  Lemma even_mrepeat : forall {A} n (m : M A) L, even m L -> even (mrepeat n m) (products (repeat L n)).
  Proof.
    intros A n m L E. induction n as [|n IH]; [apply even_ret|]. cbn [mrepeat repeat products].
    apply even_bind with (n := length (products (repeat L n))); auto. intros b _. apply even_map. auto. intros; apply map_length.
  Qed.
End Rules.

(** *** Combinatorics *)
Lemma nodup_app : forall {A} (a b : list A), NoDup a -> NoDup b -> (forall x, In x a -> In x b -> False) -> NoDup (a ++ b).
Proof.
  intros A a b Ha Hb H. induction Ha as [|x a Hx Ha IH]; auto. cbn [app]. constructor.
  - intros I. apply in_app_or in I. destruct I as [I|I]; auto. apply (H x); [left|]; auto.
  - apply IH. intros y I. apply H. right; auto.
Qed.
Lemma splits_fst : forall {A} (l : list A), map fst (splits l) = l.
Proof. intros A l. induction l as [|x l IH]; auto. cbn [splits map fst]. f_equal. rewrite map_map. exact IH. Qed.
Lemma arrangements_1 : forall {A} (l : list A), arrangements 1 l = map (fun x => [x]) l.
Proof.
  intros A l. cbn [arrangements]. rewrite <- (splits_fst l) at 2. generalize (splits l). intros ps. induction ps as [|p ps IH]; auto. cbn [flat_map map app]. f_equal. exact IH.
Qed.
Lemma splits_map : forall {A B} (f : A -> B) l, splits (map f l) = map (fun p => (f (fst p), map f (snd p))) (splits l).
Proof. intros A B f l. induction l as [|x l IH]; auto. cbn [map splits]. rewrite IH, !map_map. reflexivity. Qed.
Lemma flat_map_map : forall {A B C} (f : B -> list C) (g : A -> B) l, flat_map f (map g l) = flat_map (fun a => f (g a)) l.
Proof. intros. rewrite !flat_map_concat_map, map_map. reflexivity. Qed.
Lemma map_flat_map : forall {A B C} (f : A -> list B) (g : B -> C) l, map g (flat_map f l) = flat_map (fun a => map g (f a)) l.
Proof. intros A B C f g l. induction l as [|a l IH]; auto. cbn [flat_map]. rewrite map_app, IH. reflexivity. Qed.
Lemma flat_map_ext_in : forall {A B} (f g : A -> list B) l, (forall a, In a l -> f a = g a) -> flat_map f l = flat_map g l.
Proof. intros A B f g l. induction l as [|a l IH]; intros H; auto. cbn. rewrite (H a (or_introl eq_refl)), IH; auto. intros; apply H; right; auto. Qed.
Lemma arrangements_map : forall {A B} (f : A -> B) k l, arrangements k (map f l) = map (map f) (arrangements k l).
Proof.
  intros A B f k. induction k as [|k IH]; intros l; auto. cbn [arrangements]. rewrite splits_map, flat_map_map, map_flat_map. apply flat_map_ext_in.
  intros p _. cbn [fst snd]. rewrite IH, !map_map. reflexivity.
Qed.
(** Two elements in any order: every pair twice. *)
Lemma arrangements_2 : forall {A} (l : list A),
  Permutation (arrangements 2 l) (map (fun p => [fst p; snd p]) (pairs l) ++ map (fun p => [snd p; fst p]) (pairs l)).
Proof.
  intros A l. induction l as [|x l IH]; [constructor|].
  assert (E2 : forall l' : list A, arrangements 2 l' = flat_map (fun p => map (fun y => [fst p; y]) (snd p)) (splits l')).
  { intros l'. change (arrangements 2 l') with (flat_map (fun p => map (cons (fst p)) (arrangements 1 (snd p))) (splits l')). apply flat_map_ext_in. intros p _.
    rewrite arrangements_1, map_map. reflexivity. }
  rewrite E2 in *. cbn [splits flat_map pairs fst snd]. rewrite flat_map_map. cbn [fst snd map].
  rewrite !map_app, !map_map. cbn [fst snd].
  assert (E : Permutation (flat_map (fun p : A * list A => [fst p; x] :: map (fun y => [fst p; y]) (snd p)) (splits l))
                (map (fun y => [y; x]) l ++ flat_map (fun p => map (fun y => [fst p; y]) (snd p)) (splits l))).
  { rewrite <- (splits_fst l) at 2. generalize (splits l). intros ps. induction ps as [|p ps IHp]; [constructor|]. cbn [flat_map map app].
    constructor. rewrite IHp. rewrite !app_assoc. apply Permutation_app_tail. apply Permutation_app_comm. }
  rewrite <- app_assoc. apply Permutation_app_head. rewrite E, IH, !app_assoc. apply Permutation_app_tail. apply Permutation_app_comm.
Qed.
Lemma pairs_map : forall {A B} (f : A -> B) l, pairs (map f l) = map (fun p => (f (fst p), f (snd p))) (pairs l).
Proof. intros A B f l. induction l as [|x l IH]; auto. cbn [pairs map]. rewrite map_app, IH, !map_map. reflexivity. Qed.
Lemma in_pairs_seq : forall a n i j, In (i, j) (pairs (seq a n)) <-> (a <= i < j)%nat /\ (j < a + n)%nat.
Proof.
  intros a n. revert a. induction n as [|n IH]; intros a i j; cbn [seq pairs].
  - split; [intros []|lia].
  - rewrite in_app_iff, in_map_iff, IH. split.
    + intros [(y & E & H)|H]; [inversion E; subst; apply in_seq in H|]; lia.
    + intros H. destruct (Nat.eq_dec a i) as [->|]; [left; exists j; split; auto; apply in_seq; lia|right; lia].
Qed.
Lemma pairs_count : forall {A} (l : list A), (2 * length (pairs l) = length l * (length l - 1))%nat.
Proof.
  intros A l. induction l as [|x l IH]; auto. cbn [pairs length]. rewrite app_length, map_length. destruct (length l); nia.
Qed.
Lemma in_products : forall {A} (ls : list (list A)) x, In x (products ls) <-> Forall2 (fun a l => In a l) x ls.
Proof.
  intros A ls. induction ls as [|l ls IH]; intros x; cbn [products].
  - split; [intros [<-|[]]; constructor|intros H; inversion H; left; reflexivity].
  - rewrite in_flat_map. split.
    + intros (a & Ha & H). apply in_map_iff in H. destruct H as (y & <- & Hy). constructor; auto. apply IH; auto.
    + intros H. inversion H as [|a l' y ls' Ha Hy]; subst. exists a. split; auto. apply in_map. apply IH; auto.
Qed.
Lemma products_count : forall {A} (l : list A) n, length (products (repeat l n)) = (length l ^ n)%nat.
Proof.
  intros A l n. induction n as [|n IH]; auto. cbn [repeat products Nat.pow].
  assert (E : forall (l0 : list A) ps, length (flat_map (fun a => map (cons a) ps) l0) = (length l0 * length ps)%nat).
  { intros l0 ps. induction l0 as [|a l0 IH0]; auto. cbn [flat_map length]. rewrite app_length, map_length, IH0. lia. }
  rewrite E, IH. reflexivity.
Qed.
Lemma nodup_products : forall {A} (ls : list (list A)), Forall (@NoDup A) ls -> NoDup (products ls).
Proof.
  intros A ls H. induction H as [|l ls Hl H IH]; cbn [products]; [repeat constructor; intros []|].
  induction Hl as [|a l Ha Hl IHl]; [constructor|]. cbn [flat_map]. apply nodup_app.
  - apply nodup_map_inj; auto. intros x y E. congruence.
  - exact IHl.
  - intros x H1 H2. apply in_map_iff in H1. destruct H1 as (y & <- & _). apply in_flat_map in H2. destruct H2 as (b & Hb & H2).
    apply in_map_iff in H2. destruct H2 as (z & E & _). inversion E; subst. auto.
Qed.
Lemma products_app : forall {A} (a b : list (list A)), products (a ++ b) = flat_map (fun x => map (app x) (products b)) (products a).
Proof.
  intros A a b. induction a as [|l a IH].
  - cbn [app products flat_map]. rewrite app_nil_r. symmetry. apply map_id.
  - cbn [app products]. rewrite IH. clear IH. induction l as [|x l IHl]; auto. cbn [flat_map]. rewrite flat_map_app, IHl. f_equal.
    rewrite flat_map_map, map_flat_map. apply flat_map_ext_in. intros y _. rewrite map_map. reflexivity.
Qed.
Lemma seq_zrange : forall a n, zrange (Z.of_nat a) (Z.of_nat (a + n)) = map Z.of_nat (seq a n).
Proof.
  intros a n. rewrite zrange_eq. replace (Z.to_nat (Z.of_nat (a + n) - Z.of_nat a)) with n by lia. replace (seq a n) with (map (fun i => (a + i)%nat) (seq 0 n)) by (rewrite seq_offset, Nat.add_0_r; reflexivity).
  rewrite map_map. apply map_ext. intros; lia.
Qed.
