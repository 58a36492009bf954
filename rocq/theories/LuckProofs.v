(** Lower bounds for the probability that a computation returns with a given property. *)
From Coq Require Import String.
From Coq Require Import ZArith QArith List Bool Lia Lqa.
From Verif Require Import Spec Num State Binary Population GaData
  ListLemmas Rnd Exec SeedProofs ReachProofs Chance ChanceProofs SelChanceProofs PropSelChance PropMutChance ChanceRun ChanceRunProofs.
Import ListNotations.
Open Scope list_scope.
Open Scope Z_scope.

Section Luck.
  Context {NO : NumOps}.

  (** [lucky s P m q]: run in state [s], [m] returns a value and a state with property
      [P] with probability at least [q]. *)
  Inductive lucky {A} (s : st) (P : A -> st -> Prop) : M A -> Q -> Prop :=
  | lk_none : forall m q, plain s m -> (q <= 0)%Q -> lucky s P m q
  | lk_done : forall m a s' q, (forall t e, m (set_source t e s) = Ok a (set_source t e s')) -> P a s' -> (q <= 1)%Q -> lucky s P m q
  | lk_draw : forall m k (m' : Z -> M A) (r : Z -> Q) q, 0 < k ->
      (forall t e, m (set_source t e s) = m' (t O mod k) (set_source (fun i => t (S i)) e s)) ->
      (forall d, 0 <= d < k -> lucky s P (m' d) (r d)) ->
      (q <= mean (map r (below k)))%Q -> lucky s P m q
  | lk_seed : forall m (m' : M A) q,
      (forall t e, m (set_source t e s) = m' (set_source (e O) (fun i => e (S i)) s)) ->
      lucky s P m' q -> lucky s P m q.

  Lemma lucky_weaken : forall {A} s (P : A -> st -> Prop) m q q', lucky s P m q -> (q' <= q)%Q -> lucky s P m q'.
  Proof.
    intros A s P m q q' H. revert q'. induction H as [m q Pl Hq|m a s' q Hm Pa Hq|m k mk r q Hk Hm Hr IH Hq|m mn q Hm H IH]; intros q' L.
    - apply lk_none; auto. lra.
    - eapply lk_done; eauto. lra.
    - eapply lk_draw; eauto. lra.
    - eapply lk_seed; eauto.
  Qed.
  Lemma lucky_plain : forall {A} s (P : A -> st -> Prop) m q, lucky s P m q -> plain s m.
  Proof.
    intros A s P m q H. induction H as [m q Pl Hq|m a s' q Hm Pa Hq|m k mk r q Hk Hm Hr IH Hq|m mn q Hm H IH]; auto.
    - apply pl_done with (o := Ok a s'). exact Hm.
    - eapply pl_draw; eauto.
    - eapply pl_seed; eauto.
  Qed.
  Lemma lucky_same : forall {A} s s' (P : A -> st -> Prop) m q m', lucky s P m q ->
    (forall t e, m' (set_source t e s') = m (set_source t e s)) -> lucky s' P m' q.
  Proof.
    intros A s s' P m q m' H. revert m'. induction H as [m q Pl Hq|m a s1 q Hm Pa Hq|m k mk r q Hk Hm Hr IH Hq|m mn q Hm H IH]; intros m' E.
    - apply lk_none; auto. eapply plain_same; eauto.
    - eapply lk_done; [|exact Pa|exact Hq]. intros t e. rewrite E. apply Hm.
    - apply (lk_draw s' P m' k (fun d s1 => mk d (set_source (tape s1) (ent s1) s)) r q Hk); [intros t e; rewrite E, Hm; reflexivity| |exact Hq].
      intros d Hd. apply (IH d Hd). reflexivity.
    - apply (lk_seed s' P m' (fun s1 => mn (set_source (tape s1) (ent s1) s))); [|apply IH; reflexivity]. intros t e. rewrite E, Hm. reflexivity.
  Qed.
  Lemma lucky_impl : forall {A} s (P R : A -> st -> Prop) m q, lucky s P m q -> (forall a s', arises m s (Ok a s') -> P a s' -> R a s') -> lucky s R m q.
  Proof.
    intros A s P R m q H. induction H as [m q Pl Hq|m a s1 q Hm Pa Hq|m k mk r q Hk Hm Hr IH Hq|m mn q Hm H IH]; intros I.
    - apply lk_none; auto.
    - eapply lk_done; [exact Hm| |exact Hq]. apply I; auto. apply arises_done. exact Hm.
    - eapply lk_draw; eauto. intros d Hd. apply IH; auto. intros a s' Ho. apply I. eapply arises_draw; eauto.
    - eapply lk_seed; eauto. apply IH. intros a s' Ho. apply I. eapply arises_seed; eauto.
  Qed.
  Lemma lucky_bind : forall {A B} s (P : A -> st -> Prop) (R : B -> st -> Prop) (m : M A) (k : A -> M B) q w, lucky s P m q -> (0 <= w)%Q ->
    (forall a s', arises m s (Ok a s') -> plain s' (k a)) -> (forall a s', arises m s (Ok a s') -> P a s' -> lucky s' R (k a) w) -> lucky s R (bind m k) (q * w).
  Proof.
    intros A B s P R m k q w H Hw. induction H as [m q Pl Hq|m a s1 q Hm Pa Hq|m n mk r q Hn Hm Hr IH Hq|m mn q Hm H IH]; intros Kp Kl.
    - apply lk_none; [apply plain_bind; auto|]. setoid_replace 0%Q with (0 * w)%Q by ring. apply Qmult_le_compat_r; auto.
    - assert (Ar : arises m s (Ok a s1)) by (apply arises_done; exact Hm). apply lucky_weaken with w; [|setoid_replace w with (1 * w)%Q at 2 by ring; apply Qmult_le_compat_r; auto].
      eapply lucky_same; [exact (Kl a s1 Ar Pa)|]. intros t e. unfold bind. rewrite Hm. reflexivity.
    - apply (lk_draw s R (bind m k) n (fun d => bind (mk d) k) (fun d => r d * w)%Q); auto.
      + intros t e. unfold bind. rewrite Hm. reflexivity.
      + intros d Hd. apply IH; auto; intros a s' Ho; [apply Kp|apply Kl]; eapply arises_draw; eauto.
      + assert (X : (mean (map (fun d => r d * w) (below n)) == mean (map r (below n)) * w)%Q).
        { rewrite (Qmult_comm _ w), <- mean_scale. apply mean_ext. intros; ring. }
        rewrite X. apply Qmult_le_compat_r; auto.
    - apply (lk_seed s R (bind m k) (bind mn k)); [intros t e; unfold bind; rewrite Hm; reflexivity|].
      apply IH; intros a s' Ho; [apply Kp|apply Kl]; eapply arises_seed; eauto.
  Qed.
  (** All outcomes are successes. *)
  Lemma lucky_sure : forall {A} s (P : A -> st -> Prop) m, plain s m -> (forall o, arises m s o -> exists a s', o = Ok a s' /\ P a s') -> lucky s P m 1.
  Proof.
    intros A s P m H. induction H as [m o Hm|m n mk Hn Hm Hr IH|m mn Hm H IH]; intros I.
    - destruct (I o (arises_done m s o Hm)) as (a & s' & -> & Pa). eapply lk_done; [exact Hm|exact Pa|apply Qle_refl].
    - apply (lk_draw s P m n mk (fun _ => 1%Q)); auto.
      + intros d Hd. apply IH; auto. intros o Ho. apply I. eapply arises_draw; eauto.
      + rewrite mean_const; [apply Qle_refl|apply below_nonempty; auto].
    - eapply lk_seed; eauto. apply IH. intros o Ho. apply I. eapply arises_seed; eauto.
  Qed.
  (** From the probability of an event. *)
  Lemma expects_lucky : forall {A} s (ev : outcome A -> bool) m q, expects s (fun o => indicator (ev o)) m q ->
    (forall o, ev o = true -> exists a s', o = Ok a s') -> lucky s (fun a s' => ev (Ok a s') = true) m q.
  Proof.
    intros A s ev m q H Ev. induction H as [m o q Hm Hq|m k mk r q Hk Hm Hr IH Hq|m mn q Hm H IH].
    - destruct (ev o) eqn:E.
      + destruct (Ev o E) as (a & s' & ->). eapply lk_done; [exact Hm|exact E|]. rewrite Hq. apply Qle_refl.
      + apply lk_none; [eapply pl_done; exact Hm|]. rewrite Hq. apply Qle_refl.
    - eapply lk_draw; eauto. rewrite Hq. apply Qle_refl.
    - eapply lk_seed; eauto.
  Qed.
  (** The bound for a mean value. *)
  Lemma lucky_bound : forall {A} s (P : A -> st -> Prop) m w (f : outcome A -> Q) c0 c1, lucky s P m w ->
    (forall o, arises m s o -> f o <= c0)%Q -> (forall a s', arises m s (Ok a s') -> P a s' -> f (Ok a s') <= c1)%Q -> (c1 <= c0)%Q ->
    at_most s f m (c0 - w * (c0 - c1)).
  Proof.
    intros A s P m w f c0 c1 H. induction H as [m q Pl Hq|m a s1 q Hm Pa Hq|m n mk r q Hn Hm Hr IH Hq|m mn q Hm H IH]; intros F0 F1 L.
    - destruct (plain_bound s f m c0 Pl F0) as (p & E & Lp). exists p. split; auto.
      assert (q * (c0 - c1) <= 0 * (c0 - c1))%Q by (apply Qmult_le_compat_r; lra). lra.
    - exists (f (Ok a s1)). split; [apply ex_done with (o := Ok a s1); [exact Hm|reflexivity]|].
      assert (f (Ok a s1) <= c1)%Q by (apply F1; auto; apply arises_done; exact Hm). assert (q * (c0 - c1) <= 1 * (c0 - c1))%Q by (apply Qmult_le_compat_r; lra). lra.
    - destruct (finite_choice (below n) (fun d x => expects s f (mk d) x /\ x <= c0 - r d * (c0 - c1))%Q) as (r' & R').
      { intros d Hd. apply below_in in Hd. apply IH; auto; [intros o Ho; apply F0|intros a s' Ho; apply F1]; eapply arises_draw; eauto. }
      exists (mean (map r' (below n))). split.
      + eapply ex_draw; [exact Hn|exact Hm| |reflexivity]. intros d Hd. apply R'. apply below_in. auto.
      + apply Qle_trans with (mean (map (fun d => - (c0 - c1) * r d + c0) (below n)))%Q.
        * apply mean_le. intros d Hd. destruct (R' d Hd) as [_ X]. lra.
        * rewrite (mean_affine r (- (c0 - c1)) c0 (below n) (below_nonempty n Hn)).
          assert (q * (c0 - c1) <= mean (map r (below n)) * (c0 - c1))%Q by (apply Qmult_le_compat_r; auto; lra). lra.
    - destruct IH as (p & E & Lp); auto; [intros o Ho; apply F0|intros a s' Ho; apply F1|]; try (eapply arises_seed; eauto). exists p. split; auto. eapply ex_seed; eauto.
  Qed.

  (** *** Single draws *)
  Lemma lucky_ret : forall {A} s (P : A -> st -> Prop) a, P a s -> lucky s P (ret a) 1.
  Proof. intros A s P a Pa. eapply lk_done; [reflexivity|exact Pa|apply Qle_refl]. Qed.
  (** A computation without randomness. *)
  Definition calm {A} (s : st) (m : M A) (a : A) (s' : st) : Prop := forall t e, m (set_source t e s) = Ok a (set_source t e s').
  Lemma calm_bind : forall {A B} s (R : B -> st -> Prop) (m : M A) (k : A -> M B) a s' w, calm s m a s' -> lucky s' R (k a) w -> lucky s R (bind m k) w.
  Proof. intros A B s R m k a s' w C H. eapply lucky_same; [exact H|]. intros t e. unfold bind. rewrite C. reflexivity. Qed.
  (** One of the values of an even draw. *)
  Lemma lucky_even : forall {A} (eqb : A -> A -> bool) s (m : M A) l a, even m l -> steered m -> (forall x y, eqb x y = true <-> x = y) -> In a l ->
    lucky s (fun x s' => x = a /\ exists t e, s' = set_source t e s) m (/ inject_Z (Z.of_nat (length l))).
  Proof.
    intros A eqb s m l a Ev St Eq Ia.
    assert (Ch : expects s (fun o => indicator (returns (eqb a) o)) m (mean (map (fun x => indicator (eqb a x)) l))).
    { eapply averages_expects; [apply (proj2 Ev)|]. intros t e. apply (proj1 St). }
    apply expects_lucky in Ch; [|intros [x s'|x|] E; [eauto|discriminate E|discriminate E]].
    apply lucky_weaken with (mean (map (fun x => indicator (eqb a x)) l)).
    - eapply lucky_impl; [exact Ch|]. intros x s' Ho Er. cbn [returns] in Er. apply Eq in Er. split; [auto|].
      destruct (Ho (tape s') (ent s')) as (t & e & E). cbn [with_source] in E. rewrite source_same in E.
      destruct (proj1 Ev (set_source t e s)) as (b & u & _ & E'). rewrite E in E'. inversion E'; subst. exists u, e. reflexivity.
    - rewrite mean_indicator. assert (F : (0 < length (filter (eqb a) l))%nat).
      { assert (I : In a (filter (eqb a) l)) by (apply filter_In; split; auto; apply Eq; reflexivity). destruct (filter _ l); [destruct I|cbn; lia]. }
      assert (L : (0 < length l)%nat) by (destruct l; [destruct Ia|cbn; lia]).
      unfold Qdiv. setoid_replace (/ inject_Z (Z.of_nat (length l)))%Q with (1 * / inject_Z (Z.of_nat (length l)))%Q at 1 by ring.
      apply Qmult_le_compat_r; [change 1%Q with (inject_Z 1); rewrite <- Zle_Qle; lia|]. apply Qinv_le_0_compat. unfold Qle; cbn; lia.
  Qed.
End Luck.
