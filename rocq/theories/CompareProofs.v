(** Comparing means (ChanceRun.v) of two computations run from the same randomness, and
    probabilities above 0. *)
From Coq Require Import String.
From Coq Require Import ZArith QArith List Bool Lia Lqa.
From Verif Require Import Num State ListLemmas Rnd SeedProofs Chance ChanceProofs ChanceRun ChanceRunProofs.
Import ListNotations.
Open Scope list_scope.
Open Scope Z_scope.

Section Compare.
  Context {NO : NumOps}.

  Lemma mean_above : forall {A} (f : A -> Q) c l, l <> [] -> (forall a, In a l -> c <= f a)%Q -> (c <= mean (map f l))%Q.
  Proof. intros A f c l N H. rewrite <- (mean_const c l N). apply mean_le. auto. Qed.
  Lemma mean_below : forall {A} (f : A -> Q) c l, l <> [] -> (forall a, In a l -> f a <= c)%Q -> (mean (map f l) <= c)%Q.
  Proof. intros A f c l N H. rewrite <- (mean_const c l N). apply mean_le. auto. Qed.

  Lemma expects_above : forall {A} s (f : outcome A -> Q) m q c, unseeing f -> expects s f m q ->
    (forall t e, c <= f (m (set_source t e s)))%Q -> (c <= q)%Q.
  Proof.
    intros A s f m q c B H. induction H as [m o q Hm Hq|m n mk p q Hn Hm Hr IH Hq|m mn q Hm H IH]; intros E.
    - rewrite Hq. specialize (E (tape s) (ent s)). rewrite Hm, (B _ _ o) in E. exact E.
    - rewrite Hq. apply mean_above; [apply below_nonempty; auto|]. intros d Hd. apply below_in in Hd. apply IH; auto.
      intros t e. specialize (E (papp [d] t) e). rewrite Hm in E. cbn [papp] in E. rewrite Z.mod_small in E by auto. exact E.
    - apply IH. intros t e. specialize (E t (fun i => match i with O => t | S j => e j end)). rewrite Hm in E. exact E.
  Qed.
  Lemma expects_below : forall {A} s (f : outcome A -> Q) m q c, unseeing f -> expects s f m q ->
    (forall t e, f (m (set_source t e s)) <= c)%Q -> (q <= c)%Q.
  Proof.
    intros A s f m q c B H. induction H as [m o q Hm Hq|m n mk p q Hn Hm Hr IH Hq|m mn q Hm H IH]; intros E.
    - rewrite Hq. specialize (E (tape s) (ent s)). rewrite Hm, (B _ _ o) in E. exact E.
    - rewrite Hq. apply mean_below; [apply below_nonempty; auto|]. intros d Hd. apply below_in in Hd. apply IH; auto.
      intros t e. specialize (E (papp [d] t) e). rewrite Hm in E. cbn [papp] in E. rewrite Z.mod_small in E by auto. exact E.
    - apply IH. intros t e. specialize (E t (fun i => match i with O => t | S j => e j end)). rewrite Hm in E. exact E.
  Qed.
  (** If on the same randomness the value of the first is never above that of the second,
      neither is its mean. *)
  Lemma expects_compare : forall {A B} s (f : outcome A -> Q) (g : outcome B -> Q) m q, unseeing f -> unseeing g -> expects s f m q ->
    forall m2 q', expects s g m2 q' -> (forall t e, f (m (set_source t e s)) <= g (m2 (set_source t e s)))%Q -> (q <= q')%Q.
  Proof.
    intros A B s f g m q Uf Ug H. induction H as [m o q Hm Hq|m n mk p q Hn Hm Hr IH Hq|m mn q Hm H IH]; intros m2 q' H' E.
    - rewrite Hq. eapply expects_above; [exact Ug|exact H'|]. intros t e. specialize (E t e). rewrite Hm, (Uf _ _ o) in E. exact E.
    - inversion H' as [m1 o' q1 Hm' Hq'|m1 n' mk' p' q1 Hn' Hm' Hr' Hq'|m1 mn q1 Hm' H1]; subst.
      + rewrite Hq'. apply (expects_below s f m q); auto; [eapply ex_draw; eauto|]. intros t e. specialize (E t e). rewrite Hm', (Ug _ _ o') in E. exact E.
      + rewrite Hq, Hq'. rewrite <- (mean_period p n n' Hn Hn'), <- (mean_period p' n' n Hn' Hn), (Z.mul_comm n' n). apply mean_le.
        intros d _. assert (R := Z.mod_pos_bound d n Hn). assert (R' := Z.mod_pos_bound d n' Hn'). apply (IH _ R (mk' (d mod n'))); auto.
        intros t e. specialize (E (papp [d] t) e). rewrite Hm', Hm in E. cbn [papp] in E. exact E.
      + rewrite Hq. apply mean_below; [apply below_nonempty; auto|]. intros d Hd. apply below_in in Hd.
        apply (IH d Hd m2); auto. intros t e. specialize (E (papp [d] t) e). rewrite Hm', Hm in E. cbn [papp] in E. rewrite Z.mod_small in E by auto. rewrite Hm'. exact E.
    - assert (E1 : forall t e t', (f (mn (set_source t e s)) <= g (m2 (set_source t' (fun i => match i with O => t | S j => e j end) s)))%Q).
      { intros t e t'. specialize (E t' (fun i => match i with O => t | S j => e j end)). rewrite Hm in E. exact E. }
      clear E Hm. induction H' as [m2 o' q' Hm' Hq'|m2 n' mk' p' q' Hn' Hm' Hr' IH' Hq'|m2 mn' q' Hm' H1 IH'].
      + rewrite Hq'. apply (expects_below s f mn q); auto. intros t e. specialize (E1 t e t). rewrite Hm', (Ug _ _ o') in E1. exact E1.
      + rewrite Hq'. apply mean_above; [apply below_nonempty; auto|]. intros d Hd. apply below_in in Hd. apply IH'; auto.
        intros t e t'. specialize (E1 t e (papp [d] t')). rewrite Hm' in E1. cbn [papp] in E1. rewrite Z.mod_small in E1 by auto. exact E1.
      + apply (IH mn'); auto. intros t e. specialize (E1 t e t). rewrite Hm' in E1. exact E1.
  Qed.
  (** What happens for some draws has a probability above 0. *)
  Lemma expects_positive : forall {A} s (f : outcome A -> Q) m q, unseeing f -> (forall o, 0 <= f o)%Q -> expects s f m q ->
    forall t e, (0 < f (m (set_source t e s)))%Q -> (0 < q)%Q.
  Proof.
    intros A s f m q B P H. induction H as [m o q Hm Hq|m n mk p q Hn Hm Hr IH Hq|m mn q Hm H IH]; intros t e E.
    - rewrite Hm, (B _ _ o) in E. rewrite Hq. exact E.
    - rewrite Hm in E. assert (R := Z.mod_pos_bound (t O) n Hn). pose proof (IH _ R _ _ E) as K. set (d := t O mod n) in *.
      assert (P0 : forall a, In a (below n) -> (0 <= p a)%Q).
      { intros a Ha. apply below_in in Ha. eapply expects_above; [exact B|exact (Hr a Ha)|]. intros; apply P. }
      assert (Id : In d (below n)) by (apply below_in; exact R). rewrite Hq. unfold mean.
      assert (Sp : (0 < qsum_of (map p (below n)))%Q).
      { clear - K P0 Id. induction (below n) as [|a l IHl]; [destruct Id|]. cbn [map qsum_of].
        assert (Nn : (0 <= qsum_of (map p l))%Q).
        { clear - P0. induction l as [|b l IHl]; cbn [map qsum_of]; [apply Qle_refl|]. pose proof (P0 b (or_intror (or_introl eq_refl))).
          assert (0 <= qsum_of (map p l))%Q by (apply IHl; intros x [<-|Hx]; apply P0; [left|right; right]; auto). lra. }
        destruct Id as [->|Id]; [lra|]. pose proof (P0 a (or_introl eq_refl)). assert (0 < qsum_of (map p l))%Q by (apply IHl; auto; intros x Hx; apply P0; right; auto). lra. }
      apply Qlt_shift_div_l; [|lra]. assert (Nl : below n <> []) by (apply below_nonempty; auto). rewrite map_length.
      destruct (below n); [congruence|]. unfold Qlt. cbn. lia.
    - apply (IH (e O) (fun i => e (S i))). rewrite Hm in E. exact E.
  Qed.
  Lemma expects_complement : forall {A} s (f : outcome A -> Q) m q, expects s f m q -> expects s (fun o => 1 - f o)%Q m (1 - q)%Q.
  Proof.
    intros A s f m q H. induction H as [m o q Hm Hq|m n mk p q Hn Hm Hr IH Hq|m mn q Hm H IH].
    - eapply ex_done; [exact Hm|]. rewrite Hq. reflexivity.
    - eapply (ex_draw s _ m n mk (fun d => 1 - p d)%Q); [exact Hn|exact Hm|exact IH|]. rewrite Hq.
      rewrite (mean_ext (fun d => 1 - p d)%Q (fun d => (-1) * p d + 1)%Q) by (intros; ring). rewrite mean_affine by (apply below_nonempty; auto). ring.
    - eapply ex_seed; [exact Hm|exact IH].
  Qed.
  Lemma unseeing_indicator : forall {A} (ev : outcome A -> bool), (forall t e o, ev (with_source t e o) = ev o) -> unseeing (fun o => indicator (ev o)).
  Proof. intros A ev H t e o. rewrite H. reflexivity. Qed.
End Compare.
