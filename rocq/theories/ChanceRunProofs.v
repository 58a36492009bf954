(** Rules for [expects] (ChanceRun.v), and bounds on it. *)
From Coq Require Import String.
From Coq Require Import ZArith Znumtheory QArith List Bool Lia Lqa.
From Verif Require Import Num State Binary Population GaData Crossover Mutation Selection Penalty Fitness NewGeneration Driver
  ListLemmas Rnd SeedProofs Chance ChanceProofs ChanceRun.
Import ListNotations.
Open Scope list_scope.
Open Scope Z_scope.

(** Finite choice. *)
Lemma finite_choice : forall (l : list Z) (P : Z -> Q -> Prop), (forall d, In d l -> exists q, P d q) -> exists r, forall d, In d l -> P d (r d).
Proof.
  intros l P. induction l as [|a l IH]; intros H; [exists (fun _ => 0%Q); intros d []|].
  destruct (IH (fun d Hd => H d (or_intror Hd))) as (r & Hr). destruct (H a (or_introl eq_refl)) as (q & Hq).
  exists (fun d => if Z.eqb d a then q else r d). intros d [<-|Hd]; [rewrite Z.eqb_refl; auto|]. destruct (Z.eqb_spec d a) as [->|]; auto.
Qed.
Lemma qsum_le : forall {A} (f g : A -> Q) l, (forall a, In a l -> f a <= g a)%Q -> (qsum_of (map f l) <= qsum_of (map g l))%Q.
Proof.
  intros A f g l. induction l as [|a l IH]; intros H; cbn [map qsum_of]; [apply Qle_refl|].
  apply Qplus_le_compat; [apply H; left; auto|apply IH; intros; apply H; right; auto].
Qed.
Lemma mean_le : forall {A} (f g : A -> Q) l, (forall a, In a l -> f a <= g a)%Q -> (mean (map f l) <= mean (map g l))%Q.
Proof.
  intros A f g l H. unfold mean. rewrite !map_length. apply Qmult_le_compat_r; [apply qsum_le; auto|]. apply Qinv_le_0_compat. unfold Qle. cbn. lia.
Qed.
Lemma mean_affine : forall {A} (f : A -> Q) a c l, l <> [] -> (mean (map (fun x => a * f x + c) l) == a * mean (map f l) + c)%Q.
Proof.
  intros A f a c l N. unfold mean. rewrite !map_length, (qsum_plus (fun x => a * f x)%Q (fun _ => c)), qsum_const.
  rewrite (qsum_ext (fun x => a * f x)%Q (fun x => f x * a)%Q) by (intros; ring). rewrite qsum_scale. field. apply len_nonzero. exact N.
Qed.

Section Rules.
  Context {NO : NumOps}.

  Lemma source_source : forall t e t' e' s, set_source t e (set_source t' e' s) = set_source t e s.
  Proof. reflexivity. Qed.
  Lemma source_same : forall s, set_source (tape s) (ent s) s = s.
  Proof. destruct s; reflexivity. Qed.
  Lemma with_with : forall {A} t e t' e' (o : outcome A), with_source t e (with_source t' e' o) = with_source t e o.
  Proof. destruct o; reflexivity. Qed.

  Lemma expects_eq : forall {A} s (f : outcome A -> Q) m q q', (q == q')%Q -> expects s f m q -> expects s f m q'.
  Proof.
    intros A s f m q q' E H. revert q' E. induction H as [m o q Hm Hq|m k m' r q Hk Hm Hr IH Hq|m m' q Hm H IH]; intros q' E;
      [eapply ex_done|eapply ex_draw|eapply ex_seed]; eauto; rewrite <- E; auto.
  Qed.
  Lemma expects_same : forall {A} s s' (f : outcome A -> Q) m q m', expects s f m q ->
    (forall t e, m' (set_source t e s') = m (set_source t e s)) -> expects s' f m' q.
  Proof.
    intros A s s' f m q m' H. revert m'. induction H as [m o q Hm Hq|m k mk r q Hk Hm Hr IH Hq|m mn q Hm H IH]; intros m' E.
    - eapply ex_done; [|exact Hq]. intros t e. rewrite E. apply Hm.
    - apply (ex_draw s' f m' k (fun d s1 => mk d (set_source (tape s1) (ent s1) s)) r q Hk); auto.
      intros t e. rewrite E, Hm. reflexivity.
    - apply (ex_seed s' f m' (fun s1 => mn (set_source (tape s1) (ent s1) s))); [|apply IH; reflexivity].
      intros t e. rewrite E, Hm. reflexivity.
  Qed.

  (** Outcomes that occur. *)
  Definition arises {A} (m : M A) (s : st) (o : outcome A) : Prop := forall t' e', exists t e, m (set_source t e s) = with_source t' e' o.
  Lemma arises_done : forall {A} (m : M A) s o, (forall t e, m (set_source t e s) = with_source t e o) -> arises m s o.
  Proof. intros A m s o H t e. exists t, e. apply H. Qed.
  Lemma arises_draw : forall {A} (m : M A) s k (m' : Z -> M A) d o, 0 <= d < k ->
    (forall t e, m (set_source t e s) = m' (t O mod k) (set_source (fun i => t (S i)) e s)) -> arises (m' d) s o -> arises m s o.
  Proof.
    intros A m s k m' d o Hd Hm H t' e'. destruct (H t' e') as (t & e & E). exists (papp [d] t), e. rewrite Hm. cbn [papp]. rewrite Z.mod_small by auto. exact E.
  Qed.
  Lemma arises_seed : forall {A} (m m' : M A) s o,
    (forall t e, m (set_source t e s) = m' (set_source (e O) (fun i => e (S i)) s)) -> arises m' s o -> arises m s o.
  Proof.
    intros A m m' s o Hm H t' e'. destruct (H t' e') as (t & e & E). exists t, (fun i => match i with O => t | S j => e j end). rewrite Hm. exact E.
  Qed.
  Lemma arises_bind : forall {A B} (m : M A) (k : A -> M B) s a s' o, arises m s (Ok a s') -> arises (k a) s' o -> arises (bind m k) s o.
  Proof.
    intros A B m k s a s' o H1 H2 t' e'. destruct (H2 t' e') as (t2 & e2 & E2). destruct (H1 t2 e2) as (t & e & E1). exists t, e. unfold bind. rewrite E1. exact E2.
  Qed.

  (** Mean values exist and are compared on the outcomes that occur. *)
  Definition at_most {A} (s : st) (f : outcome A -> Q) (m : M A) (q : Q) : Prop := exists p, expects s f m p /\ (p <= q)%Q.

  Lemma expects_affine : forall {A} s (f g : outcome A -> Q) m p (a c : Q), (0 <= a)%Q -> expects s f m p ->
    (forall o, arises m s o -> g o <= a * f o + c)%Q -> at_most s g m (a * p + c).
  Proof.
    intros A s f g m p a c Ha H. induction H as [m o q Hm Hq|m k mk r q Hk Hm Hr IH Hq|m mn q Hm H IH]; intros G.
    - exists (g o). split; [eapply ex_done; [exact Hm|reflexivity]|]. rewrite Hq. apply G. apply arises_done; auto.
    - destruct (finite_choice (below k) (fun d p => expects s g (mk d) p /\ p <= a * r d + c)%Q) as (r' & R').
      { intros d Hd. apply below_in in Hd. apply IH; auto. intros o Ho. apply G. eapply arises_draw; eauto. }
      exists (mean (map r' (below k))). split.
      + eapply ex_draw; [exact Hk|exact Hm| |reflexivity]. intros d Hd. apply R'. apply below_in. auto.
      + rewrite Hq. rewrite <- (mean_affine r a c (below k) (below_nonempty k Hk)). apply mean_le. intros d Hd. apply R'. auto.
    - destruct IH as (p' & E & L); [intros o Ho; apply G; eapply arises_seed; eauto|]. exists p'. split; auto. eapply ex_seed; eauto.
  Qed.
  Lemma am_affine : forall {A} s (f g : outcome A -> Q) m p (a c q : Q), (0 <= a)%Q -> at_most s f m p ->
    (forall o, arises m s o -> g o <= a * f o + c)%Q -> (a * p + c <= q)%Q -> at_most s g m q.
  Proof.
    intros A s f g m p a c q Ha (p0 & E & L) G Hq. destruct (expects_affine s f g m p0 a c Ha E G) as (p1 & E1 & L1). exists p1. split; auto.
    eapply Qle_trans; [exact L1|]. eapply Qle_trans; [|exact Hq]. apply Qplus_le_compat; [|apply Qle_refl].
    rewrite (Qmult_comm a p0), (Qmult_comm a p). apply Qmult_le_compat_r; auto.
  Qed.
  Lemma am_weaken : forall {A} s (f g : outcome A -> Q) m p q, at_most s f m p ->
    (forall o, arises m s o -> g o <= f o)%Q -> (p <= q)%Q -> at_most s g m q.
  Proof.
    intros A s f g m p q H G L. eapply am_affine with (a := 1%Q) (c := 0%Q); [discriminate|exact H| |lra]. intros o Ho. specialize (G o Ho). lra.
  Qed.
  Lemma expects_ext : forall {A} s (f g : outcome A -> Q) m p, expects s f m p -> (forall o, arises m s o -> f o == g o)%Q -> expects s g m p.
  Proof.
    intros A s f g m p H. induction H as [m o q Hm Hq|m k mk r q Hk Hm Hr IH Hq|m mn q Hm H IH]; intros G.
    - eapply ex_done; [exact Hm|]. rewrite Hq. apply G. apply arises_done; auto.
    - eapply ex_draw; eauto. intros d Hd. apply IH; auto. intros o Ho. apply G. eapply arises_draw; eauto.
    - eapply ex_seed; eauto. apply IH. intros o Ho. apply G. eapply arises_seed; eauto.
  Qed.

  Lemma am_bind : forall {A B} s (f : outcome B -> Q) (m : M A) (k : A -> M B) (r : A -> st -> Q) q,
    at_most s (fun o => match o with Ok a s' => r a s' | Err e => f (Err e) | NoFuel => f NoFuel end) m q ->
    (forall a s', arises m s (Ok a s') -> at_most s' f (k a) (r a s')) -> at_most s f (bind m k) q.
  Proof.
    intros A B s f m k r q (p & H & L) Hk.
    cut (at_most s f (bind m k) p); [intros (p1 & E1 & L1); exists p1; split; auto; eapply Qle_trans; eauto|]. clear q L.
    induction H as [m o q Hm Hq|m n mk p q Hn Hm Hr IH Hq|m mn q Hm H IH].
    - destruct o as [a s'|x|].
      + destruct (Hk a s') as (p & E & L); [apply arises_done; auto|]. exists p. split; [|rewrite Hq; auto].
        eapply expects_same; [exact E|]. intros t e. unfold bind. rewrite Hm. reflexivity.
      + exists (f (Err x)). split; [|rewrite Hq; apply Qle_refl]. eapply ex_done with (o := Err x); [|reflexivity]. intros t e. unfold bind. rewrite Hm. reflexivity.
      + exists (f NoFuel). split; [|rewrite Hq; apply Qle_refl]. eapply ex_done with (o := NoFuel); [|reflexivity]. intros t e. unfold bind. rewrite Hm. reflexivity.
    - destruct (finite_choice (below n) (fun d x => expects s f (bind (mk d) k) x /\ x <= p d)%Q) as (r' & R').
      { intros d Hd. apply below_in in Hd. apply IH; auto. intros a s' Ho. apply Hk. eapply arises_draw; eauto. }
      exists (mean (map r' (below n))). split.
      + apply (ex_draw s f (bind m k) n (fun d => bind (mk d) k) r'); [exact Hn| | |reflexivity].
        * intros t e. unfold bind. rewrite Hm. reflexivity.
        * intros d Hd. apply R'. apply below_in. auto.
      + rewrite Hq. apply mean_le. intros d Hd. apply R'. auto.
    - destruct IH as (p & E & L); [intros a s' Ho; apply Hk; eapply arises_seed; eauto|]. exists p. split; auto.
      apply (ex_seed s f (bind m k) (bind mn k)); auto. intros t e. unfold bind. rewrite Hm. reflexivity.
  Qed.

  (** *** The mean is well defined *)
  Definition unseeing {A} (f : outcome A -> Q) : Prop := forall t e o, (f (with_source t e o) == f o)%Q.
  Lemma expects_constant : forall {A} s (f : outcome A -> Q) m q o, unseeing f -> expects s f m q ->
    (forall t e, exists t' e', m (set_source t e s) = with_source t' e' o) -> (q == f o)%Q.
  Proof.
    intros A s f m q o B H. induction H as [m o' q Hm Hq|m n mk p q Hn Hm Hr IH Hq|m mn q Hm H IH]; intros E.
    - rewrite Hq. destruct (E (tape s) (ent s)) as (t' & e' & Hu). rewrite Hm in Hu. rewrite <- (B (tape s) (ent s) o'), Hu. apply B.
    - rewrite Hq. apply mean_same; [apply below_nonempty; auto|]. intros d Hd. apply below_in in Hd. apply IH; auto.
      intros t e. destruct (E (papp [d] t) e) as (t' & e' & Hu). exists t', e'. rewrite Hm in Hu. cbn [papp] in Hu. rewrite Z.mod_small in Hu by auto. exact Hu.
    - apply IH. intros t e. destruct (E t (fun i => match i with O => t | S j => e j end)) as (t' & e' & Hu). exists t', e'. rewrite Hm in Hu. exact Hu.
  Qed.
  Lemma seeds_unique : forall {A} s (f : outcome A -> Q) (m' : M A) q, unseeing f -> (forall m2 q', expects s f m2 q' -> (forall t e, m2 (set_source t e s) = m' (set_source t e s)) -> (q == q')%Q) ->
    forall m q', expects s f m q' -> (forall t e, m (set_source t e s) = m' (set_source (e O) (fun i => e (S i)) s)) -> (q == q')%Q.
  Proof.
    intros A s f m' q B U m q' H. induction H as [m o q' Hm Hq|m n mk p q' Hn Hm Hr IH Hq|m mn q' Hm H IH]; intros E.
    - rewrite Hq. destruct o as [a s1|x|].
      + exfalso. pose proof (Hm (fun _ => 0) (ent s)) as E0. pose proof (Hm (fun _ => 1) (ent s)) as E1. rewrite E in E0, E1. rewrite E0 in E1.
        apply (f_equal (fun o => match o with Ok _ x => tape x O | _ => 0 end)) in E1. discriminate E1.
      + apply (U m'); auto. apply ex_done with (o := Err x); [|reflexivity]. intros t e. specialize (E t (fun i => match i with O => t | S j => e j end)). rewrite Hm in E. symmetry. exact E.
      + apply (U m'); auto. apply ex_done with (o := NoFuel); [|reflexivity]. intros t e. specialize (E t (fun i => match i with O => t | S j => e j end)). rewrite Hm in E. symmetry. exact E.
    - rewrite Hq. symmetry. apply mean_same; [apply below_nonempty; auto|]. intros d Hd. apply below_in in Hd. symmetry. apply IH; auto.
      intros t e. specialize (E (papp [d] t) e). rewrite Hm in E. cbn [papp] in E. rewrite Z.mod_small in E by auto. exact E.
    - apply (U mn); auto. intros t e. specialize (E t (fun i => match i with O => t | S j => e j end)). rewrite Hm in E. exact E.
  Qed.
  Lemma expects_unique_at : forall {A} s (f : outcome A -> Q) m q, unseeing f -> expects s f m q ->
    forall m2 q', expects s f m2 q' -> (forall t e, m2 (set_source t e s) = m (set_source t e s)) -> (q == q')%Q.
  Proof.
    intros A s f m q B H. induction H as [m o q Hm Hq|m n mk p q Hn Hm Hr IH Hq|m mn q Hm H IH]; intros m2 q' H' Em.
    - rewrite Hq. symmetry. eapply expects_constant; [exact B|exact H'|]. intros t e. exists t, e. rewrite Em. apply Hm.
    - inversion H' as [m1 o' q1 Hm' Hq'|m1 n' mk' p' q1 Hn' Hm' Hr' Hq'|m1 mn q1 Hm' H1]; subst.
      + rewrite Hq'. eapply expects_constant; [exact B| |intros t e; exists t, e; rewrite <- Em; apply Hm']. eapply ex_draw; eauto.
      + rewrite Hq, Hq'. rewrite <- (mean_period p n n' Hn Hn'), <- (mean_period p' n' n Hn' Hn), (Z.mul_comm n' n). apply mean_ext.
        intros d _. assert (R := Z.mod_pos_bound d n Hn). assert (R' := Z.mod_pos_bound d n' Hn'). apply (IH _ R (mk' (d mod n'))); auto.
        intros t e. pose proof (Em (papp [d] t) e) as E. rewrite Hm', Hm in E. cbn [papp] in E. exact E.
      + rewrite Hq. apply mean_same; [apply below_nonempty; auto|]. intros d Hd. apply below_in in Hd.
        apply (IH d Hd m2); auto. intros t e. pose proof (Em (papp [d] t) e) as E. rewrite Hm', Hm in E. cbn [papp] in E. rewrite Z.mod_small in E by auto. rewrite Hm'. exact E.
    - eapply (seeds_unique s f mn q B IH); [exact H'|]. intros t e. rewrite Em. apply Hm.
  Qed.
  Lemma expects_unique : forall {A} s (f : outcome A -> Q) m q q', unseeing f -> expects s f m q -> expects s f m q' -> (q == q')%Q.
  Proof. intros A s f m q q' B H H'. eapply expects_unique_at; eauto. Qed.

  (** *** Computations without a new seeding *)
  (** A mean over the draws of one generator state is a mean over the whole source when
      the computation leaves the entropy source alone. *)
  Lemma averages_expects : forall {A} s (f : outcome A -> Q) m q, averages s f m q ->
    forall m2, (forall t e, m2 (set_source t e s) = with_ent e (m (set_tape t s))) -> expects s f m2 q.
  Proof.
    intros A s f m q H. induction H as [m o q Hm Hq|m k mk r q Hk Hm Hr IH Hq]; intros m2 E.
    - apply ex_done with (o := o); auto. intros t e. rewrite E, Hm. destruct o; reflexivity.
    - apply (ex_draw s f m2 k (fun d s1 => with_ent (ent s1) (mk d (set_ent (ent s) s1))) r q Hk); auto.
      intros t e. rewrite E, Hm. reflexivity.
  Qed.

  (** *** Computations whose randomness is draws and seedings *)
  Inductive plain {A} (s : st) : M A -> Prop :=
  | pl_done : forall m o, (forall t e, m (set_source t e s) = with_source t e o) -> plain s m
  | pl_draw : forall m k (m' : Z -> M A), 0 < k ->
      (forall t e, m (set_source t e s) = m' (t O mod k) (set_source (fun i => t (S i)) e s)) ->
      (forall d, 0 <= d < k -> plain s (m' d)) -> plain s m
  | pl_seed : forall m (m' : M A), (forall t e, m (set_source t e s) = m' (set_source (e O) (fun i => e (S i)) s)) -> plain s m' -> plain s m.
  Lemma plain_same : forall {A} s s' (m m' : M A), plain s m -> (forall t e, m' (set_source t e s') = m (set_source t e s)) -> plain s' m'.
  Proof.
    intros A s s' m m' H. revert m'. induction H as [m o Hm|m k mk Hk Hm Hr IH|m mn Hm H IH]; intros m' E.
    - eapply pl_done. intros t e. rewrite E. apply Hm.
    - apply (pl_draw s' m' k (fun d s1 => mk d (set_source (tape s1) (ent s1) s)) Hk); [intros t e; rewrite E, Hm; reflexivity|].
      intros d Hd. apply (IH d Hd). reflexivity.
    - apply (pl_seed s' m' (fun s1 => mn (set_source (tape s1) (ent s1) s))); [|apply IH; reflexivity].
      intros t e. rewrite E, Hm. reflexivity.
  Qed.
  Lemma plain_bind : forall {A B} s (m : M A) (k : A -> M B), plain s m -> (forall a s', arises m s (Ok a s') -> plain s' (k a)) -> plain s (bind m k).
  Proof.
    intros A B s m k H. induction H as [m o Hm|m n mk Hn Hm Hr IH|m mn Hm H IH]; intros Hk.
    - destruct o as [a s'|x|].
      + eapply plain_same; [apply Hk, arises_done; exact Hm|]. intros t e. unfold bind. rewrite Hm. reflexivity.
      + apply pl_done with (o := Err x). intros t e. unfold bind. rewrite Hm. reflexivity.
      + apply pl_done with (o := NoFuel). intros t e. unfold bind. rewrite Hm. reflexivity.
    - apply (pl_draw s (bind m k) n (fun d => bind (mk d) k) Hn); [intros t e; unfold bind; rewrite Hm; reflexivity|].
      intros d Hd. apply IH; auto. intros a s' Ho. apply Hk. eapply arises_draw; eauto.
    - apply (pl_seed s (bind m k) (bind mn k)); [intros t e; unfold bind; rewrite Hm; reflexivity|].
      apply IH. intros a s' Ho. apply Hk. eapply arises_seed; eauto.
  Qed.
  Lemma plain_bound : forall {A} s (f : outcome A -> Q) m c, plain s m -> (forall o, arises m s o -> f o <= c)%Q -> at_most s f m c.
  Proof.
    intros A s f m c H. induction H as [m o Hm|m n mk Hn Hm Hr IH|m mn Hm H IH]; intros F.
    - exists (f o). split; [eapply ex_done; [exact Hm|reflexivity]|]. apply F, arises_done. auto.
    - destruct (finite_choice (below n) (fun d x => expects s f (mk d) x /\ x <= c)%Q) as (r' & R').
      { intros d Hd. apply below_in in Hd. apply IH; auto. intros o Ho. apply F. eapply arises_draw; eauto. }
      exists (mean (map r' (below n))). split.
      + eapply ex_draw; [exact Hn|exact Hm| |reflexivity]. intros d Hd. apply R'. apply below_in. auto.
      + rewrite <- (mean_const c (below n) (below_nonempty n Hn)). apply mean_le. intros d Hd. apply R'. auto.
    - destruct IH as (p & E & L); [intros o Ho; apply F; eapply arises_seed; eauto|]. exists p. split; auto. eapply ex_seed; eauto.
  Qed.

  (** Every computation of the model is such, as long as generator.rnd_seed is None. *)
  Definition treelike {A} (m : M A) : Prop :=
    forall s, rnd_seed s = None -> plain s m /\ forall a s', m s = Ok a s' -> rnd_seed s' = None.
  Lemma tr_ret : forall {A} (a : A), treelike (ret a).
  Proof. intros A a s Hs. split; [apply pl_done with (o := Ok a s); reflexivity|]. intros b s' [= <- <-]. auto. Qed.
  Lemma tr_raise : forall {A} e, treelike (@raise NO A e).
  Proof. intros A e s Hs. split; [apply pl_done with (o := Err e); reflexivity|discriminate]. Qed.
  Lemma tr_nofuel : forall {A}, treelike (@nofuel NO A).
  Proof. intros A s Hs. split; [apply pl_done with (o := NoFuel); reflexivity|discriminate]. Qed.
  Lemma tr_bind : forall {A B} (m : M A) (k : A -> M B), treelike m -> (forall a, treelike (k a)) -> treelike (bind m k).
  Proof.
    intros A B m k Hm Hk s Hs. split.
    - apply plain_bind; [apply Hm; auto|]. intros a s' Ho. apply Hk. destruct (Ho (tape s') (ent s')) as (t & e & E). cbn [with_source] in E.
      assert (X : rnd_seed (set_source (tape s') (ent s') s') = None); [|exact X]. eapply (proj2 (Hm (set_source t e s) Hs)). exact E.
    - intros b s' H. unfold bind in H. destruct (m s) as [a s1|x|] eqn:E; try discriminate. eapply (proj2 (Hk a s1 (proj2 (Hm s Hs) a s1 E))). exact H.
  Qed.
  Lemma tr_lift : forall {A} (r : exn + A), treelike (lift r).
  Proof. intros A [x|a]; [apply tr_raise|apply tr_ret]. Qed.
  Lemma tr_lift_opt : forall {A} e (r : option A), treelike (lift_opt e r).
  Proof. intros A e [a|]; [apply tr_ret|apply tr_raise]. Qed.
  Lemma tr_get : forall r, treelike (get r).
  Proof. intros r s Hs. split; [apply pl_done with (o := Ok (heap s r) s); reflexivity|]. intros b s' [= <- <-]. auto. Qed.
  Lemma tr_modify : forall r f, treelike (modify r f).
  Proof. intros r f s Hs. split; [apply pl_done with (o := modify r f s); reflexivity|]. intros b s' [= <- <-]. auto. Qed.
  Lemma tr_alloc : forall i, treelike (alloc i).
  Proof. intros i s Hs. split; [apply pl_done with (o := alloc i s); reflexivity|]. intros b s' [= <- <-]. auto. Qed.
  Lemma tr_logged : forall r g, treelike (call_logged r g).
  Proof.
    intros r g s Hs. split; [apply pl_done with (o := call_logged r g s); intros t e; unfold call_logged; cbn [log set_source set_ent set_tape]; destruct (r _); reflexivity|].
    intros b s' H. unfold call_logged in H. destruct (r _); inversion H; subst; auto.
  Qed.
  Lemma tr_do_seed : treelike do_seed.
  Proof.
    intros s Hs. split.
    - apply (pl_seed s do_seed (ret tt)); [|apply pl_done with (o := Ok tt s); reflexivity]. intros t e. unfold do_seed. cbn [rnd_seed set_source set_ent set_tape]. rewrite Hs. reflexivity.
    - intros b s' H. unfold do_seed in H. rewrite Hs in H. inversion H; subst. auto.
  Qed.
  Lemma tr_draw : forall k, 0 < k -> treelike (draw k).
  Proof.
    intros k Hk s Hs. split; [|intros b s' [= <- <-]; auto].
    apply (pl_draw s (draw k) k ret Hk); [reflexivity|]. intros d Hd. apply pl_done with (o := Ok d s). reflexivity.
  Qed.
  Lemma tr_mmap : forall {A B} (f : A -> M B) l, (forall a, treelike (f a)) -> treelike (mmap f l).
  Proof. intros A B f l H. induction l; cbn [mmap]; [apply tr_ret|]. apply tr_bind; auto. intros. apply tr_bind; auto. intros. apply tr_ret. Qed.
  Lemma tr_miter : forall {A} (f : A -> M unit) l, (forall a, treelike (f a)) -> treelike (miter f l).
  Proof. intros A f l H. induction l; cbn [miter]; [apply tr_ret|]. apply tr_bind; auto. Qed.
  Lemma tr_mfold : forall {A B} (f : A -> B -> M A) l a, (forall a b, treelike (f a b)) -> treelike (mfold f l a).
  Proof. intros A B f l. induction l; intros b H; cbn [mfold]; [apply tr_ret|]. apply tr_bind; auto. Qed.
  Lemma tr_mrepeat : forall {A} n (m : M A), treelike m -> treelike (mrepeat n m).
  Proof. intros A n m H. induction n; cbn [mrepeat]; [apply tr_ret|]. apply tr_bind; auto. intros. apply tr_bind; auto. intros. apply tr_ret. Qed.
  Hint Resolve tr_ret tr_raise tr_nofuel tr_lift tr_lift_opt tr_get tr_modify tr_alloc tr_do_seed tr_logged : tr.
  Ltac tr_step :=
    match goal with
    | |- forall _, _ => intros
    | |- treelike (bind _ _) => apply tr_bind
    | |- treelike (mmap _ _) => apply tr_mmap
    | |- treelike (miter _ _) => apply tr_miter
    | |- treelike (mfold _ _ _) => apply tr_mfold
    | |- treelike (mrepeat _ _) => apply tr_mrepeat
    | |- treelike (match ?x with _ => _ end) => destruct x
    | |- treelike (let _ := _ in _) => cbv zeta
    | |- treelike _ => solve [auto with tr]
    end.
  Ltac tr := repeat tr_step.

  Lemma tr_randint : forall a b, treelike (randint a b).
  Proof. intros. unfold randint. destruct (Z.ltb_spec b a); [tr|]. apply tr_bind; [apply tr_draw; lia|]. tr. Qed.
  Lemma tr_choice : forall {A} (l : list A), treelike (choice l).
  Proof. intros A [|a l]; unfold choice; [tr|]. apply tr_bind; [apply tr_draw; cbn [length]; lia|]. tr. Qed.
  Lemma tr_sample_loop : forall {A} k (l : list A), treelike (sample_loop k l).
  Proof. intros A k. induction k; intros [|a l]; cbn [sample_loop]; tr. apply tr_draw. cbn [length]. lia. Qed.
  Hint Resolve tr_randint tr_choice tr_sample_loop : tr.
  Lemma tr_sample : forall {A} (l : list A) k, treelike (sample l k).
  Proof. intros. unfold sample. tr. Qed.
  Lemma tr_random : treelike random_.
  Proof. unfold random_. apply tr_bind; [apply tr_draw; reflexivity|]. tr. Qed.
  Lemma tr_randrange : forall a b c, treelike (randrange a b c).
  Proof. intros. unfold randrange. destruct (c =? 0); [tr|]. destruct (Z.leb_spec (range_len a b c) 0); [tr|]. apply tr_bind; [apply tr_draw; lia|]. tr. Qed.
  Hint Resolve tr_sample tr_random tr_randrange : tr.

  Lemma tr_reset : forall l i, treelike (reset_idx_loop i l).
  Proof. induction l; intros i; cbn [reset_idx_loop]; tr. Qed.
  Lemma tr_phenotype : forall g l, treelike (get_phenotype g l).
  Proof. intros. unfold get_phenotype, get_phenotype1. tr. Qed.
  Lemma tr_sort : forall k l, treelike (sort_by_dict k l).
  Proof. intros. unfold sort_by_dict, read_key. tr. Qed.
  Lemma tr_gen_binary : forall gray ps, treelike (gen_binary_loop gray ps).
  Proof. intros gray ps. induction ps as [|[a b] ps]; cbn [gen_binary_loop]; tr. Qed.
  Hint Resolve tr_reset tr_phenotype tr_sort tr_gen_binary : tr.
  Lemma tr_fill : forall p, treelike (fill p).
  Proof. intros. unfold fill, get_generated_individ, gen_cat1, reset_idx_individ. tr. Qed.
  Lemma tr_crossover : forall k n p1 p2, treelike (crossover k n p1 p2).
  Proof. intros. unfold crossover, one_point, two_point, uniform, uniform_gene, order, get_idx_segment. tr. Qed.
  Hint Resolve tr_crossover : tr.
  Lemma tr_cross_pairs : forall k n first m l, (length l <= m)%nat -> treelike (cross_pairs k n first l).
  Proof.
    intros k n first m. induction m; intros [|a [|b l]] H; cbn [cross_pairs length] in *; try lia; unfold get_child; tr.
    apply IHm. lia.
  Qed.
  Lemma tr_crossover_execute : forall k gd, treelike (crossover_execute k gd).
  Proof. intros. unfold crossover_execute, get_empty_copy. tr. eapply tr_cross_pairs; eauto. Qed.
  Lemma tr_cat_mutation : forall lvl g ps, treelike (cat_mutation lvl ps g).
  Proof. intros lvl g. induction g; intros [|p ps]; cbn [cat_mutation]; unfold cat_gene, determines_mutation; tr. Qed.
  Hint Resolve tr_cat_mutation : tr.
  Lemma tr_bin_mutation : forall lvl g, treelike (bin_mutation lvl g).
  Proof. intros. unfold bin_mutation, bin_gene, determines_mutation. tr. Qed.
  Hint Resolve tr_bin_mutation : tr.
  Lemma tr_mutate_child : forall f r, (forall g, treelike (f g)) -> treelike (mutate_child f r).
  Proof. intros f r H. unfold mutate_child. tr. Qed.
  Lemma tr_mutation_execute : forall m gd, treelike (mutation_execute m gd).
  Proof.
    intros. unfold mutation_execute, combi_child, mutate_child, combi_mutation, movement, swap_mut, inversion, shift, two_idx, determines_mutation. tr.
  Qed.
  Lemma tr_evaluate : forall f gen best r, treelike (evaluate f gen best r).
  Proof. intros. unfold evaluate, calc_obj_func, call1, call2. tr. Qed.
  Hint Resolve tr_evaluate : tr.
  Lemma tr_base_fitness : forall f gd, treelike (base_fitness_execute f gd).
  Proof. intros. unfold base_fitness_execute, swap, swap1. tr. Qed.
  Hint Resolve tr_base_fitness : tr.
  Lemma tr_compare : forall o l, treelike (compare_all o l).
  Proof. intros o l. induction l; cbn [compare_all]; unfold compare_pair, inferior, phen_of, call_list, incr_rank, call1; tr. Qed.
  Hint Resolve tr_compare : tr.
  Lemma tr_fitness_execute : forall f gd, treelike (fitness_execute f gd).
  Proof. intros. unfold fitness_execute, assign_ranks. tr. Qed.
  Lemma tr_pop_at : forall l i, treelike (pop_at l i).
  Proof. intros. unfold pop_at. tr. Qed.
  Lemma tr_rank1 : forall l, treelike (rank1_prefix l).
  Proof. induction l; cbn [rank1_prefix]; unfold rank_is_1; tr. Qed.
  Lemma tr_ltb : forall a b, treelike (m_ltb a b).
  Proof. intros. unfold m_ltb. tr. Qed.
  Hint Resolve tr_pop_at tr_rank1 tr_ltb : tr.
  Lemma tr_update : forall gd, treelike (update gd).
  Proof. intros. unfold update, update_single, update_multi. tr. Qed.
  Lemma tr_add_best_loop : forall fuel l n nc lc zc els, treelike (add_best_loop fuel l n nc lc zc els).
  Proof. induction fuel as [|f IH]; intros; cbn [add_best_loop]; unfold genotypes; tr. Qed.
  Lemma tr_add_random_loop : forall fuel l n nc lc els, treelike (add_random_loop fuel l n nc lc els).
  Proof. induction fuel as [|f IH]; intros; cbn [add_random_loop]; unfold is_duplicate, genotypes; tr. Qed.
  Hint Resolve tr_add_best_loop tr_add_random_loop : tr.
  Lemma tr_newgen : forall ng gd, treelike (newgen_execute ng gd).
  Proof. intros. unfold newgen_execute, add_parents, add_best, add_random. tr. Qed.
  Lemma tr_best_loop : forall idx tr l b, treelike (get_best_loop idx l tr b).
  Proof. intros idx tour. induction tour; intros; cbn [get_best_loop]; unfold better, sv_at; tr. Qed.
  Hint Resolve tr_best_loop : tr.
  Lemma tr_run_tournament : forall idx t l, treelike (run_tournament idx t l).
  Proof. intros. unfold run_tournament, get_best. tr. Qed.
  Hint Resolve tr_run_tournament : tr.
  Lemma tr_second_parent : forall fuel idx t l b, treelike (second_parent fuel idx t l b).
  Proof. induction fuel; intros; cbn [second_parent]; tr. Qed.
  Hint Resolve tr_second_parent : tr.
  Lemma tr_tournament_pair : forall fuel idx t l, treelike (tournament_pair fuel idx t l).
  Proof. intros. unfold tournament_pair. tr. Qed.
  Hint Resolve tr_tournament_pair : tr.
  Lemma tr_tournament : forall fuel m idx t gd, treelike (tournament fuel m idx t gd).
  Proof. intros. unfold tournament, get_total_num_parents. tr. Qed.
  Hint Resolve tr_tournament : tr.
  Lemma tr_index : forall l, treelike (get_index l).
  Proof. intros. unfold get_index. tr. Qed.
  Hint Resolve tr_index : tr.
  Lemma tr_second_index : forall fuel l b, treelike (second_index fuel l b).
  Proof. induction fuel; intros; cbn [second_index]; tr. Qed.
  Hint Resolve tr_second_index : tr.
  Lemma tr_balanced_pair : forall fuel sc l, treelike (balanced_pair fuel sc l).
  Proof. intros. unfold balanced_pair. tr. Qed.
  Hint Resolve tr_balanced_pair : tr.
  Lemma tr_balanced_pass : forall fuel rk m idx gd, treelike (balanced_pass fuel rk m idx gd).
  Proof.
    intros. unfold balanced_pass, base_execute, get_empty_copy, reset_idx_individ, assign_selection_ranks, rank_step, put_rank, rank_score, put_group, put_rank, add_probabilities, weight, sv_at, balanced_selection, get_total_num_parents. tr.
  Qed.
  Hint Resolve tr_balanced_pass : tr.
  Lemma tr_selection_execute : forall fuel k gd, treelike (selection_execute fuel k gd).
  Proof. intros. unfold selection_execute, check_tournament_size, base_execute, get_empty_copy, reset_idx_individ. tr. Qed.
  Hint Resolve tr_selection_execute tr_crossover_execute tr_mutation_execute tr_newgen tr_fitness_execute tr_update : tr.
  Lemma tr_ga_step : forall fuel c gd, treelike (ga_step fuel c gd).
  Proof. intros. unfold ga_step. tr. Qed.
  Hint Resolve tr_ga_step : tr.
  Lemma tr_ga_loop : forall fuel k c gd, treelike (ga_loop fuel k c gd).
  Proof. intros fuel k. induction k; intros; cbn [ga_loop]; unfold should_stop; tr. Qed.
End Rules.
