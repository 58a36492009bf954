(** Reasoning about executions: inversion of successful runs, absence of exceptions,
    and frames. *)
From Coq Require Import ZArith List Bool Lia.
From Verif Require Import Num State ListLemmas Rnd.
Import ListNotations.
Open Scope Z_scope.

Section Exec.
  Context {NO : NumOps}.

  (** *** Inversion of successful runs *)
  Lemma bind_ok : forall {A B} (m : M A) (k : A -> M B) s b s', bind m k s = Ok b s' ->
    exists a s1, m s = Ok a s1 /\ k a s1 = Ok b s'.
  Proof. intros A B m k s b s'. unfold bind. destruct (m s); intros; try discriminate. eauto. Qed.
  Lemma ret_ok : forall {A} (a : A) s b s', ret a s = Ok b s' -> b = a /\ s' = s.
  Proof. intros A a s b s'. unfold ret. intros H. inversion H. auto. Qed.
  Lemma lift_ok : forall {A} (r : exn + A) s b s', lift r s = Ok b s' -> r = inr b /\ s' = s.
  Proof. intros A r s b s'. unfold lift. destruct r; intros H; inversion H. auto. Qed.
  Lemma lift_opt_ok : forall {A} e (r : option A) s b s', lift_opt e r s = Ok b s' -> r = Some b /\ s' = s.
  Proof. intros A e r s b s'. unfold lift_opt. destruct r; intros H; inversion H. auto. Qed.
  Lemma get_ok : forall r s b s', get r s = Ok b s' -> b = heap s r /\ s' = s.
  Proof. intros r s b s'. unfold get. intros H. inversion H. auto. Qed.
  Lemma modify_ok : forall r f s b s', modify r f s = Ok b s' ->
    s' = set_heap (upd (heap s) r (f (heap s r))) s.
  Proof. intros r f s b s'. unfold modify. intros H. inversion H. auto. Qed.
  Lemma alloc_ok : forall i s r s', alloc i s = Ok r s' ->
    r = next s /\ s' = mkSt (upd (heap s) (next s) i) (S (next s)) (tape s) (ent s) (rnd_seed s) (prng s) (log s).
  Proof. intros i s r s'. unfold alloc. intros H. inversion H. auto. Qed.
  Lemma raise_ok : forall {A} e s (a : A) s', raise e s = Ok a s' -> False.
  Proof. intros A e s a s' H. discriminate. Qed.
  Lemma nofuel_ok : forall {A} s (a : A) s', nofuel s = Ok a s' -> False.
  Proof. intros A s a s' H. discriminate. Qed.

  Lemma miter_inv : forall {A} (f : A -> M unit) (P : list A -> st -> Prop) l s u s',
    P [] s ->
    (forall d x rest s1 s2, l = d ++ x :: rest -> P d s1 -> f x s1 = Ok tt s2 -> P (d ++ [x]) s2) ->
    miter f l s = Ok u s' -> P l s'.
  Proof.
    intros A f P l s u s' H0 Hs. 
    assert (K : forall rest d s, l = d ++ rest -> P d s -> miter f rest s = Ok u s' -> P l s').
    { induction rest as [|x rest IH]; intros d s1 E Hd H.
      - cbn [miter] in H. apply ret_ok in H. destruct H as [_ ->]. rewrite app_nil_r in E. subst. auto.
      - cbn [miter] in H. apply bind_ok in H. destruct H as ([] & s2 & H1 & H2).
        eapply IH; [| |exact H2]; [|eapply Hs; eauto]. rewrite <- app_assoc. auto. }
    intros H. eapply K; eauto. reflexivity.
  Qed.
  Lemma mmap_inv : forall {A B} (f : A -> M B) (P : list A -> list B -> st -> Prop) l s bs s',
    P [] [] s ->
    (forall d x rest bs s1 b s2, l = d ++ x :: rest -> P d bs s1 -> f x s1 = Ok b s2 -> P (d ++ [x]) (bs ++ [b]) s2) ->
    mmap f l s = Ok bs s' -> P l bs s'.
  Proof.
    intros A B f P l s bs s' H0 Hs.
    assert (K : forall rest d bd s br, l = d ++ rest -> P d bd s -> mmap f rest s = Ok br s' -> P l (bd ++ br) s').
    { induction rest as [|x rest IH]; intros d bd s1 br E Hd H.
      - cbn [mmap] in H. apply ret_ok in H. destruct H as [-> ->]. rewrite app_nil_r in E. subst. rewrite app_nil_r. auto.
      - cbn [mmap] in H. apply bind_ok in H. destruct H as (b & s2 & H1 & H2).
        apply bind_ok in H2. destruct H2 as (bs' & s3 & H2 & H3). apply ret_ok in H3. destruct H3 as [-> ->].
        replace (bd ++ b :: bs') with ((bd ++ [b]) ++ bs') by (rewrite <- app_assoc; auto).
        eapply IH; [| |exact H2]; [|eapply Hs; eauto]. rewrite <- app_assoc. auto. }
    intros H. apply (K l [] [] s bs); auto.
  Qed.
  Lemma mfold_inv : forall {A B} (f : A -> B -> M A) (P : list B -> A -> st -> Prop) l a s a' s',
    P [] a s ->
    (forall d x rest a1 s1 a2 s2, l = d ++ x :: rest -> P d a1 s1 -> f a1 x s1 = Ok a2 s2 -> P (d ++ [x]) a2 s2) ->
    mfold f l a s = Ok a' s' -> P l a' s'.
  Proof.
    intros A B f P l a s a' s' H0 Hs.
    assert (K : forall rest d a s, l = d ++ rest -> P d a s -> mfold f rest a s = Ok a' s' -> P l a' s').
    { induction rest as [|x rest IH]; intros d a1 s1 E Hd H.
      - cbn [mfold] in H. apply ret_ok in H. destruct H as [-> ->]. rewrite app_nil_r in E. subst. auto.
      - cbn [mfold] in H. apply bind_ok in H. destruct H as (a2 & s2 & H1 & H2).
        eapply IH; [| |exact H2]; [|eapply Hs; eauto]. rewrite <- app_assoc. auto. }
    intros H. eapply K; eauto. reflexivity.
  Qed.
  Lemma mrepeat_inv : forall {A} (m : M A) (P : list A -> st -> Prop) n s l s',
    P [] s ->
    (forall d s1 a s2, P d s1 -> (length d < n)%nat -> m s1 = Ok a s2 -> P (d ++ [a]) s2) ->
    mrepeat n m s = Ok l s' -> P l s' /\ length l = n.
  Proof.
    intros A m P n s l s' H0 Hs.
    assert (K : forall k d s lr, (length d + k = n)%nat -> P d s -> mrepeat k m s = Ok lr s' -> P (d ++ lr) s' /\ length lr = k).
    { induction k as [|k IH]; intros d s1 lr E Hd H.
      - cbn [mrepeat] in H. apply ret_ok in H. destruct H as [-> ->]. rewrite app_nil_r. auto.
      - cbn [mrepeat] in H. apply bind_ok in H. destruct H as (a & s2 & H1 & H2).
        apply bind_ok in H2. destruct H2 as (l' & s3 & H2 & H3). apply ret_ok in H3. destruct H3 as [-> ->].
        destruct (IH (d ++ [a]) s2 l') as [K1 K2]; auto.
        + rewrite app_length. simpl. lia.
        + eapply Hs; eauto. lia.
        + rewrite <- app_assoc in K1. simpl. split; [exact K1|lia]. }
    intros H. apply (K n [] s l); auto.
  Qed.

  (** *** Absence of exceptions (running out of fuel is not an exception) *)
  Definition safe {A} (m : M A) (s : st) : Prop := forall e, m s <> Err e.

  Lemma safe_bind : forall {A B} (m : M A) (k : A -> M B) s,
    safe m s -> (forall a s1, m s = Ok a s1 -> safe (k a) s1) -> safe (bind m k) s.
  Proof.
    intros A B m k s Hm Hk e. unfold bind. destruct (m s) eqn:E; try discriminate.
    - apply Hk; auto.
    - exfalso. eapply Hm; eauto.
  Qed.
  Lemma safe_ret : forall {A} (a : A) s, safe (ret a) s.
  Proof. intros A a s e. discriminate. Qed.
  Lemma safe_get : forall r s, safe (get r) s.
  Proof. intros r s e. discriminate. Qed.
  Lemma safe_modify : forall r f s, safe (modify r f) s.
  Proof. intros r f s e. discriminate. Qed.
  Lemma safe_alloc : forall i s, safe (alloc i) s.
  Proof. intros i s e. discriminate. Qed.
  Lemma safe_nofuel : forall {A} s, safe (@nofuel NO A) s.
  Proof. intros A s e. discriminate. Qed.
  Lemma safe_lift : forall {A} (r : exn + A) a s, r = inr a -> safe (lift r) s.
  Proof. intros A r a s -> e. discriminate. Qed.
  Lemma safe_lift_opt : forall {A} x (r : option A) a s, r = Some a -> safe (lift_opt x r) s.
  Proof. intros A x r a s -> e. discriminate. Qed.
  Lemma safe_do_seed : forall s, safe do_seed s.
  Proof. intros s e. unfold do_seed. destruct (rnd_seed s); discriminate. Qed.
  Lemma safe_possible : forall {A} (m : M A) R s, possible m R -> safe m s.
  Proof. intros A m R s [H _] e. destruct (H s) as (a & t & E & _). congruence. Qed.

  Lemma safe_miter : forall {A} (f : A -> M unit) (P : list A -> st -> Prop) l s,
    P [] s ->
    (forall d x rest s1, l = d ++ x :: rest -> P d s1 -> safe (f x) s1) ->
    (forall d x rest s1 s2, l = d ++ x :: rest -> P d s1 -> f x s1 = Ok tt s2 -> P (d ++ [x]) s2) ->
    safe (miter f l) s.
  Proof.
    intros A f P l s H0 Hsafe Hs.
    assert (K : forall rest d s, l = d ++ rest -> P d s -> safe (miter f rest) s).
    { induction rest as [|x rest IH]; intros d s1 E Hd; cbn [miter]; [apply safe_ret|].
      apply safe_bind; [eapply Hsafe; eauto|]. intros [] s2 H2. eapply IH with (d := d ++ [x]); [|eapply Hs; eauto].
      rewrite <- app_assoc. auto. }
    eapply K; eauto. reflexivity.
  Qed.
  Lemma safe_mmap : forall {A B} (f : A -> M B) (P : list A -> st -> Prop) l s,
    P [] s ->
    (forall d x rest s1, l = d ++ x :: rest -> P d s1 -> safe (f x) s1) ->
    (forall d x rest s1 b s2, l = d ++ x :: rest -> P d s1 -> f x s1 = Ok b s2 -> P (d ++ [x]) s2) ->
    safe (mmap f l) s.
  Proof.
    intros A B f P l s H0 Hsafe Hs.
    assert (K : forall rest d s, l = d ++ rest -> P d s -> safe (mmap f rest) s).
    { induction rest as [|x rest IH]; intros d s1 E Hd; cbn [mmap]; [apply safe_ret|].
      apply safe_bind; [eapply Hsafe; eauto|]. intros b s2 H2. apply safe_bind; [|intros; apply safe_ret].
      eapply IH with (d := d ++ [x]); [|eapply Hs; eauto]. rewrite <- app_assoc. auto. }
    eapply K; eauto. reflexivity.
  Qed.
  Lemma safe_mfold : forall {A B} (f : A -> B -> M A) (P : list B -> A -> st -> Prop) l a s,
    P [] a s ->
    (forall d x rest a1 s1, l = d ++ x :: rest -> P d a1 s1 -> safe (f a1 x) s1) ->
    (forall d x rest a1 s1 a2 s2, l = d ++ x :: rest -> P d a1 s1 -> f a1 x s1 = Ok a2 s2 -> P (d ++ [x]) a2 s2) ->
    safe (mfold f l a) s.
  Proof.
    intros A B f P l a s H0 Hsafe Hs.
    assert (K : forall rest d a s, l = d ++ rest -> P d a s -> safe (mfold f rest a) s).
    { induction rest as [|x rest IH]; intros d a1 s1 E Hd; cbn [mfold]; [apply safe_ret|].
      apply safe_bind; [eapply Hsafe; eauto|]. intros a2 s2 H2.
      eapply IH with (d := d ++ [x]); [|eapply Hs; eauto]. rewrite <- app_assoc. auto. }
    eapply K; eauto. reflexivity.
  Qed.
  Lemma safe_mrepeat : forall {A} (m : M A) (P : st -> Prop) n s,
    P s -> (forall s1, P s1 -> safe m s1) -> (forall s1 a s2, P s1 -> m s1 = Ok a s2 -> P s2) ->
    safe (mrepeat n m) s.
  Proof.
    intros A m P n. induction n as [|n IH]; intros s H0 Hsafe Hs; cbn [mrepeat]; [apply safe_ret|].
    apply safe_bind; auto. intros a s1 H1. apply safe_bind; [apply IH; eauto|]. intros; apply safe_ret.
  Qed.

  (** *** Computations that only draw random numbers *)
  Definition rnd_only {A} (m : M A) : Prop := forall s a s', m s = Ok a s' -> s' = set_tape (tape s') s.
  Lemma rnd_only_ret : forall {A} (a : A), rnd_only (ret a).
  Proof. intros A a s b s' H. apply ret_ok in H. destruct H as [_ ->]. destruct s; reflexivity. Qed.
  Lemma rnd_only_bind : forall {A B} (m : M A) (k : A -> M B), rnd_only m -> (forall a, rnd_only (k a)) -> rnd_only (bind m k).
  Proof.
    intros A B m k Hm Hk s b s' H. apply bind_ok in H. destruct H as (a & s1 & H1 & H2).
    apply Hm in H1. apply Hk in H2. rewrite H2, H1. reflexivity.
  Qed.
  Lemma rnd_only_raise : forall {A} e, rnd_only (@raise NO A e).
  Proof. intros A e s a s' H. discriminate. Qed.
  Lemma rnd_only_nofuel : forall {A}, rnd_only (@nofuel NO A).
  Proof. intros A s a s' H. discriminate. Qed.
  Lemma rnd_only_lift : forall {A} (r : exn + A), rnd_only (lift r).
  Proof. intros A r s b s' H. apply lift_ok in H. destruct H as [_ ->]. destruct s; reflexivity. Qed.
  Lemma rnd_only_lift_opt : forall {A} e (r : option A), rnd_only (lift_opt e r).
  Proof. intros A e r s b s' H. apply lift_opt_ok in H. destruct H as [_ ->]. destruct s; reflexivity. Qed.
  Lemma rnd_only_get : forall r, rnd_only (get r).
  Proof. intros r s b s' H. apply get_ok in H. destruct H as [_ ->]. destruct s; reflexivity. Qed.
  Lemma rnd_only_draw : forall k, rnd_only (draw k).
  Proof. intros k s b s' H. unfold draw in H. inversion H. reflexivity. Qed.
  Lemma rnd_only_randint : forall a b, rnd_only (randint a b).
  Proof.
    intros. unfold randint. destruct (b <? a); [apply rnd_only_raise|].
    apply rnd_only_bind; [apply rnd_only_draw|intros; apply rnd_only_ret].
  Qed.
  Lemma rnd_only_choice : forall {A} (l : list A), rnd_only (choice l).
  Proof.
    intros A [|d l]; [apply rnd_only_raise|]. unfold choice.
    apply rnd_only_bind; [apply rnd_only_draw|intros; apply rnd_only_ret].
  Qed.
  Lemma rnd_only_sample : forall {A} (l : list A) k, rnd_only (sample l k).
  Proof.
    intros. unfold sample. destruct (_ || _); [apply rnd_only_raise|]. generalize (Z.to_nat k) as n. clear k.
    intros n. revert l. induction n; intros l; cbn [sample_loop]; [apply rnd_only_ret|]. destruct l; [apply rnd_only_raise|].
    apply rnd_only_bind; [apply rnd_only_draw|]. intros. apply rnd_only_bind; [auto|]. intros; apply rnd_only_ret.
  Qed.
  Lemma rnd_only_random : rnd_only random_.
  Proof. apply rnd_only_bind; [apply rnd_only_draw|intros; apply rnd_only_ret]. Qed.
  Lemma rnd_only_mmap : forall {A B} (f : A -> M B) l, (forall a, rnd_only (f a)) -> rnd_only (mmap f l).
  Proof.
    intros A B f l H. induction l; cbn [mmap]; [apply rnd_only_ret|].
    apply rnd_only_bind; auto. intros. apply rnd_only_bind; auto. intros; apply rnd_only_ret.
  Qed.
  Lemma rnd_only_if : forall {A} (b : bool) (m m' : M A), rnd_only m -> rnd_only m' -> rnd_only (if b then m else m').
  Proof. intros. destruct b; auto. Qed.
  Lemma rnd_only_heap : forall {A} (m : M A) s a s', rnd_only m -> m s = Ok a s' ->
    heap s' = heap s /\ next s' = next s /\ log s' = log s.
  Proof. intros A m s a s' H E. apply H in E. rewrite E. auto. Qed.

  (** *** Frames *)
  (** Everything of an individual except its numbering and rank. *)
  Definition same_core (i j : individ) : Prop :=
    genotype i = genotype j /\ phenotype i = phenotype j /\ score i = score j /\
    obj_score i = obj_score j /\ feasible i = feasible j.
  Lemma same_core_refl : forall i, same_core i i.
  Proof. intros. repeat split; auto. Qed.
  Lemma same_core_trans : forall i j k, same_core i j -> same_core j k -> same_core i k.
  Proof. unfold same_core. intuition congruence. Qed.
  Lemma same_core_sym : forall i j, same_core i j -> same_core j i.
  Proof. unfold same_core. intuition congruence. Qed.

  (** From [s] to [s'] no existing individual changed (up to numbering and rank), no
      objective call happened; new individuals may have been created. *)
  Definition frame (s s' : st) : Prop :=
    (next s <= next s')%nat /\ log s' = log s /\ rnd_seed s' = rnd_seed s /\ prng s' = prng s /\
    forall r, (r < next s)%nat -> same_core (heap s r) (heap s' r).
  Lemma frame_refl : forall s, frame s s.
  Proof. intros. repeat split; auto. Qed.
  Lemma frame_trans : forall s1 s2 s3, frame s1 s2 -> frame s2 s3 -> frame s1 s3.
  Proof.
    intros s1 s2 s3 (A1 & A2 & A3 & A4 & A5) (B1 & B2 & B3 & B4 & B5).
    split; [lia|]. split; [congruence|]. split; [congruence|]. split; [congruence|].
    intros r Hr. eapply same_core_trans; [apply A5; auto|apply B5; lia].
  Qed.
  Lemma frame_set_tape : forall t s, frame s (set_tape t s).
  Proof. intros. repeat split; auto. Qed.
  Lemma frame_rnd : forall {A} (m : M A) s a s', rnd_only m -> m s = Ok a s' -> frame s s'.
  Proof. intros A m s a s' H E. apply H in E. rewrite E. apply frame_set_tape. Qed.
  Lemma frame_alloc : forall i s r s', alloc i s = Ok r s' -> frame s s' /\ r = next s /\ heap s' r = i /\ next s' = S (next s)
    /\ (forall r', (r' < next s)%nat -> heap s' r' = heap s r').
  Proof.
    intros i s r s' H. apply alloc_ok in H. destruct H as [-> ->]. cbn [next heap log rnd_seed prng].
    assert (U : forall r', (r' < next s)%nat -> upd (heap s) (next s) i r' = heap s r').
    { intros r' Hr. unfold upd. destruct (Nat.eqb r' (next s)) eqn:E; auto. apply Nat.eqb_eq in E. lia. }
    split.
    - split; [simpl; lia|]. repeat split; auto; cbn [heap]; rewrite U; auto.
    - split; auto. split; [unfold upd; rewrite Nat.eqb_refl; auto|]. split; auto.
  Qed.
  Lemma frame_modify : forall r f s u s', (forall i, same_core i (f i)) -> modify r f s = Ok u s' ->
    frame s s' /\ next s' = next s.
  Proof.
    intros r f s u s' Hf H. apply modify_ok in H. subst. split; [|reflexivity].
    split; [simpl; lia|]. repeat split; auto; cbn [heap set_heap]; unfold upd;
      destruct (Nat.eqb r0 r) eqn:E; auto; apply Nat.eqb_eq in E; subst; apply Hf.
  Qed.
  Lemma frame_do_seed : forall s u s', do_seed s = Ok u s' -> frame s s' /\ heap s' = heap s /\ next s' = next s.
  Proof.
    intros s u s'. unfold do_seed. destruct (rnd_seed s) eqn:E; intros H; inversion H; subst; split; auto;
    repeat split; auto.
  Qed.
End Exec.

(** Invert hypotheses about successful runs of the basic operations. *)
Ltac inv_run := repeat
  match goal with
  | H : bind _ _ _ = Ok _ _ |- _ =>
      let a := fresh "a" in let s := fresh "s" in let H1 := fresh "R" in let H2 := fresh "R" in
      apply bind_ok in H; destruct H as (a & s & H1 & H2); cbv beta in H2
  | H : ret _ _ = Ok _ _ |- _ => apply ret_ok in H; destruct H as [? ?]; subst
  | H : lift _ _ = Ok _ _ |- _ =>
      let E := fresh "E" in apply lift_ok in H; destruct H as [E ?]; subst
  | H : lift_opt _ _ _ = Ok _ _ |- _ =>
      let E := fresh "E" in apply lift_opt_ok in H; destruct H as [E ?]; subst
  | H : get _ _ = Ok _ _ |- _ => apply get_ok in H; destruct H as [? ?]; subst
  | H : raise _ _ = Ok _ _ |- _ => elim (raise_ok _ _ _ _ H)
  | H : nofuel _ = Ok _ _ |- _ => elim (nofuel_ok _ _ _ H)
  end.
Global Hint Resolve rnd_only_ret rnd_only_raise rnd_only_nofuel rnd_only_lift rnd_only_lift_opt rnd_only_get
  rnd_only_draw rnd_only_randint rnd_only_choice rnd_only_sample rnd_only_random : rnd.
(** Invert one bind: [bd H x s K] names the intermediate result, state and run. *)
Ltac bd H x s K := apply bind_ok in H; destruct H as (x & s & K & H); cbv beta in H.
