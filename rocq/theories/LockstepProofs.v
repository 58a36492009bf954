(** Two selections with the same draws side by side. *)
From Coq Require Import String.
From Coq Require Import ZArith List Bool Lia.
From Verif Require Import Spec Num State Binary Population GaData Selection ListLemmas Rnd Exec Laws CrossoverProofs PopulationProofs
  SelectionProofs TournamentProofs VegaProofs.
Import ListNotations.
Open Scope list_scope.
Open Scope Z_scope.

Section Lockstep.
  Context {NO : NumOps}.

  (** A computation whose result depends on the generator only. *)
  Definition tape_only {A} (m : M A) : Prop := forall s s2 a s', tape s2 = tape s -> m s = Ok a s' -> m s2 = Ok a (set_tape (tape s') s2).
  Lemma to_ret : forall {A} (a : A), tape_only (ret a).
  Proof. intros A a s s2 b s' E [= <- <-]. rewrite <- E. rewrite set_tape_same. reflexivity. Qed.
  Lemma to_raise : forall {A} e, tape_only (@raise NO A e).
  Proof. intros A e s s2 b s' E H. discriminate. Qed.
  Lemma to_bind : forall {A B} (m : M A) (k : A -> M B), tape_only m -> (forall a, tape_only (k a)) -> tape_only (bind m k).
  Proof.
    intros A B m k Hm Hk s s2 b s' E H. bd H a s1 R. unfold bind. rewrite (Hm _ _ _ _ E R).
    rewrite (Hk a s1 (set_tape (tape s1) s2) b s'); auto.
  Qed.
  Lemma to_draw : forall k, tape_only (draw k).
  Proof. intros k s s2 a s' E H. unfold draw in *. inversion H; subst. cbn. rewrite E. reflexivity. Qed.
  Lemma to_sample_loop : forall {A} k (l : list A), tape_only (sample_loop k l).
  Proof.
    intros A. induction k as [|k IH]; intros [|d l]; cbn [sample_loop]; try apply to_ret; try apply to_raise.
    apply to_bind; [apply to_draw|]. intros i. apply to_bind; [apply IH|]. intros. apply to_ret.
  Qed.
  Lemma to_sample : forall {A} (l : list A) k, tape_only (sample l k).
  Proof. intros. unfold sample. destruct (_ || _); [apply to_raise|apply to_sample_loop]. Qed.

  Lemma nth_error_some : forall {A} (l : list A) p, (p < length l)%nat -> exists x, nth_error l p = Some x.
  Proof. intros A l p H. destruct (nth_error l p) eqn:E; eauto. apply nth_error_None in E. lia. Qed.

  (** Two lists of scores with the same outcome of every comparison. *)
  Definition same_order (ks1 ks2 : list num) : Prop := length ks1 = length ks2 /\
    forall i j a1 b1 a2 b2, nth_error ks1 i = Some a1 -> nth_error ks1 j = Some b1 -> nth_error ks2 i = Some a2 -> nth_error ks2 j = Some b2 ->
      nltb a1 b1 = nltb a2 b2.
  Definition numbered (s : st) (l : list nat) : Prop := forall k r, nth_error l k = Some r -> idx_individ (heap s r) = Some (Z.of_nat k).

  Lemma keys_of_ext : forall s s' idx l ks, (forall r, In r l -> heap s' r = heap s r) -> keys_of s idx l ks -> keys_of s' idx l ks.
  Proof.
    intros s s' idx l ks E K. unfold keys_of in *. induction K as [|r k l ks Hk K IH]; constructor.
    - rewrite E; [auto|left; auto].
    - apply IH. intros. apply E. right. auto.
  Qed.

  Section Pair.
    Variables (l1 l2 : list nat) (ks1 ks2 : list num).
    Hypothesis SO : same_order ks1 ks2.
    Definition facing (s1 s2 : st) : Prop := tape s2 = tape s1 /\ keys_of s1 None l1 ks1 /\ keys_of s2 None l2 ks2 /\ numbered s1 l1 /\ numbered s2 l2 /\
      (forall r, In r l1 -> (r < next s1)%nat) /\ (forall r, In r l2 -> (r < next s2)%nat).
    Definition both (p : nat) (b1 b2 : nat) : Prop := nth_error l1 p = Some b1 /\ nth_error l2 p = Some b2.

    Lemma facing_len : forall s1 s2, facing s1 s2 -> length l1 = length ks1 /\ length l2 = length ks1.
    Proof. intros s1 s2 (_ & K1 & K2 & _). apply Forall2_length in K1, K2. destruct SO as [L _]. lia. Qed.
    Lemma facing_tape : forall s1 s2 tp, facing s1 s2 -> facing (set_tape tp s1) (set_tape tp s2).
    Proof. intros s1 s2 tp (_ & H). split; [reflexivity|exact H]. Qed.

    Lemma best_lock : forall tr s1 s2 p b1 b2 c1 s1', facing s1 s2 -> both p b1 b2 ->
      Forall (fun i => 0 <= i < Z.of_nat (length l1)) tr -> get_best_loop None l1 tr b1 s1 = Ok c1 s1' ->
      exists q c2, both q c1 c2 /\ s1' = s1 /\ get_best_loop None l2 tr b2 s2 = Ok c2 s2.
    Proof.
      induction tr as [|i tr IH]; intros s1 s2 p b1 b2 c1 s1' F [B1 B2] R H; cbn [get_best_loop] in *.
      - apply ret_ok in H. destruct H as [-> ->]. exists p, b2. split; [split; auto|]. split; auto.
      - inversion R as [|? ? Ri R']; subst. destruct (facing_len _ _ F) as [L1 L2].
        destruct (nth_error_some l1 (Z.to_nat i)) as (r1 & E1); [lia|]. destruct (nth_error_some l2 (Z.to_nat i)) as (r2 & E2); [lia|].
        assert (P1 : py_nth l1 i = Some r1) by (rewrite py_nth_nat; auto). assert (P2 : py_nth l2 i = Some r2) by (rewrite py_nth_nat; [auto|lia]).
        rewrite P1 in H. rewrite P2. unfold bind, lift_opt, get in *. destruct F as (T & K1 & K2 & F').
        destruct (keys_of_nth _ _ _ _ _ _ K1 E1) as (x1 & X1 & Y1). destruct (keys_of_nth _ _ _ _ _ _ K1 B1) as (w1 & W1 & V1).
        destruct (keys_of_nth _ _ _ _ _ _ K2 E2) as (x2 & X2 & Y2). destruct (keys_of_nth _ _ _ _ _ _ K2 B2) as (w2 & W2 & V2).
        rewrite (better_key _ _ _ _ _ s1 Y1 V1) in H. rewrite (better_key _ _ _ _ _ s2 Y2 V2).
        destruct SO as [_ O]. rewrite <- (O _ _ _ _ _ _ W1 X1 W2 X2).
        assert (F : facing s1 s2) by (repeat (split; auto); apply F').
        destruct (nltb w1 x1); [apply (IH s1 s2 (Z.to_nat i) r1 r2 c1 s1')|apply (IH s1 s2 p b1 b2 c1 s1')]; auto; split; auto.
    Qed.
    Lemma run_lock : forall t s1 s2 c1 s1', facing s1 s2 -> run_tournament None t l1 s1 = Ok c1 s1' ->
      exists q c2, both q c1 c2 /\ s1' = set_tape (tape s1') s1 /\ run_tournament None t l2 s2 = Ok c2 (set_tape (tape s1') s2).
    Proof.
      intros t s1 s2 c1 s1' F H. unfold run_tournament in *. bd H tr s3 R. pose proof (rnd_only_sample _ _ _ _ _ R) as Es.
      destruct F as (T & F'). pose proof (to_sample _ _ s1 s2 _ _ T R) as R2.
      destruct (facing_len s1 s2) as [L1 L2]; [split; auto|]. rewrite L2, <- L1. unfold bind. rewrite R2.
      assert (Rg : Forall (fun i => 0 <= i < Z.of_nat (length l1)) tr).
      { destruct (Z.ltb_spec t 0); [rewrite sample_error in R by auto; discriminate|].
        destruct (Z.ltb_spec (Z.of_nat (length (zrange 0 (Z.of_nat (length l1))))) t); [rewrite sample_error in R by auto; discriminate|].
        apply (possible_sound _ _ _ _ _ (possible_sample (zrange 0 (Z.of_nat (length l1))) t ltac:(lia))) in R. destruct R as [R _].
        apply picks_incl in R. apply Forall_forall. intros i Hi. apply R in Hi. apply in_zrange in Hi. exact Hi. }
      destruct tr as [|i tr]; cbn [get_best] in *; [discriminate|]. inversion Rg as [|? ? Ri Rg']; subst.
      destruct (nth_error_some l1 (Z.to_nat i)) as (r1 & E1); [lia|]. destruct (nth_error_some l2 (Z.to_nat i)) as (r2 & E2); [lia|].
      assert (P1 : py_nth l1 i = Some r1) by (rewrite py_nth_nat; auto). assert (P2 : py_nth l2 i = Some r2) by (rewrite py_nth_nat; [auto|lia]).
      rewrite P1 in H. rewrite P2. unfold bind, lift_opt in *. rewrite Es in H.
      destruct (best_lock tr (set_tape (tape s3) s1) (set_tape (tape s3) s2) (Z.to_nat i) r1 r2 c1 s1') as (q & c2 & B & E & G); auto.
      - split; [reflexivity|exact F'].
      - split; auto.
      - exists q, c2. rewrite E. cbn [tape set_tape]. repeat (split; auto); apply B.
    Qed.
    Lemma second_lock : forall f t s1 s2 p b1 b2 c1 s1', facing s1 s2 -> both p b1 b2 -> second_parent f None t l1 b1 s1 = Ok c1 s1' ->
      exists q c2, both q c1 c2 /\ s1' = set_tape (tape s1') s1 /\ second_parent f None t l2 b2 s2 = Ok c2 (set_tape (tape s1') s2).
    Proof.
      induction f as [|f IH]; intros t s1 s2 p b1 b2 c1 s1' F B H; cbn [second_parent] in *; [discriminate|]. bd H d1 s3 R.
      destruct (run_lock _ _ _ _ _ F R) as (q & d2 & D & E & G). unfold bind in *. rewrite G. unfold get in *.
      pose proof F as F0. destruct F as (T & K1 & K2 & N1 & N2 & _). destruct B as [B1 B2]. destruct D as [D1 D2].
      rewrite E in H. cbn [heap set_tape] in H |- *. rewrite (N1 _ _ D1), (N1 _ _ B1) in H. rewrite (N2 _ _ D2), (N2 _ _ B2).
      destruct (opt_eqb Z.eqb _ _).
      - destruct (IH t (set_tape (tape s3) s1) (set_tape (tape s3) s2) p b1 b2 c1 s1') as (q' & c2 & C & E' & G'); auto; [apply facing_tape; auto|split; auto|].
        exists q', c2. split; auto.
      - apply ret_ok in H. destruct H as [-> ->]. exists q, d2. split; [split; auto|]. split; reflexivity.
    Qed.

    (** The parents made so far are copies of the members at the positions [ps]. *)
    Lemma pair_lock : forall f t s1 s2 c s1', facing s1 s2 -> tournament_pair f None t l1 s1 = Ok c s1' ->
      exists p q s2', tournament_pair f None t l2 s2 = Ok (next s2, S (next s2)) s2' /\ c = (next s1, S (next s1)) /\ facing s1' s2' /\ extends s1 s1' /\ extends s2 s2' /\
        next s1' = S (S (next s1)) /\ next s2' = S (S (next s2)) /\
        exists a1 a2 b1 b2, both p a1 a2 /\ both q b1 b2 /\ heap s1' (next s1) = heap s1 a1 /\ heap s1' (S (next s1)) = heap s1 b1 /\
          heap s2' (next s2) = heap s2 a2 /\ heap s2' (S (next s2)) = heap s2 b2.
    Proof.
      intros f t s1 s2 c s1' F H. unfold tournament_pair in *. bd H a1 s3 R1. destruct (run_lock _ _ _ _ _ F R1) as (p & a2 & A & E1 & G1).
      bd H b1 s4 R2. rewrite E1 in R2. destruct (second_lock _ _ _ _ p a1 a2 _ _ (facing_tape _ _ (tape s3) F) A R2) as (q & b2 & B & E2 & G2).
      exists p, q. unfold bind in *. rewrite G1, G2. rewrite E2 in H. clear R1 R2 G1 G2 E1 E2. unfold get, alloc, ret in *. cbn [heap set_tape next tape ent rnd_seed prng log] in *.
      inversion H; subst. clear H. eexists. split; [reflexivity|]. split; [reflexivity|].
      destruct F as (T & K1 & K2 & N1 & N2 & A1 & A2).
      assert (U : forall (h : nat -> individ) n x y r, (r < n)%nat -> upd (upd h n x) (S n) y r = h r).
      { intros h n x y r Hr. unfold upd. destruct (Nat.eqb_spec r (S n)); [lia|]. destruct (Nat.eqb_spec r n); [lia|reflexivity]. }
      assert (U1 : forall (h : nat -> individ) n x y, upd (upd h n x) (S n) y n = x).
      { intros h n x y. unfold upd. destruct (Nat.eqb_spec n (S n)); [lia|]. rewrite Nat.eqb_refl. reflexivity. }
      assert (U2 : forall (h : nat -> individ) n x y, upd (upd h n x) (S n) y (S n) = y).
      { intros h n x y. unfold upd. rewrite Nat.eqb_refl. reflexivity. }
      split.
      { split; [reflexivity|]. cbn [heap next]. split; [|split; [|split; [|split; [|split]]]].
        - eapply keys_of_ext; [|exact K1]. intros r Hr. cbn. rewrite U; auto.
        - eapply keys_of_ext; [|exact K2]. intros r Hr. cbn. rewrite U; auto.
        - intros k r Hk. cbn. rewrite U; [auto|]. apply A1. eapply nth_error_In; eauto.
        - intros k r Hk. cbn. rewrite U; [auto|]. apply A2. eapply nth_error_In; eauto.
        - intros r Hr. apply A1 in Hr. cbn. lia.
        - intros r Hr. apply A2 in Hr. cbn. lia. }
      split; [split; [cbn; lia|]; do 3 (split; [reflexivity|]); intros r Hr; cbn; apply U; auto|].
      split; [split; [cbn; lia|]; do 3 (split; [reflexivity|]); intros r Hr; cbn; apply U; auto|].
      split; [reflexivity|]. split; [reflexivity|]. exists a1, a2, b1, b2. cbn [heap]. rewrite !U1, !U2. repeat (split; auto).
    Qed.

    Definition copies (s s' : st) (l : list nat) (ps cs : list nat) : Prop :=
      Forall2 (fun p c => exists r, nth_error l p = Some r /\ heap s' c = heap s r) ps cs.
    Lemma copies_from : forall s s1 s' l ps cs, (forall r, In r l -> (r < next s)%nat) -> extends s s1 -> copies s1 s' l ps cs -> copies s s' l ps cs.
    Proof.
      intros s s1 s' l ps cs A X C. eapply Forall2_impl; [|exact C]. intros p c (r & Hr & E). exists r. split; auto. rewrite E.
      destruct X as (_ & _ & _ & _ & Xh). apply Xh. apply A. eapply nth_error_In; eauto.
    Qed.
    Lemma pairs_lock : forall f t n s1 s2 cs1 s1', facing s1 s2 -> mrepeat n (tournament_pair f None t l1) s1 = Ok cs1 s1' ->
      exists ps cs2 s2', mrepeat n (tournament_pair f None t l2) s2 = Ok cs2 s2' /\ extends s1 s1' /\ extends s2 s2' /\
        copies s1 s1' l1 ps (flatten_pairs cs1) /\ copies s2 s2' l2 ps (flatten_pairs cs2).
    Proof.
      intros f t. induction n as [|n IH]; intros s1 s2 cs1 s1' F H; cbn [mrepeat] in *.
      - apply ret_ok in H. destruct H as [-> ->]. exists [], [], s2. split; [reflexivity|]. split; [apply extends_refl|]. split; [apply extends_refl|]. split; constructor.
      - bd H c s3 R. bd H cs s4 R4. apply ret_ok in H. destruct H as [-> ->].
        destruct (pair_lock _ _ _ _ _ _ F R) as (p & q & s5 & G & -> & F5 & X1 & X2 & N1 & N2 & a1 & a2 & b1 & b2 & A & B & H1 & H2 & H3 & H4).
        destruct (IH _ _ _ _ F5 R4) as (ps & cs2 & s6 & G6 & Y1 & Y2 & C1 & C2). exists (p :: q :: ps), ((next s2, S (next s2)) :: cs2), s6.
        unfold bind. rewrite G, G6. split; [reflexivity|].
        split; [eapply extends_trans; eauto|]. split; [eapply extends_trans; eauto|].
        pose proof F as F0. destruct F0 as (_ & _ & _ & _ & _ & A1 & A2). rewrite !flatten_cons.
        pose proof Y1 as (_ & _ & _ & _ & Yh1). pose proof Y2 as (_ & _ & _ & _ & Yh2).
        split.
        + constructor; [exists a1; split; [apply A|]; rewrite Yh1 by lia; auto|]. constructor; [exists b1; split; [apply B|]; rewrite Yh1 by lia; auto|].
          eapply copies_from; eauto.
        + constructor; [exists a2; split; [apply A|]; rewrite Yh2 by lia; auto|]. constructor; [exists b2; split; [apply B|]; rewrite Yh2 by lia; auto|].
          eapply copies_from; eauto.
    Qed.
  End Pair.
End Lockstep.
