(** One generation with tournaments, order crossover and movement mutation in which all
    children become the same tour: how likely it is. *)
From Coq Require Import String.
From Coq Require Import ZArith QArith List Bool Lia Lqa Permutation.
From Verif Require Import Spec Num State Binary Population GaData Crossover Mutation Selection Penalty Fitness NewGeneration Driver
  ListLemmas Rnd Exec Laws PopulationProofs CrossoverProofs MutationProofs SelectionProofs VegaProofs
  NewGenProofs UpdateProofs FitnessProofs StepProofs RunProofs Runs DomainProofs SafetyProofs Fuelless SeedProofs ReachProofs
  Chance ChanceProofs SelChanceProofs PropSelChance PropMutChance ChanceRun ChanceRunProofs ConvergeProofs LuckProofs.
Import ListNotations.
Open Scope list_scope.
Open Scope Z_scope.

(** *** Arrangements *)
Lemma splits_in : forall {A} (l : list A) a, In a l -> exists r, In (a, r) (splits l) /\ forall x, In x l -> x <> a -> In x r.
Proof.
  intros A l. induction l as [|y l IH]; intros a H; [destruct H|]. destruct H as [<-|H].
  - exists l. split; [left; auto|]. intros x [<-|Hx] N; [congruence|auto].
  - destruct (IH a H) as (r & I & K). exists (y :: r). split; [right; apply in_map_iff; exists (a, r); auto|]. intros x [<-|Hx] N; [left; auto|right; auto].
Qed.
Lemma arrangements_intro : forall {A} (tr l : list A), NoDup tr -> incl tr l -> In tr (arrangements (length tr) l).
Proof.
  intros A tr. induction tr as [|a tr IH]; intros l Nd I; [left; auto|]. inversion Nd as [|? ? Na Nd']; subst. cbn [length arrangements].
  destruct (splits_in l a (I a (or_introl eq_refl))) as (r & Ir & K). apply in_flat_map. exists (a, r). split; auto. cbn [fst snd]. apply in_map, IH; auto.
  intros x Hx. apply K; [apply I; right; auto|]. intros ->. auto.
Qed.
Lemma falling_le : forall k n, (falling n k <= n ^ k)%nat.
Proof. intros k. induction k as [|k IH]; intros n; cbn [falling Nat.pow]; [auto|]. apply Nat.mul_le_mono; auto. etransitivity; [apply (falling_mono k (n - 1) n); lia|apply IH]. Qed.
Lemma inv_nat_le : forall a b, (0 < a)%nat -> (a <= b)%nat -> (/ inject_Z (Z.of_nat b) <= / inject_Z (Z.of_nat a))%Q.
Proof.
  intros a b Ha H. assert (A : (0 < inject_Z (Z.of_nat a))%Q) by (unfold Qlt; cbn; lia). assert (B : (0 < inject_Z (Z.of_nat b))%Q) by (unfold Qlt; cbn; lia).
  setoid_replace (/ inject_Z (Z.of_nat b))%Q with (1 / inject_Z (Z.of_nat b))%Q by (unfold Qdiv; ring). apply Qle_shift_div_r; auto.
  setoid_replace (/ inject_Z (Z.of_nat a) * inject_Z (Z.of_nat b))%Q with (inject_Z (Z.of_nat b) / inject_Z (Z.of_nat a))%Q by (unfold Qdiv; ring).
  apply Qle_shift_div_l; auto. rewrite Qmult_1_l, <- Zle_Qle. lia.
Qed.
Lemma inv_nat_pos : forall a, (0 < a)%nat -> (0 < / inject_Z (Z.of_nat a))%Q.
Proof. intros a Ha. apply Qinv_lt_0_compat. unfold Qlt; cbn; lia. Qed.
Lemma inv_nat_one : forall a, (0 < a)%nat -> (/ inject_Z (Z.of_nat a) <= 1)%Q.
Proof. intros a Ha. apply (inv_nat_le 1 a); lia. Qed.
Fixpoint zs_eqb (x y : list Z) : bool := match x, y with [], [] => true | a :: x', b :: y' => (a =? b) && zs_eqb x' y' | _, _ => false end.
Lemma zs_eqb_ok : forall x y : list Z, zs_eqb x y = true <-> x = y.
Proof.
  intros x. induction x as [|a x IH]; intros [|b y]; cbn; split; intros H; try discriminate; auto.
  - apply andb_true_iff in H. destruct H as [E F]. apply Z.eqb_eq in E. apply IH in F. congruence.
  - inversion H; subst. rewrite Z.eqb_refl. apply IH. reflexivity.
Qed.

Section TourLuck.
  Context {NO : NumOps}.

  Lemma lucky_bind_tree : forall {A B} s (P : A -> st -> Prop) (R : B -> st -> Prop) (m : M A) (k : A -> M B) q w, rnd_seed s = None -> treelike m -> (forall a, treelike (k a)) ->
    lucky s P m q -> (0 <= w)%Q -> (forall a s', arises m s (Ok a s') -> rnd_seed s' = None -> P a s' -> lucky s' R (k a) w) -> lucky s R (bind m k) (q * w).
  Proof.
    intros A B s P R m k q w Hs Tm Tk L Hw K. eapply lucky_bind; eauto.
    - intros a s' Ho. apply Tk. eapply arises_seedless; eauto.
    - intros a s' Ho Pa. apply K; auto. eapply arises_seedless; eauto.
  Qed.
  (** What comes first cannot fail. *)
  Lemma lucky_after : forall {A B} s (R : B -> st -> Prop) (m : M A) (k : A -> M B) w, rnd_seed s = None -> treelike m -> (forall a, treelike (k a)) ->
    (forall o, arises m s o -> exists a s', o = Ok a s') -> (0 <= w)%Q -> (forall a s', arises m s (Ok a s') -> rnd_seed s' = None -> lucky s' R (k a) w) -> lucky s R (bind m k) w.
  Proof.
    intros A B s R m k w Hs Tm Tk Sure Hw K. apply lucky_weaken with (1 * w)%Q; [|lra].
    apply (lucky_bind_tree s (fun _ _ => True)); auto. apply lucky_sure; [apply Tm; auto|]. intros o Ho. destruct (Sure o Ho) as (a & s' & ->). eauto.
  Qed.
  Lemma lucky_then : forall {A B} s (P : A -> st -> Prop) (R : B -> st -> Prop) (m : M A) (k : A -> M B) w, rnd_seed s = None -> treelike m -> (forall a, treelike (k a)) ->
    lucky s P m w -> (forall a s', arises m s (Ok a s') -> rnd_seed s' = None -> P a s' -> lucky s' R (k a) 1) -> lucky s R (bind m k) w.
  Proof. intros A B s P R m k w Hs Tm Tk L K. apply lucky_weaken with (w * 1)%Q; [|lra]. apply (lucky_bind_tree s P); auto. lra. Qed.
  Lemma repeat_keeps : forall {A} (m : M A) (Inv : st -> Prop), (forall s a s', Inv s -> m s = Ok a s' -> Inv s') -> forall n s l s', Inv s -> mrepeat n m s = Ok l s' -> Inv s'.
  Proof.
    intros A m Inv H n. induction n as [|n IH]; intros s l s' HI E; cbn [mrepeat] in E; [apply ret_ok in E; destruct E as [_ ->]; auto|].
    bd E a s1 R. bd E b s2 R'. apply ret_ok in E. destruct E as [_ ->]. eauto.
  Qed.
  Lemma lucky_repeat : forall {A} (m : M A) (Inv : st -> Prop) (P : A -> st -> Prop) q, treelike m -> (0 <= q)%Q ->
    (forall s, Inv s -> rnd_seed s = None -> lucky s P m q) -> (forall s a s', Inv s -> m s = Ok a s' -> Inv s' /\ forall b, P b s -> P b s') ->
    (forall s t e, Inv s -> Inv (set_source t e s)) -> (forall s t e b, P b s -> P b (set_source t e s)) ->
    forall n s, Inv s -> rnd_seed s = None -> lucky s (fun l s' => length l = n /\ Forall (fun a => P a s') l) (mrepeat n m) (qpow q n).
  Proof.
    intros A m Inv P q Tm Hq H1 H2 H3 H4 n. induction n as [|n IH]; intros s HI Hs; cbn [mrepeat qpow].
    - apply lucky_ret. auto.
    - assert (Trm : treelike (mrepeat n m)) by (apply tr_mrepeat; auto).
      apply (lucky_bind_tree s P); auto; [intros; apply tr_bind; auto; intros; apply tr_ret|apply qpow_nonneg; auto|].
      intros a s' Ho Hs' Pa.
      assert (HI' : Inv s'). { destruct (Ho (tape s') (ent s')) as (t & e & E). cbn [with_source] in E. rewrite source_same in E. apply H2 in E; [apply E|apply H3; auto]. }
      apply (lucky_then s' (fun l s'' => (length l = n /\ Forall (fun a => P a s'') l) /\ P a s'')); auto; [intros; apply tr_ret| |].
      + eapply lucky_impl; [apply IH; eauto|]. intros l s'' Ho' Pl. split; auto.
        destruct (Ho' (tape s'') (ent s'')) as (t & e & E). cbn [with_source] in E. rewrite source_same in E.
        apply (repeat_keeps m (fun s => Inv s /\ P a s)) in E; [apply E| |split; auto]. intros s1 b s2 [I1 P1] R. destruct (H2 _ _ _ I1 R) as [I2 K]. auto.
      + intros l s'' Ho' _ [[Ll Fl] Pa']. apply lucky_ret. split; [cbn; congruence|constructor; auto].
  Qed.

  (** *** Tournaments *)
  Definition tours_of (t : Z) (l : list nat) : list (list Z) := arrangements (Z.to_nat t) (zrange 0 (Z.of_nat (length l))).
  Lemma tours_range : forall t l tr, 1 <= t -> In tr (tours_of t l) -> tr <> [] /\ forall p, In p tr -> 0 <= p < Z.of_nat (length l).
  Proof.
    intros t l tr Ht H. apply arrangements_in in H. destruct H as [L I]. split; [destruct tr; [cbn in L; lia|discriminate]|]. intros p Hp. apply I, in_zrange in Hp. lia.
  Qed.
  Lemma best_same : forall l tr b s s', (forall r, In r l -> (exists x, score (heap s r) = SV1 x) /\ score (heap s' r) = score (heap s r)) -> In b l ->
    (forall p, In p tr -> 0 <= p < Z.of_nat (length l)) -> exists w, get_best_loop None l tr b s = Ok w s /\ get_best_loop None l tr b s' = Ok w s'.
  Proof.
    intros l tr. induction tr as [|p tr IH]; intros b s s' H Hb R; cbn [get_best_loop]; [exists b; split; reflexivity|].
    assert (Hp : 0 <= p < Z.of_nat (length l)) by (apply R; left; auto).
    destruct (nth_error l (Z.to_nat p)) as [r|] eqn:Er; [|apply nth_error_None in Er; lia].
    assert (Hr : In r l) by (eapply nth_error_In; eauto). unfold bind, get, better, m_ltb. rewrite (ListLemmas.py_nth_in _ _ Hp), Er.
    destruct (H r Hr) as [(x & Ex) Fx]. destruct (H b Hb) as [(y & Ey) Fy]. cbn [lift_opt ret]. rewrite Fx, Fy, Ex, Ey. cbn [lift_opt sv_ltb ret].
    destruct (nltb y x); apply IH; auto; intros; apply R; right; auto.
  Qed.
  Lemma winner_same : forall l tr s s', (forall r, In r l -> (exists x, score (heap s r) = SV1 x) /\ score (heap s' r) = score (heap s r)) -> tr <> [] ->
    (forall p, In p tr -> 0 <= p < Z.of_nat (length l)) -> winner s' None l tr = winner s None l tr.
  Proof.
    intros l tr s s' H Ne R. destruct tr as [|p tr]; [congruence|]. unfold winner, get_best.
    assert (Hp : 0 <= p < Z.of_nat (length l)) by (apply R; left; auto).
    destruct (nth_error l (Z.to_nat p)) as [r|] eqn:Er; [|apply nth_error_None in Er; lia].
    unfold bind. rewrite (ListLemmas.py_nth_in _ _ Hp), Er. cbn [lift_opt ret].
    destruct (best_same l tr r s s' H (nth_error_In _ _ Er) ltac:(intros; apply R; right; auto)) as (w & -> & ->). reflexivity.
  Qed.
  Lemma tournament_outcome : forall ok, NumOrder NO ok -> forall s t l b s', keys_ok ok s None l -> 1 <= t <= Z.of_nat (length l) -> run_tournament None t l s = Ok b s' ->
    exists tr u, In tr (tours_of t l) /\ b = winner s None l tr /\ s' = set_tape u s.
  Proof.
    intros ok NL s t l b s' K Ht H. unfold run_tournament in H. bd H tr s1 R.
    destruct (proj1 (even_sample (zrange 0 (Z.of_nat (length l))) t ltac:(rewrite zrange_length_Z; lia)) s) as (tr' & u & I & E). rewrite R in E. inversion E; subst tr' s1.
    destruct (tours_range t l tr ltac:(lia) I) as [Ne Rg]. destruct (winner_ok ok NL s None l tr K Ne Rg) as (W & _). rewrite W in H. inversion H; subst. eauto.
  Qed.
  Lemma lucky_tournament : forall ok, NumOrder NO ok -> forall s t l tr, keys_ok ok s None l -> 1 <= t <= Z.of_nat (length l) -> In tr (tours_of t l) -> rnd_seed s = None ->
    lucky s (fun b s' => b = winner s None l tr /\ exists u e, s' = set_source u e s) (run_tournament None t l) (/ inject_Z (Z.of_nat (falling (length l) (Z.to_nat t)))).
  Proof.
    intros ok NL s t l tr K Ht I Hs. unfold run_tournament.
    assert (Ev := even_sample (zrange 0 (Z.of_nat (length l))) t ltac:(rewrite zrange_length_Z; lia)).
    apply (lucky_then s (fun x s' => x = tr /\ exists u e, s' = set_source u e s)); auto; [apply tr_sample| | |].
    - intros a. unfold get_best. destruct a; [apply tr_raise|]. apply tr_bind; [apply tr_lift_opt|]. intros. apply tr_best_loop.
    - eapply lucky_weaken; [apply (lucky_even zs_eqb s _ _ tr Ev); auto; [apply rc_sample|apply zs_eqb_ok]|].
      rewrite arrangements_count, zrange_length, Z.sub_0_r, Nat2Z.id. apply Qle_refl.
    - intros a s' _ _ (-> & u & e & ->). destruct (tours_range t l tr ltac:(lia) I) as [Ne Rg]. destruct (winner_ok ok NL s None l tr K Ne Rg) as (W & _).
      eapply lk_done with (a := winner s None l tr) (s' := set_source u e s); [|split; [reflexivity|eauto]|apply Qle_refl].
      intros t0 e0. change (set_source t0 e0 (set_source u e s)) with (set_ent e0 (set_tape t0 s)).
      assert (St : steered (get_best None l tr)). { unfold get_best. destruct tr; [apply rc_raise|]. apply rc_bind; [apply rc_lift_opt|]. intros. apply rc_best_loop. }
      rewrite (proj1 St), W. reflexivity.
  Qed.

  Definition pair_luck (len : nat) (t : Z) : Q := (/ inject_Z (Z.of_nat (falling len (Z.to_nat t))) * / inject_Z (Z.of_nat (falling len (Z.to_nat t))))%Q.
  (** The parents of a pair are copies of two given winners. *)
  Definition copies (G1 G2 : list gv) (c : nat * nat) (s : st) : Prop :=
    genotype (heap s (fst c)) = G1 /\ genotype (heap s (snd c)) = G2 /\ (fst c < next s)%nat /\ (snd c < next s)%nat.
  Lemma lucky_pair : forall ok, NumOrder NO ok -> forall fuel s t l tr1 tr2, keys_ok ok s None l -> 1 <= t <= Z.of_nat (length l) -> In tr1 (tours_of t l) -> In tr2 (tours_of t l) -> rnd_seed s = None ->
    same_idx s (winner s None l tr1) (winner s None l tr2) = false ->
    lucky s (copies (genotype (heap s (winner s None l tr1))) (genotype (heap s (winner s None l tr2)))) (tournament_pair (S fuel) None t l) (pair_luck (length l) t).
  Proof.
    intros ok NL fuel s t l tr1 tr2 K Ht I1 I2 Hs Di. unfold tournament_pair, pair_luck.
    assert (Fp : (0 < falling (length l) (Z.to_nat t))%nat) by (apply falling_pos; lia). pose proof (inv_nat_pos _ Fp) as Fq.
    set (w1 := winner s None l tr1) in *. set (w2 := winner s None l tr2) in *.
    apply (lucky_bind_tree s (fun b s' => b = w1 /\ exists u e, s' = set_source u e s)); auto; [apply tr_run_tournament| |apply (lucky_tournament ok NL); auto|apply Qlt_le_weak; auto|].
    { intros a. apply tr_bind; [apply tr_second_parent|]. intros. repeat (apply tr_bind; [first [apply tr_get|apply tr_alloc]|intros ?]). apply tr_ret. }
    intros a s' _ _ (-> & u & e & ->).
    apply (lucky_then _ (fun b s' => b = w2 /\ exists u e, s' = set_source u e s)); auto; [apply tr_second_parent| | |].
    { intros. repeat (apply tr_bind; [first [apply tr_get|apply tr_alloc]|intros ?]). apply tr_ret. }
    - cbn [second_parent].
      apply (lucky_then _ (fun b s' => b = w2 /\ exists u e, s' = set_source u e s)); auto; [apply tr_run_tournament| | |].
      { intros. repeat (apply tr_bind; [apply tr_get|intros ?]). destruct (opt_eqb _ _ _); [apply tr_second_parent|apply tr_ret]. }
      + eapply lucky_same; [apply (lucky_tournament ok NL s t l tr2); auto|]. reflexivity.
      + intros b s' _ _ (-> & u' & e' & ->). eapply lk_done with (a := w2) (s' := set_source u' e' s); [|split; [reflexivity|eauto]|apply Qle_refl].
        intros t0 e0. unfold bind, get. cbn [heap set_source set_ent set_tape]. unfold same_idx in Di. rewrite Di. reflexivity.
    - intros b s' _ _ (-> & u' & e' & ->).
      set (s2 := match bind (alloc (heap s w1)) (fun _ => alloc (heap s w2)) s with Ok _ x => x | _ => s end).
      eapply lk_done with (a := (next s, S (next s))) (s' := s2); [intros t0 e0; reflexivity| |apply Qle_refl].
      unfold copies, s2, bind, alloc. cbn [fst snd heap next]. unfold upd. rewrite !Nat.eqb_refl.
      assert (N : (next s =? S (next s))%nat = false) by (apply Nat.eqb_neq; lia). rewrite ?N. repeat split; auto; lia.
  Qed.

  (** *** The selection *)
  (** Two tournaments with different winners. *)
  Definition contested (s : st) (t : Z) (l : list nat) (r1 r2 : nat) : Prop :=
    exists tr1 tr2, In tr1 (tours_of t l) /\ In tr2 (tours_of t l) /\ winner s None l tr1 = r1 /\ winner s None l tr2 = r2 /\ r1 <> r2.
  Lemma tr_base_execute : forall gd, treelike (base_execute gd).
  Proof. intros gd. unfold base_execute, get_empty_copy, reset_idx_individ. repeat (apply tr_bind; [|intros ?]); try apply tr_ret; [apply tr_reset|apply tr_do_seed]. Qed.
  Lemma base_total : forall gd s, exists s', base_execute gd s = Ok (set_parents [] gd) s'.
  Proof.
    intros gd s. unfold base_execute, get_empty_copy, reset_idx_individ.
    assert (R : forall l i s, exists s', reset_idx_loop i l s = Ok tt s').
    { induction l as [|r l IH]; intros i s0; cbn [reset_idx_loop]; [exists s0; reflexivity|]. unfold bind, modify. apply IH. }
    destruct (R (members (population gd)) 0 s) as (s1 & E). unfold bind. rewrite E. unfold do_seed. destruct (rnd_seed s1); eexists; reflexivity.
  Qed.
  Lemma base_state : forall ok gd s gd1 s1, GI ok gd s -> base_execute gd s = Ok gd1 s1 ->
    gd1 = set_parents [] gd /\ next s1 = next s /\ (forall r, In r (members (population gd)) -> exists j, last_pos 0 (members (population gd)) r = Some j /\ heap s1 r = set_idx (Some j) (heap s r)) /\
    keys_ok ok s1 None (members (population gd)) /\ told_apart s1 (members (population gd)) /\ (forall r, In r (members (population gd)) -> (r < next s1)%nat).
  Proof.
    intros ok gd s gd1 s1 Gi E1. set (l := members (population gd)) in *.
    unfold base_execute in E1. bd E1 u1 s2 R1. unfold get_empty_copy in E1. bd E1 l2 s3 R2. bd R2 u3 s4 R3. apply ret_ok in R2. destruct R2 as [-> ->]. apply ret_ok in E1. destruct E1 as [-> ->].
    apply reset_idx_ok in R1. destruct R1 as (N1 & _ & _ & _ & _ & _ & H1). apply extends_do_seed in R3. destruct R3 as ((N3 & _ & _ & _ & H3) & N3').
    fold l in H1. assert (Al : forall r, In r l -> (r < next s)%nat) by (apply Gi).
    assert (Hh : forall r, In r l -> exists j, last_pos 0 l r = Some j /\ heap s4 r = set_idx (Some j) (heap s r)).
    { intros r Hr. rewrite H3 by (rewrite N1; auto). rewrite H1. destruct (last_pos 0 l r) as [j|] eqn:Ej; [eauto|]. exfalso. apply (last_pos_in l 0 r); auto. }
    split; auto. split; [lia|]. split; auto. split; [|split].
    - intros r Hr. destruct (Hh r Hr) as (j & _ & ->). destruct (gi_settled _ _ _ Gi r Hr) as [(x & Ex & Ox) _]. exists x. split; auto. cbn. rewrite Ex. reflexivity.
    - intros a b Ia Ib. unfold same_idx. destruct (Hh a Ia) as (ja & La & ->). destruct (Hh b Ib) as (jb & Lb & ->). cbn [idx_individ set_idx opt_eqb]. split.
      + intros E. apply Z.eqb_eq in E. subst jb. eapply last_pos_inj; eauto.
      + intros ->. assert (ja = jb) by congruence. subst. apply Z.eqb_refl.
    - intros r Hr. specialize (Al r Hr). lia.
  Qed.
  Lemma keys_source : forall ok s t e l, keys_ok ok s None l -> keys_ok ok (set_source t e s) None l.
  Proof. intros ok s t e l K. exact K. Qed.

  Definition pairs_of (gd : gadata) (m : Z) : Prop := ntrunc (nmul (children_percent gd) (nofZ (num_individ (population gd)))) = Some m.
  Definition alternate (G1 G2 : list gv) (m : nat) (gd1 : gadata) (s : st) : Prop :=
    exists ps, parents gd1 = flatten_pairs ps /\ length ps = m /\ Forall (fun c => copies G1 G2 c s) ps.
  Lemma winner_member : forall ok, NumOrder NO ok -> forall s t l tr, keys_ok ok s None l -> 1 <= t -> In tr (tours_of t l) -> In (winner s None l tr) l.
  Proof.
    intros ok NL s t l tr K Ht I. destruct (tours_range t l tr Ht I) as [Ne Rg]. destruct (winner_ok ok NL s None l tr K Ne Rg) as (_ & (p & _ & E) & _). eapply nth_error_In; eauto.
  Qed.
  Lemma selection_lucky : forall ok, NumOrder NO ok -> forall fuel c gd s t m r1 r2, going ok c gd s -> rnd_seed s = None -> c_selection c = SelTournament t -> pairs_of gd m ->
    contested s t (members (population gd)) r1 r2 ->
    lucky s (fun gd1 s1 => population gd1 = population gd /\ alternate (genotype (heap s r1)) (genotype (heap s r2)) (Z.to_nat m) gd1 s1)
      (selection_execute (S fuel) (c_selection c) gd) (qpow (pair_luck (length (members (population gd))) t) (Z.to_nat m)).
  Proof.
    intros ok NL fuel c gd s t m r1 r2 G Hs Et Em (tr1 & tr2 & I1 & I2 & W1 & W2 & Ne). pose proof G as (Gi & Si & Gs & Rd & Pi & Hn & _).
    destruct (rd_sel _ _ _ Rd) as (t' & Et' & Ht). assert (t' = t) by congruence. subst t'. rewrite Et. cbn [selection_execute].
    set (l := members (population gd)) in *.
    assert (Ps : (0 <= pair_luck (length l) t)%Q). { unfold pair_luck. assert (0 < falling (length l) (Z.to_nat t))%nat by (apply falling_pos; lia). pose proof (inv_nat_pos _ H). apply Qmult_le_0_compat; apply Qlt_le_weak; auto. }
    assert (Qp : (0 <= qpow (pair_luck (length l) t) (Z.to_nat m))%Q) by (apply qpow_nonneg; auto).
    assert (Tp : treelike (tournament_pair (S fuel) None t l)) by apply tr_tournament_pair.
    assert (Tt : forall gd1, treelike (tournament (S fuel) None None t gd1)).
    { intros gd1. unfold tournament. apply tr_bind; [unfold get_total_num_parents; repeat (apply tr_bind; [|intros ?]); [apply tr_ret|apply tr_lift_opt]|]. intros. apply tr_bind; [apply tr_mrepeat, tr_tournament_pair|]. intros. apply tr_ret. }
    assert (Ck : check_tournament_size t (num_individ (population gd)) = ret tt).
    { unfold check_tournament_size. destruct (Z.ltb_spec t 2); [lia|]. destruct (Z.leb_spec (num_individ (population gd)) t); [lia|]. reflexivity. }
    rewrite Ck. eapply calm_bind with (a := tt) (s' := s); [intros t0 e0; reflexivity|].
    apply lucky_after; auto; [apply tr_base_execute| |].
    { intros o Ho. destruct (Ho (tape s) (ent s)) as (t0 & e0 & E). destruct (base_total gd (set_source t0 e0 s)) as (s' & E'). rewrite E' in E. destruct o as [a s''|x|]; try discriminate E. eauto. }
    intros gd1 s1 A1 Hs1. destruct (A1 (tape s1) (ent s1)) as (t1 & e1 & E1). cbn [with_source] in E1. rewrite source_same in E1.
    destruct (base_state ok gd _ gd1 s1 (proj1 (going_source _ _ _ _ t1 e1 G)) E1) as (-> & Nx & Hh & K1 & TA & Al). fold l in Hh, K1, TA, Al.
    assert (Sc : forall r, In r l -> (exists x, score (heap s r) = SV1 x) /\ score (heap s1 r) = score (heap s r)).
    { intros r Hr. destruct (Hh r Hr) as (j & _ & E). change (heap (set_source t1 e1 s) r) with (heap s r) in E. rewrite E. split; auto. destruct (gi_settled _ _ _ Gi r Hr) as [(x & Ex & _) _]. eauto. }
    assert (Wn : forall tr, In tr (tours_of t l) -> winner s1 None l tr = winner s None l tr).
    { intros tr I. destruct (tours_range t l tr ltac:(lia) I) as [Nt Rg]. apply winner_same; auto. }
    assert (Gn : forall r, In r l -> genotype (heap s1 r) = genotype (heap s r)).
    { intros r Hr. destruct (Hh r Hr) as (j & _ & E). rewrite E. reflexivity. }
    assert (M1 : In r1 l) by (rewrite <- W1, <- Wn by auto; apply (winner_member ok NL s1 t); auto; lia).
    assert (M2 : In r2 l) by (rewrite <- W2, <- Wn by auto; apply (winner_member ok NL s1 t); auto; lia).
    unfold tournament. cbn [population set_parents parents]. fold l.
    eapply calm_bind with (a := m) (s' := s1).
    { intros t0 e0. unfold get_total_num_parents, bind, ret. cbn [children_percent population set_parents]. unfold pairs_of in Em. rewrite Em. reflexivity. }
    set (Inv := fun x : st => (next s1 <= next x)%nat /\ forall r, In r l -> heap x r = heap s1 r).
    apply (lucky_then s1 (fun ps s' => length ps = Z.to_nat m /\ Forall (fun a => copies (genotype (heap s r1)) (genotype (heap s r2)) a s') ps)); auto; [apply tr_mrepeat; auto|intros; apply tr_ret| |].
    - apply (lucky_repeat _ Inv); auto.
      + intros x [Nx' Hx] Hsx.
        assert (Kx : keys_ok ok x None l) by (intros r Hr; rewrite Hx by auto; apply K1; auto).
        assert (Wx : forall tr, In tr (tours_of t l) -> winner x None l tr = winner s None l tr).
        { intros tr I. rewrite <- Wn by auto. destruct (tours_range t l tr ltac:(lia) I) as [Nt Rg]. apply winner_same; auto. intros r Hr. rewrite Hx by auto. split; auto. destruct (Sc r Hr) as [(y & Ey) E]. exists y. congruence. }
        eapply lucky_impl; [apply (lucky_pair ok NL fuel x t l tr1 tr2 Kx); auto; [lia|]|].
        * rewrite !Wx, W1, W2 by auto. unfold same_idx. rewrite !Hx by auto. destruct (same_idx s1 r1 r2) eqn:Sx; [exfalso; apply Ne; apply (TA r1 r2); auto|exact Sx].
        * intros a s' _. rewrite !Wx, W1, W2, !Hx, !Gn by auto. auto.
      + intros x a x' [Nx' Hx] R. assert (Alx : forall r, In r l -> (r < next x)%nat) by (intros r Hr; specialize (Al r Hr); lia).
        apply (tournament_pair_ok (S fuel) None t l x a x' (fun _ => True)) in R; auto.
        destruct R as (p1 & p2 & (_ & Nn & (_ & _ & _ & _ & Fr) & _) & _). split; [split; [lia|intros r Hr; rewrite Fr; auto]|].
        intros b (B1 & B2 & B3 & B4). unfold copies. rewrite !Fr by auto. repeat split; auto; lia.
      + split; [lia|auto].
    - intros ps s' _ _ [Lp Fp]. apply lucky_ret. split; [reflexivity|]. exists ps. cbn [parents set_parents]. auto.
  Qed.

  (** A selection that returns has found two winners. *)
  Lemma selection_contested : forall ok, NumOrder NO ok -> forall fuel c gd s t m gd1 s1, going ok c gd s -> c_selection c = SelTournament t -> pairs_of gd m ->
    selection_execute fuel (c_selection c) gd s = Ok gd1 s1 -> exists r1 r2, contested s t (members (population gd)) r1 r2.
  Proof.
    intros ok NL fuel c gd s t m gd1 s1 G Et Em H. pose proof G as (Gi & Si & Gs & Rd & Pi & Hn & _).
    destruct (rd_sel _ _ _ Rd) as (t' & Et' & Ht). assert (t' = t) by congruence. subst t'. rewrite Et in H. cbn [selection_execute] in H.
    destruct (rd_pairs _ _ _ Rd) as (m' & Em' & Hm). unfold pairs_of in Em. assert (m' = m) by congruence. subst m'.
    set (l := members (population gd)) in *. bd H u s2 R2.
    assert (s2 = s) as ->. { unfold check_tournament_size in R2. destruct (_ || _); [discriminate|]. apply ret_ok in R2. destruct R2; auto. }
    bd H gd2 s2 R3. destruct (base_state ok gd s gd2 s2 Gi R3) as (-> & Nx & Hh & K1 & TA & Al). fold l in Hh, K1, TA, Al.
    unfold tournament in H. cbn [population set_parents parents] in H. fold l in H. bd H total s3 R4. unfold get_total_num_parents, bind, ret in R4. cbn [children_percent population set_parents] in R4.
    rewrite Em in R4. cbn [lift_opt ret] in R4. inversion R4; subst total s3. clear R4. bd H ps s4 R5.
    destruct (Z.to_nat m) as [|n] eqn:Zm; [lia|]. cbn [mrepeat] in R5. bd R5 a s5 R6. clear R5 H.
    apply (tournament_pair_ok fuel None t l s2 a s5 (fun b => exists tr, In tr (tours_of t l) /\ b = winner s2 None l tr)) in R6; auto.
    2:{ intros tp b s' R. assert (Hb : 1 <= t <= Z.of_nat (length l)) by lia.
      destruct (tournament_outcome ok NL _ t l b s' (K1 : keys_ok ok (set_tape tp s2) None l) Hb R) as (tr & v & I & -> & _). exists tr. split; auto.
      destruct (tours_range t l tr ltac:(lia) I) as [Nt Rg]. apply winner_same; auto. intros r Hr. split; auto. destruct (K1 r Hr) as (x & Ex & _). cbn in Ex. destruct (score (heap s2 r)); inversion Ex. eauto. }
    destruct R6 as (p1 & p2 & _ & Ip1 & Ip2 & (tr1 & I1 & W1) & (tr2 & I2 & W2) & Ni).
    assert (Wn : forall tr, In tr (tours_of t l) -> winner s2 None l tr = winner s None l tr).
    { intros tr I. destruct (tours_range t l tr ltac:(lia) I) as [Nt Rg]. apply winner_same; auto. intros r Hr. destruct (Hh r Hr) as (j & _ & E). rewrite E. split; auto. destruct (gi_settled _ _ _ Gi r Hr) as [(x & Ex & _) _]. eauto. }
    exists p1, p2, tr1, tr2. rewrite <- !Wn by auto. repeat split; auto. intros ->. congruence.
  Qed.
  Lemma contested_dec : forall s t l, (exists r1 r2, contested s t l r1 r2) \/ forall r1 r2, ~ contested s t l r1 r2.
  Proof.
    intros s t l. destruct (existsb (fun tr1 => existsb (fun tr2 => negb (Nat.eqb (winner s None l tr1) (winner s None l tr2))) (tours_of t l)) (tours_of t l)) eqn:E.
    - left. apply existsb_exists in E. destruct E as (tr1 & I1 & E). apply existsb_exists in E. destruct E as (tr2 & I2 & E). apply negb_true_iff, Nat.eqb_neq in E.
      exists (winner s None l tr1), (winner s None l tr2), tr1, tr2. auto.
    - right. intros r1 r2 (tr1 & tr2 & I1 & I2 & <- & <- & N). apply Bool.not_true_iff_false in E. apply E. apply existsb_exists. exists tr1. split; auto. apply existsb_exists. exists tr2. split; auto.
      apply negb_true_iff, Nat.eqb_neq. auto.
  Qed.

  (** *** The crossover *)
  Definition cut_luck (len : nat) : Q := (/ inject_Z (Z.of_nat (falling (len - 1) 2)) * / inject_Z (Z.of_nat 2))%Q.
  Definition cut_child (len : nat) (G1 G2 : list gv) : list gv := order_child (Z.of_nat len) 1 (Z.of_nat len - 1) G1 G2.
  Lemma lucky_segment : forall len s, (3 <= len)%nat -> rnd_seed s = None ->
    lucky s (fun c s' => c = (1, Z.of_nat len - 1) /\ exists u e, s' = set_source u e s) (get_idx_segment (Z.of_nat len)) (/ inject_Z (Z.of_nat (falling (len - 1) 2))).
  Proof.
    intros len s Hl Hs. unfold get_idx_segment.
    assert (Ev := even_sample (zrange 1 (Z.of_nat len)) 2 ltac:(rewrite zrange_length_Z; lia)).
    apply (lucky_then s (fun x s' => x = [1; Z.of_nat len - 1] /\ exists u e, s' = set_source u e s)); auto; [apply tr_sample| | |].
    - intros a. destruct a as [|x [|y [|z a]]]; first [apply tr_raise|apply tr_ret].
    - eapply lucky_weaken; [apply (lucky_even zs_eqb s _ _ [1; Z.of_nat len - 1] Ev); [apply rc_sample|apply zs_eqb_ok|]|].
      + apply (arrangements_intro [1; Z.of_nat len - 1]); [|intros x [<-|[<-|[]]]; apply in_zrange; lia].
        constructor; [intros [E|[]]; lia|]. constructor; [intros []|constructor].
      + rewrite arrangements_count, zrange_length. replace (Z.to_nat (Z.of_nat len - 1)) with (len - 1)%nat by lia. apply Qle_refl.
    - intros a s' _ _ (-> & u & e & ->). destruct (Z.ltb_spec (Z.of_nat len - 1) 1); [lia|]. apply lucky_ret. eauto.
  Qed.
  Lemma lucky_child : forall len first G1 G2 s, (3 <= len)%nat -> rnd_seed s = None ->
    lucky s (fun c s' => c = next s /\ next s' = S (next s) /\ genotype (heap s' c) = cut_child len G1 G2 /\ forall r, (r < next s)%nat -> heap s' r = heap s r)
      (get_child Order (Z.of_nat len) first G1 G2) (cut_luck len).
  Proof.
    intros len first G1 G2 s Hl Hs. unfold get_child, cut_luck. eapply calm_bind with (a := heap s first) (s' := s); [intros t e; reflexivity|].
    apply (lucky_bind_tree s (fun gs s' => gs = (cut_child len G1 G2, cut_child len G2 G1) /\ exists u e, s' = set_source u e s)); auto; [apply tr_crossover| | | |].
    - intros a. apply tr_bind; [apply tr_randint|]. intros. apply tr_alloc.
    - cbn [crossover]. unfold order. apply (lucky_then s (fun c s' => c = (1, Z.of_nat len - 1) /\ exists u e, s' = set_source u e s)); auto.
      + unfold get_idx_segment. apply tr_bind; [apply tr_sample|]. intros a. destruct a as [|x [|y [|z a]]]; first [apply tr_raise|apply tr_ret].
      + intros [a b]. apply tr_ret.
      + apply lucky_segment; auto.
      + intros a s' _ _ (-> & u & e & ->). apply lucky_ret. eauto.
    - discriminate.
    - intros a s' _ _ (-> & u & e & ->).
      apply (lucky_then _ (fun x s' => x = 1 /\ exists u e, s' = set_source u e s)); auto; [apply tr_randint|intros; apply tr_alloc| |].
      + assert (Ev := even_randint 1 2 ltac:(lia)). eapply lucky_weaken; [eapply lucky_impl; [apply (lucky_even Z.eqb _ _ _ 1 Ev); [apply rc_randint|apply Z.eqb_eq|apply in_zrange; lia]|]|].
        * intros x s' _ (-> & u' & e' & ->). split; auto. exists u', e'. reflexivity.
        * rewrite zrange_length. apply Qle_refl.
      + intros x s' _ _ (-> & u' & e' & ->). cbn [Z.eqb Pos.eqb fst].
        set (i := set_genotype (cut_child len G1 G2) (empty_like (heap s first))).
        eapply lk_done with (a := next s) (s' := match alloc i s with Ok _ y => y | _ => s end); [intros t0 e0; reflexivity| |apply Qle_refl].
        unfold alloc. cbn [heap next]. unfold upd. split; auto. split; auto. split; [rewrite Nat.eqb_refl; reflexivity|].
        intros r Hr. destruct (Nat.eqb_spec r (next s)); [lia|reflexivity].
  Qed.
  Lemma lucky_cross_pairs : forall len first G1 G2, (3 <= len)%nat -> forall ps s, Forall (fun c => copies G1 G2 c s) ps -> rnd_seed s = None ->
    lucky s (fun cs s' => length cs = length ps /\ (next s <= next s')%nat /\ (forall r, (r < next s)%nat -> heap s' r = heap s r) /\ Forall (fun c => genotype (heap s' c) = cut_child len G1 G2) cs)
      (cross_pairs Order (Z.of_nat len) first (flatten_pairs ps)) (qpow (cut_luck len) (length ps)).
  Proof.
    intros len first G1 G2 Hl ps. assert (Cp : (0 <= cut_luck len)%Q).
    { unfold cut_luck. assert (0 < falling (len - 1) 2)%nat by (apply falling_pos; lia). pose proof (inv_nat_pos _ H). apply Qmult_le_0_compat; [apply Qlt_le_weak; auto|discriminate]. }
    induction ps as [|[c1 c2] ps IH]; intros s F Hs; cbn [flatten_pairs flat_map app fst snd cross_pairs length qpow].
    - apply lucky_ret. repeat split; auto.
    - inversion F as [|? ? (E1 & E2 & L1 & L2) F']; subst. cbn [fst snd] in *.
      eapply calm_bind with (a := heap s c1) (s' := s); [intros t e; reflexivity|]. eapply calm_bind with (a := heap s c2) (s' := s); [intros t e; reflexivity|].
      set (G1 := genotype (heap s c1)) in *. set (G2 := genotype (heap s c2)) in *.
      assert (Tc : forall l, treelike (cross_pairs Order (Z.of_nat len) first l)) by (intros l; eapply tr_cross_pairs; apply le_n).
      apply (lucky_bind_tree s (fun c s' => c = next s /\ next s' = S (next s) /\ genotype (heap s' c) = cut_child len G1 G2 /\ forall r, (r < next s)%nat -> heap s' r = heap s r)); auto.
      + unfold get_child. apply tr_bind; [apply tr_get|]. intros. apply tr_bind; [apply tr_crossover|]. intros. apply tr_bind; [apply tr_randint|]. intros. apply tr_alloc.
      + intros a. apply tr_bind; [apply Tc|]. intros. apply tr_ret.
      + apply lucky_child; auto.
      + apply qpow_nonneg; auto.
      + intros a s' _ Hs' (-> & Nx & Gx & Fr).
        apply (lucky_then s' (fun cs s'' => length cs = length ps /\ (next s' <= next s'')%nat /\ (forall r, (r < next s')%nat -> heap s'' r = heap s' r) /\ Forall (fun c => genotype (heap s'' c) = cut_child len G1 G2) cs)); auto; [intros; apply tr_ret| |].
        * apply IH; auto. clear - F' Fr Nx. induction F' as [|c ps (A1 & A2 & A3 & A4) F' IHF]; constructor; auto. unfold copies. rewrite !Fr by auto. repeat split; auto; lia.
        * intros cs s'' _ _ (Lc & Nn & Fr' & Fc). apply lucky_ret. split; [cbn; congruence|]. split; [lia|]. split; [intros r Hr; rewrite Fr' by lia; apply Fr; auto|].
          constructor; auto. rewrite Fr' by lia. exact Gx.
  Qed.
  Lemma crossover_lucky : forall gd1 s G1 G2 m first rest len, alternate G1 G2 m gd1 s -> members (population gd1) = first :: rest -> length (genotype (heap s first)) = len -> (3 <= len)%nat -> rnd_seed s = None ->
    lucky s (fun gd2 s' => length (children gd2) = m /\ Forall (fun c => genotype (heap s' c) = cut_child len G1 G2) (children gd2))
      (crossover_execute Order gd1) (qpow (cut_luck len) m).
  Proof.
    intros gd1 s G1 G2 m first rest len (ps & Ep & Lp & Fp) Em El Hl Hs. unfold crossover_execute. rewrite Em.
    eapply calm_bind with (a := heap s first) (s' := s); [intros t e; reflexivity|]. cbv zeta. rewrite El, Ep.
    assert (Tc : forall l, treelike (cross_pairs Order (Z.of_nat len) first l)) by (intros l; eapply tr_cross_pairs; apply le_n).
    assert (Cp : (0 <= cut_luck len)%Q).
    { unfold cut_luck. assert (0 < falling (len - 1) 2)%nat by (apply falling_pos; lia). pose proof (inv_nat_pos _ H). apply Qmult_le_0_compat; [apply Qlt_le_weak; auto|discriminate]. }
    apply lucky_after; auto.
    - unfold get_empty_copy. apply tr_bind; [apply tr_do_seed|]. intros; apply tr_ret.
    - intros a. apply tr_bind; [apply Tc|]. intros; apply tr_ret.
    - intros o Ho. destruct (Ho (tape s) (ent s)) as (t & e & E). unfold get_empty_copy, bind, do_seed in E. destruct (rnd_seed _); destruct o; try discriminate E; eauto.
    - apply qpow_nonneg; auto.
    - intros a s' Ho Hs'. destruct (Ho (tape s') (ent s')) as (t & e & E). cbn [with_source] in E. rewrite source_same in E.
      unfold get_empty_copy in E. bd E u s2 R. apply ret_ok in E. destruct E as [_ <-]. apply extends_do_seed in R. destruct R as ((N3 & _ & _ & _ & H3) & N3').
      assert (Fp' : Forall (fun c => copies G1 G2 c s') ps).
      { eapply Forall_impl; [|exact Fp]. intros c (A1 & A2 & A3 & A4). unfold copies. rewrite !H3 by auto. cbn [next set_source set_ent set_tape] in N3. split; auto. split; auto. lia. }
      apply (lucky_then s' (fun cs s'' => length cs = length ps /\ Forall (fun c => genotype (heap s'' c) = cut_child len G1 G2) cs)); auto; [intros; apply tr_ret| |].
      + rewrite <- Lp. eapply lucky_impl; [apply (lucky_cross_pairs len first G1 G2 Hl ps s' Fp' Hs')|]. intros cs s'' _ (A1 & _ & _ & A2). auto.
      + intros cs s'' _ _ [Lc Fc]. apply lucky_ret. cbn [children set_children]. split; [congruence|auto].
  Qed.

  (** *** The mutation *)
  Definition one_move (X Y : list gv) : Prop := Y = X \/ exists i j, 0 <= i < Z.of_nat (length X) /\ 0 <= j < Z.of_nat (length X) /\ i <> j /\ Y = move_gene i j X.
  Definition move_luck (g : Q) (len : nat) : Q := (g * / inject_Z (Z.of_nat (falling len 2)))%Q.
  Lemma lucky_gate : forall level g s b, (g <= gate level)%Q -> (g <= 1 - gate level)%Q -> rnd_seed s = None ->
    lucky s (fun x s' => x = b /\ exists u e, s' = set_source u e s) (determines_mutation level) g.
  Proof.
    intros level g s b H1 H2 Hs.
    assert (Ex : expects s (fun o => indicator (returns (Bool.eqb b) o)) (determines_mutation level) (if b then gate level else 1 - gate level)%Q).
    { pose proof (gate_mean level s (indicator b) (indicator (negb b))) as A.
      assert (St : steered (determines_mutation level)) by (unfold determines_mutation; apply rc_bind; [apply rc_randint|intros; apply rc_ret]).
      apply averages_expects with (m2 := determines_mutation level) in A; [|intros t e; apply (proj1 St)].
      eapply expects_eq; [|eapply expects_ext; [exact A|]].
      - destruct b; cbn [indicator negb]; ring.
      - intros o Ho. destruct o as [x s'|x|]; cbn [on_value returns]; [destruct b, x; reflexivity|reflexivity|reflexivity]. }
    apply expects_lucky in Ex; [|intros [x s'|x|] E; [eauto|discriminate E|discriminate E]].
    apply lucky_weaken with (if b then gate level else 1 - gate level)%Q; [|destruct b; auto].
    eapply lucky_impl; [exact Ex|]. intros x s' Ho E. cbn [returns] in E. apply Bool.eqb_prop in E. split; auto.
    destruct (Ho (tape s') (ent s')) as (t & e & R). cbn [with_source] in R. rewrite source_same in R.
    destruct (proj1 (gate_even level) (set_source t e s)) as (y & u & _ & R'). rewrite R in R'. inversion R'; subst. exists u, e. reflexivity.
  Qed.
  Lemma lucky_mutant : forall level g len X Y r s, (0 <= g)%Q -> (g <= gate level)%Q -> (g <= 1 - gate level)%Q -> length X = len -> (2 <= len)%nat -> one_move X Y -> genotype (heap s r) = X -> rnd_seed s = None ->
    lucky s (fun _ s' => genotype (heap s' r) = Y /\ forall x, x <> r -> heap s' x = heap s x) (combi_child Movement level r) (move_luck g len).
  Proof.
    intros level g len X Y r s Hg H1 H2 Hl Hl2 Mv Hx Hs. unfold combi_child, move_luck.
    assert (Fp : (0 < falling len 2)%nat) by (apply falling_pos; lia). pose proof (inv_nat_pos _ Fp) as Fq.
    assert (Tm : forall b : bool, treelike (if b then mutate_child (combi_mutation Movement) r else ret tt)).
    { intros []; [|apply tr_ret]. apply tr_mutate_child. intros x. cbn [combi_mutation]. unfold movement, two_idx. apply tr_bind; [|intros; apply tr_ret]. apply tr_bind; [apply tr_sample|].
      intros a. destruct a as [|y [|z [|w a]]]; first [apply tr_raise|apply tr_ret]. }
    assert (Td : treelike (determines_mutation level)) by (unfold determines_mutation; apply tr_bind; [apply tr_randint|intros; apply tr_ret]).
    destruct Mv as [->|(i & j & Hi & Hj & Nij & ->)].
    - apply lucky_weaken with g; [|setoid_replace g with (g * 1)%Q at 2 by ring; rewrite !(Qmult_comm g); apply Qmult_le_compat_r; auto; apply inv_nat_one; auto].
      apply (lucky_then s (fun x s' => x = false /\ exists u e, s' = set_source u e s)); auto; [apply lucky_gate; auto|].
      intros a s' _ _ (-> & u & e & ->). apply lucky_ret. auto.
    - apply (lucky_bind_tree s (fun x s' => x = true /\ exists u e, s' = set_source u e s)); auto; [apply lucky_gate; auto|apply Qlt_le_weak; auto|].
      intros a s' _ Hs' (-> & u & e & ->). unfold mutate_child. eapply calm_bind with (a := heap s r) (s' := set_source u e s); [intros t0 e0; reflexivity|]. rewrite Hx. cbn [combi_mutation].
      unfold movement, two_idx.
      apply (lucky_then _ (fun x s' => x = move_gene i j X /\ exists u e, s' = set_source u e s)); auto.
      + apply tr_bind; [|intros; apply tr_ret]. apply tr_bind; [apply tr_sample|]. intros a. destruct a as [|y [|z [|w a]]]; first [apply tr_raise|apply tr_ret].
      + intros. apply tr_modify.
      + apply (lucky_then _ (fun x s' => x = (i, j) /\ exists u e, s' = set_source u e s)); auto.
        * apply tr_bind; [apply tr_sample|]. intros a. destruct a as [|y [|z [|w a]]]; first [apply tr_raise|apply tr_ret].
        * intros. apply tr_ret.
        * assert (Ev := even_sample (zrange 0 (zlen X)) 2 ltac:(rewrite zrange_length_Z; unfold zlen; lia)).
          apply (lucky_then _ (fun x s' => x = [i; j] /\ exists u e, s' = set_source u e s)); auto; [apply tr_sample| | |].
          -- intros a. destruct a as [|y [|z [|w a]]]; first [apply tr_raise|apply tr_ret].
          -- eapply lucky_weaken; [eapply lucky_impl; [apply (lucky_even zs_eqb _ _ _ [i; j] Ev); [apply rc_sample|apply zs_eqb_ok|]|]|].
             ++ apply (arrangements_intro [i; j]); [|intros x [<-|[<-|[]]]; apply in_zrange; unfold zlen; lia]. constructor; [intros [E|[]]; lia|]. constructor; [intros []|constructor].
             ++ intros x s' _ (-> & u' & e' & ->). split; auto. exists u', e'. reflexivity.
             ++ rewrite arrangements_count, zrange_length. unfold zlen. rewrite Z.sub_0_r, Nat2Z.id, Hl. apply Qle_refl.
          -- intros a s' _ _ (-> & u' & e' & ->). apply lucky_ret. eauto.
        * intros a s' _ _ (-> & u' & e' & ->). apply lucky_ret. cbn [fst snd]. eauto.
      + intros a s' _ _ (-> & u' & e' & ->). 
        eapply lk_done with (a := tt) (s' := match modify r (set_genotype (move_gene i j X)) s with Ok _ y => y | _ => s end); [intros t0 e0; reflexivity| |apply Qle_refl].
        unfold modify. cbn [heap set_heap]. unfold upd. rewrite Nat.eqb_refl. split; auto. intros x Nx. apply Nat.eqb_neq in Nx. rewrite Nx. reflexivity.
  Qed.
  Lemma mutation_lucky : forall level g len X Y, (0 <= g)%Q -> (g <= gate level)%Q -> (g <= 1 - gate level)%Q -> length X = len -> (2 <= len)%nat -> one_move X Y ->
    forall cs s, NoDup cs -> Forall (fun c => genotype (heap s c) = X) cs -> rnd_seed s = None ->
    lucky s (fun _ s' => Forall (fun c => genotype (heap s' c) = Y) cs /\ forall x, ~ In x cs -> heap s' x = heap s x) (miter (combi_child Movement level) cs) (qpow (move_luck g len) (length cs)).
  Proof.
    intros level g len X Y Hg H1 H2 Hl Hl2 Mv cs. assert (Ml : (0 <= move_luck g len)%Q).
    { unfold move_luck. assert (0 < falling len 2)%nat by (apply falling_pos; lia). pose proof (inv_nat_pos _ H). apply Qmult_le_0_compat; auto. apply Qlt_le_weak; auto. }
    assert (Tc : forall r, treelike (combi_child Movement level r)).
    { intros r. unfold combi_child. apply tr_bind; [unfold determines_mutation; apply tr_bind; [apply tr_randint|intros; apply tr_ret]|]. intros []; [|apply tr_ret]. apply tr_mutate_child. intros x. cbn [combi_mutation].
      unfold movement, two_idx. apply tr_bind; [|intros; apply tr_ret]. apply tr_bind; [apply tr_sample|]. intros a. destruct a as [|y [|z [|w a]]]; first [apply tr_raise|apply tr_ret]. }
    induction cs as [|c cs IH]; intros s Nd F Hs; cbn [miter length qpow]; [apply lucky_ret; split; auto|].
    inversion Nd as [|? ? Nc Nd']; subst. inversion F as [|? ? Ec F']; subst.
    apply (lucky_bind_tree s (fun _ s' => genotype (heap s' c) = Y /\ forall x, x <> c -> heap s' x = heap s x)); auto; [intros; apply tr_miter; auto|apply (lucky_mutant level g _ (genotype (heap s c))); auto|apply qpow_nonneg; auto|].
    intros a s' _ Hs' (Gc & Fr). eapply lucky_impl; [apply (IH s'); auto|].
    - rewrite Forall_forall in *. intros x Hx. rewrite Fr; [apply F'; auto|]. intros ->. auto.
    - intros b s'' _ (Fc & Fr'). split; [constructor; auto; rewrite Fr' by auto; auto|]. intros x Nx. rewrite Fr', Fr; auto; intros C; apply Nx; [left; auto|right; auto].
  Qed.
End TourLuck.
