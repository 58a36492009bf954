(** The main loop of CombinatoryGA: how likely it is to miss a given tour. *)
From Coq Require Import String.
From Coq Require Import ZArith QArith List Bool Lia Lqa Permutation.
From Verif Require Import Spec Num State Binary Population GaData Crossover Mutation Selection Penalty Fitness NewGeneration Driver
  ListLemmas Rnd Exec Laws PopulationProofs CrossoverProofs MutationProofs SelectionProofs VegaProofs
  NewGenProofs UpdateProofs FitnessProofs StepProofs RunProofs Runs DomainProofs SafetyProofs Fuelless SeedProofs ReachProofs
  Chance ChanceProofs SelChanceProofs PropSelChance PropMutChance ChanceRun ChanceRunProofs ConvergeProofs LuckProofs TourLuck TourSteps TourPaths.
Import ListNotations.
Open Scope list_scope.
Open Scope Z_scope.

(** A population has at most this many members. *)
Definition room (n m : Z) : nat := Z.to_nat (Z.max n m + 1).
(** With at least this probability a generation turns two given winners into [m] copies of
    a given neighbour of the child that order crossover makes of them: each of the 2m
    tournaments draws given competitors in a given order, each of the m crossovers draws
    given cuts and keeps the first child, each of the m mutations makes a given move. *)
Definition generation_chance (n t m k : Z) (g : Q) : Q :=
  (qpow (/ inject_Z (Z.of_nat (room n m ^ Z.to_nat t)) * / inject_Z (Z.of_nat (room n m ^ Z.to_nat t))) (Z.to_nat m) *
   (qpow (cut_luck (Z.to_nat k)) (Z.to_nat m) * qpow (move_luck g (Z.to_nat k)) (Z.to_nat m)))%Q.
(** A tour of length [k] leads to any other in this many generations. *)
Definition path_length (k : Z) : nat := S (2 * Z.to_nat k).

Section TourRun.
  Context {NO : NumOps}.
  Variable ok : num -> Prop.
  Variable NL : NumOrder NO ok.
  Variables (Y : list gv -> bool) (n0 : nat).
  (** The settings: tournament size, children, individuals, level, tours. *)
  Variables (t m n : Z) (level : num) (g : Q) (a b k : Z) (z : list gv).
  Hypothesis Ht : 2 <= t <= m.
  Hypothesis Hg : (0 <= g)%Q.
  Hypothesis Hg1 : (g <= gate level)%Q.
  Hypothesis Hg2 : (g <= 1 - gate level)%Q.
  Hypothesis Hk : 3 <= k.
  Hypothesis Hlen : forall x, in_domain (GenOrd a b k) x -> length x = Z.to_nat k.
  Hypothesis Hhop : forall x, in_domain (GenOrd a b k) x -> hops (Z.to_nat k) (2 * Z.to_nat k) x z.
  Hypothesis HY : Y z = true.
  Variable fuel : nat.

  Local Notation B := (room n m).
  Local Notation w := (generation_chance n t m k g).
  Local Notation W := (worth Y n0 1 0 0).
  Local Notation T := (path_length k).

  Record live (j : nat) (c : comps) (gd : gadata) (s : st) : Prop := {
    lv_going : going ok c gd s;
    lv_seed : rnd_seed s = None;
    lv_sel : c_selection c = SelTournament t;
    lv_cross : c_crossover c = Order;
    lv_mut : c_mutation c = MutCombi Movement level;
    lv_pairs : pairs_of gd m;
    lv_spec : gspec_of (population gd) = GenOrd a b k;
    lv_steady : steady (c_fitness c) (in_domain (GenOrd a b k));
    lv_log : (n0 <= length (log s))%nat;
    lv_size : (length (members (population gd)) <= B)%nat;
    lv_num : num_individ (population gd) = n;
    lv_stop : exists e, early_stop gd = Some e /\ Z.max 0 (no_improve gd) + Z.of_nat j <= e
  }.

  Lemma live_step : forall j c gd s c' gd' s', live (S j) c gd s -> arises (ga_step (S fuel) c gd) s (Ok (c', gd') s') ->
    live j c' gd' s' /\ should_stop gd' = ret false /\ exists calls, log s' = calls ++ log s.
  Proof.
    intros j c gd s c' gd' s' [G Hs L1 L2 L3 L4 L5 L6 L7 L8 L9 (e & Es & Le)] A.
    destruct (A (tape s') (ent s')) as (t0 & e0 & R). cbn [with_source] in R. rewrite source_same in R.
    pose proof (going_source _ _ _ _ t0 e0 G) as Gx. pose proof (going_step _ _ _ _ _ _ _ _ NL Gx R) as G'.
    pose proof Gx as (GIx & Si & Gs & Rd & Pi & Hn & _). pose proof Si as (Fk & Ng & Ho).
    destruct (step_ok ok _ c gd _ c' gd' s' NL Gs Fk Ng Ho GIx R) as (kids & els & h & cs & l0 & bst & md & wr & St & _).
    destruct (st_params _ _ _ _ _ _ _ _ _ _ _ _ _ _ St) as (_ & Ee & Ec). pose proof (st_best _ _ _ _ _ _ _ _ _ _ _ _ _ _ St) as Bs.
    assert (Nn : no_improve gd' <= Z.max 0 (no_improve gd) + 1).
    { unfold best_after in Bs. destruct (best_solution gd); [inversion Bs; lia| |inversion Bs; lia]. destruct (sv_lt _ _); inversion Bs; lia. }
    pose proof (st_pop _ _ _ _ _ _ _ _ _ _ _ _ _ _ St) as Ep. pose proof (st_log _ _ _ _ _ _ _ _ _ _ _ _ _ _ St) as El. cbn [log set_source set_ent set_tape] in El.
    destruct (st_comps _ _ _ _ _ _ _ _ _ _ _ _ _ _ St) as (m' & -> & Em). rewrite L3 in Em. subst m'.
    assert (Lk : length kids = Z.to_nat m).
    { pose proof (st_count _ _ _ _ _ _ _ _ _ _ _ _ _ _ St) as Nc. rewrite L1 in Nc. cbn in Nc. destruct Nc as (x & Hx & ->). unfold pairs_of in L4. cbn in Hx. f_equal. congruence. }
    split; [|split].
    - constructor; auto.
      + eapply arises_seedless; [apply tr_ga_step|exact Hs|exact A].
      + unfold pairs_of in *. rewrite Ep, Ec. cbn [num_individ set_sorted set_members]. exact L4.
      + rewrite Ep. exact L5.
      + rewrite El, app_length. lia.
      + destruct (st_members _ _ _ _ _ _ _ _ _ _ _ _ _ _ St) as [_ Pm]. rewrite (Permutation_length Pm), app_length, Lk.
        destruct (st_taken _ _ _ _ _ _ _ _ _ _ _ _ _ _ St) as (s1 & _ & Tk). rewrite Lk in Tk. apply taken_length in Tk; [|lia]. rewrite Tk, L9. unfold room.
        destruct (Z.ltb_spec 0 (n - Z.of_nat (Z.to_nat m))); lia.
      + rewrite Ep. exact L9.
      + exists e. split; [congruence|]. lia.
    - unfold should_stop. rewrite Ee, Es. destruct (Z.ltb_spec e (no_improve gd')); [lia|reflexivity].
    - eauto.
  Qed.
  Lemma loop_lucky : forall j c gd s (P : comps * gadata -> st -> Prop) v v1 w0, live (S j) c gd s -> lucky s P (ga_step (S fuel) c gd) w0 ->
    (forall c' gd' s' calls, live j c' gd' s' -> log s' = calls ++ log s -> at_most s' W (ga_loop (S fuel) j c' gd') v) ->
    (forall c' gd' s' calls, live j c' gd' s' -> log s' = calls ++ log s -> P (c', gd') s' -> at_most s' W (ga_loop (S fuel) j c' gd') v1) ->
    (0 <= v)%Q -> (v1 <= v)%Q -> at_most s W (ga_loop (S fuel) (S j) c gd) (v - w0 * (v - v1)).
  Proof.
    intros j c gd s P v v1 w0 L Lu F0 F1 Hv H1. cbn [ga_loop]. apply (lucky_bind_bound s P); auto.
    - intros [c' gd'] s' A. destruct (live_step j c gd s c' gd' s' L A) as (L' & Sp & calls & El). cbn [fst snd]. rewrite Sp.
      destruct (F0 c' gd' s' calls L' El) as (p & X & Lp). exists p. split; [eapply expects_same; [exact X|]; reflexivity|auto].
    - intros [c' gd'] s' A Pa. destruct (live_step j c gd s c' gd' s' L A) as (L' & Sp & calls & El). cbn [fst snd]. rewrite Sp.
      destruct (F1 c' gd' s' calls L' El Pa) as (p & X & Lp). exists p. split; [eapply expects_same; [exact X|]; reflexivity|auto].
  Qed.
  Definition always (j : nat) (v : Q) : Prop := forall c gd s, live j c gd s -> at_most s W (ga_loop (S fuel) j c gd) v.
  Lemma longer : forall v i j, (0 <= v)%Q -> always j v -> always (i + j) v.
  Proof.
    intros v i j Hv H. induction i as [|i IH]; auto. intros c gd s L. cbn [Nat.add].
    destruct (loop_lucky (i + j) c gd s (fun _ _ => False) v v 0 L) as (p & X & Lp); [| |intros; contradiction|exact Hv|lra|].
    - apply lk_none; [|apply Qle_refl]. apply tr_ga_step. apply L.
    - intros c' gd' s' calls L' _. apply IH; auto.
    - exists p. split; [exact X|lra].
  Qed.
  Lemma seen_already : forall j c gd s, live j c gd s -> seen Y n0 s = true -> at_most s W (ga_loop (S fuel) j c gd) 0.
  Proof.
    induction j as [|j IH]; intros c gd s L Se.
    - cbn [ga_loop]. exists 0%Q. split; [|apply Qle_refl]. apply ex_done with (o := Ok (c, gd) s); [reflexivity|]. cbn [worth]. unfold unseen. rewrite Se. reflexivity.
    - destruct (loop_lucky j c gd s (fun _ _ => False) 0 0 0 L) as (p & X & Lp); [| |intros; contradiction|lra|lra|].
      + apply lk_none; [|apply Qle_refl]. apply tr_ga_step. apply L.
      + intros c' gd' s' calls L' El. apply IH; auto. rewrite (seen_more Y n0 _ _ _ (lv_log _ _ _ _ L) El), Se. apply orb_true_r.
      + exists p. split; [exact X|lra].
  Qed.
  Lemma w_range : (0 <= w <= 1)%Q.
  Proof.
    assert (Bp : (0 < B ^ Z.to_nat t)%nat) by (apply Nat.neq_0_lt_0, Nat.pow_nonzero; unfold room; lia).
    pose proof (inv_nat_pos _ Bp) as P1. pose proof (inv_nat_one _ Bp) as P2.
    assert (C : (0 <= cut_luck (Z.to_nat k) <= 1)%Q).
    { unfold cut_luck. assert (F : (0 < falling (Z.to_nat k - 1) 2)%nat) by (apply falling_pos; lia). pose proof (inv_nat_pos _ F). pose proof (inv_nat_one _ F). change (/ inject_Z (Z.of_nat 2))%Q with (1 # 2)%Q. split; lra. }
    assert (M : (0 <= move_luck g (Z.to_nat k) <= 1)%Q).
    { unfold move_luck. assert (F : (0 < falling (Z.to_nat k) 2)%nat) by (apply falling_pos; lia). pose proof (inv_nat_pos _ F). pose proof (inv_nat_one _ F). split; [apply Qmult_le_0_compat; lra|].
      apply Qle_trans with (g * 1)%Q; [rewrite !(Qmult_comm g); apply Qmult_le_compat_r; auto|lra]. }
    assert (U : forall x y, (0 <= x <= 1)%Q -> (0 <= y <= 1)%Q -> (0 <= x * y <= 1)%Q).
    { intros x y [X0 X1] [Y0 Y1]. split; [apply Qmult_le_0_compat; auto|]. apply Qle_trans with (1 * y)%Q; [apply Qmult_le_compat_r; auto|lra]. }
    assert (V : forall x i, (0 <= x <= 1)%Q -> (0 <= qpow x i <= 1)%Q) by (intros x i X; induction i as [|i IH]; cbn [qpow]; [lra|apply U; auto]).
    unfold generation_chance. apply U; [|apply U; apply V; auto]. apply V, U; lra.
  Qed.
  Lemma w_small : forall size, (0 < size)%nat -> (Z.to_nat t <= size)%nat -> (size <= B)%nat -> (w <= step_luck g (Z.to_nat k) size t m)%Q.
  Proof.
    intros size H0 H1 H2. unfold generation_chance, step_luck. apply Qmult_le_compat_r.
    - assert (F : (0 < falling size (Z.to_nat t))%nat) by (apply falling_pos; lia). pose proof (falling_le (Z.to_nat t) size) as L1. assert (L2 : (size ^ Z.to_nat t <= B ^ Z.to_nat t)%nat) by (apply Nat.pow_le_mono_l; auto).
      assert (L : (/ inject_Z (Z.of_nat (B ^ Z.to_nat t)) <= / inject_Z (Z.of_nat (falling size (Z.to_nat t))))%Q) by (apply inv_nat_le; lia).
      assert (Bp : (0 < B ^ Z.to_nat t)%nat) by lia. pose proof (inv_nat_pos _ Bp) as P1. apply qpow_le; [apply Qmult_le_0_compat; lra|]. unfold pair_luck.
      revert L P1. generalize (/ inject_Z (Z.of_nat (B ^ Z.to_nat t)))%Q (/ inject_Z (Z.of_nat (falling size (Z.to_nat t))))%Q. intros u u' L P1. nra.
    - apply Qmult_le_0_compat; apply qpow_nonneg.
      + unfold cut_luck. assert (F : (0 < falling (Z.to_nat k - 1) 2)%nat) by (apply falling_pos; lia). pose proof (inv_nat_pos _ F). change (/ inject_Z (Z.of_nat 2))%Q with (1 # 2)%Q. lra.
      + unfold move_luck. assert (F : (0 < falling (Z.to_nat k) 2)%nat) by (apply falling_pos; lia). pose proof (inv_nat_pos _ F). apply Qmult_le_0_compat; lra.
  Qed.
  (** One generation from two winners to copies of one tour. *)
  Lemma live_lucky : forall j c gd s r1 r2 X, live j c gd s -> contested s t (members (population gd)) r1 r2 ->
    one_move (cut_child (Z.to_nat k) (genotype (heap s r1)) (genotype (heap s r2))) X ->
    lucky s (fun r s' => flooded X (Z.to_nat m) (snd r) s' /\ exists calls v, log s' = calls ++ log s /\ In (X, v) calls) (ga_step (S fuel) c gd) w.
  Proof.
    intros j c gd s r1 r2 X L Ct Mv. pose proof L as [G Hs L1 L2 L3 L4 L5 L6 L7 L8 L9 _]. pose proof G as (_ & _ & _ & Rd & _ & Hn & _).
    destruct (rd_sel _ _ _ Rd) as (t' & Et' & Ht'). assert (t' = t) by congruence. subst t'.
    eapply lucky_weaken; [eapply (step_lucky ok NL fuel c gd s t m r1 r2 level g a b k); eauto; lia|]. apply w_small; auto; lia.
  Qed.
  Lemma chain : forall v j, (0 <= v)%Q -> always j v -> forall i X x, hops (Z.to_nat k) i X x -> x = z -> forall c gd s, live (i + j) c gd s -> flooded X (Z.to_nat m) gd s ->
    (i = O -> seen Y n0 s = true) -> at_most s W (ga_loop (S fuel) (i + j) c gd) (v * (1 - qpow w i)).
  Proof.
    intros v j Hv H i X x Hh. induction Hh as [X|i X X' x Mv Hh IH]; intros -> c gd s L Fl Se.
    - destruct (seen_already j c gd s L (Se eq_refl)) as (p & E & Lp). exists p. split; [exact E|cbn [qpow]; lra].
    - pose proof L as [G _ _ _ _ _ _ _ Hlog _ _ _].
      destruct (flooded_contested ok NL c gd s t X (Z.to_nat m) G ltac:(lia) Fl) as (r1 & r2 & Ct & E1 & E2).
      assert (Mv' : one_move (cut_child (Z.to_nat k) (genotype (heap s r1)) (genotype (heap s r2))) X') by (rewrite E1, E2; exact Mv).
      pose proof w_range as Wr. assert (Qr : (0 <= qpow w i)%Q) by (apply qpow_nonneg; tauto).
      assert (Vq : (0 <= v * qpow w i)%Q) by (apply Qmult_le_0_compat; auto).
      destruct (loop_lucky (i + j) c gd s _ v (v * (1 - qpow w i)) w L (live_lucky _ c gd s r1 r2 X' L Ct Mv')) as (p & E & Lp); [| |exact Hv| |].
      + intros c' gd' s' calls L' _. apply longer; auto.
      + intros c' gd' s' calls L' El (Fl' & calls' & v' & El' & Iv). apply IH; auto. intros ->. inversion Hh; subst.
        rewrite (seen_more Y n0 _ _ _ Hlog El'). apply orb_true_iff. left. apply existsb_exists. exists (z, v'). auto.
      + lra.
      + exists p. split; [exact E|]. cbn [qpow]. lra.
  Qed.
  Lemma block : forall v j, (0 <= v)%Q -> always j v -> always (T + j) (v * (1 - qpow w T)).
  Proof.
    intros v j Hv H c gd s L. unfold path_length in *. cbn [Nat.add] in *. pose proof w_range as Wr.
    assert (Qr : forall i, (0 <= qpow w i <= 1)%Q). { intros i. split; [apply qpow_nonneg; tauto|]. induction i as [|i IH]; cbn [qpow]; [lra|]. assert (0 <= qpow w i)%Q by (apply qpow_nonneg; tauto). apply Qle_trans with (1 * qpow w i)%Q; [apply Qmult_le_compat_r; tauto|lra]. }
    assert (Vp : (0 <= v * (1 - qpow w (S (2 * Z.to_nat k))))%Q) by (apply Qmult_le_0_compat; auto; specialize (Qr (S (2 * Z.to_nat k))); lra).
    pose proof L as [G Hs L1 L2 L3 L4 L5 L6 L7 L8 L9 _].
    destruct (contested_dec s t (members (population gd))) as [(r1 & r2 & Ct)|No].
    - set (X := cut_child (Z.to_nat k) (genotype (heap s r1)) (genotype (heap s r2))).
      assert (Vq : (0 <= v * qpow w (2 * Z.to_nat k))%Q) by (apply Qmult_le_0_compat; auto; apply Qr).
      destruct (loop_lucky (2 * Z.to_nat k + j) c gd s _ v (v * (1 - qpow w (2 * Z.to_nat k))) w L (live_lucky _ c gd s r1 r2 X L Ct (or_introl eq_refl))) as (p & E & Lp); [| |exact Hv| |].
      + intros c' gd' s' calls L' _. apply longer; auto.
      + intros c' gd' s' calls L' El (Fl' & _). eapply chain; eauto; [|lia]. apply Hhop.
        destruct Fl' as (kids & x & _ & Lk & Ik & K). destruct kids as [|r kids]; [cbn in Lk; lia|]. pose proof L' as [(_ & _ & _ & _ & Pi & _) _ _ _ _ _ E5 _ _ _ _ _].
        specialize (Pi r (Ik r (or_introl eq_refl))). destruct (K r (or_introl eq_refl)) as [Er _]. rewrite E5, Er in Pi. exact Pi.
      + lra.
      + exists p. split; [exact E|]. cbn [qpow]. lra.
    - cbn [ga_loop]. destruct (am_bind s (worth Y n0 1 0 0 : outcome (comps * gadata)%type -> Q) (ga_step (S fuel) c gd) (fun r => stop <- should_stop (snd r);; if stop then ret r else ga_loop (S fuel) (2 * Z.to_nat k + j) (fst r) (snd r)) (fun _ _ => 0%Q) 0) as (p & E & Lp).
      + apply tree_bound; auto; [apply tr_ga_step|]. intros o _. destruct o; cbn; apply Qle_refl.
      + intros [c' gd'] s' A. exfalso. destruct (A (tape s') (ent s')) as (t0 & e0 & R). unfold ga_step in R. bd R gd1 s1 R1.
        destruct (selection_contested ok NL (S fuel) c gd (set_source t0 e0 s) t m gd1 s1 (going_source _ _ _ _ t0 e0 G) L1 L4 R1) as (r1 & r2 & Ct).
        destruct Ct as (tr1 & tr2 & I1 & I2 & W1 & W2 & Nr). apply (No r1 r2). exists tr1, tr2. split; auto. split; auto.
        assert (Wn : forall tr, In tr (tours_of t (members (population gd))) -> winner (set_source t0 e0 s) None (members (population gd)) tr = winner s None (members (population gd)) tr).
        { intros tr I. destruct (tours_range t _ tr ltac:(lia) I) as [Nt Rg]. apply winner_same; auto. intros r Hr. split; auto. destruct (gi_settled _ _ _ (proj1 G) r Hr) as [(x & Ex & _) _]. eauto. }
        rewrite <- !Wn by auto. auto.
      + exists p. split; [exact E|]. lra.
  Qed.
  Lemma blocks : forall q r, always (q * T + r) (qpow (1 - qpow w T) q).
  Proof.
    pose proof w_range as Wr. intros q r. induction q as [|q IH]; cbn [Nat.mul Nat.add qpow].
    - intros c gd s L. apply tree_bound; [apply tr_ga_loop|apply L|]. intros o _. destruct o; cbn [worth]; [|lra|lra]. cbn [worth]. destruct (unseen_bounds Y n0 s0). lra.
    - rewrite <- Nat.add_assoc.
      assert (Qr : (0 <= 1 - qpow w T)%Q). { assert (Q1 : forall i, (qpow w i <= 1)%Q). { induction i as [|i IHi]; cbn [qpow]; [lra|]. assert (0 <= qpow w i)%Q by (apply qpow_nonneg; tauto). apply Qle_trans with (1 * qpow w i)%Q; [apply Qmult_le_compat_r; tauto|lra]. } specialize (Q1 T). lra. }
      intros c gd s L. destruct (block (qpow (1 - qpow w T) q) (q * T + r) (qpow_nonneg _ _ Qr) IH c gd s L) as (p & E & Lp). exists p. split; [exact E|lra].
  Qed.
End TourRun.
