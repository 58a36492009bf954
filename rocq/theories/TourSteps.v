(** Generations of CombinatoryGA after which enough members are one given tour, and the
    chain of such generations that leads to any tour. *)
From Coq Require Import String.
From Coq Require Import ZArith QArith List Bool Lia Lqa Permutation.
From Verif Require Import Spec Num State Binary Population GaData Crossover Mutation Selection Penalty Fitness NewGeneration Driver
  ListLemmas Rnd Exec Laws PopulationProofs CrossoverProofs MutationProofs SelectionProofs VegaProofs
  NewGenProofs UpdateProofs FitnessProofs StepProofs RunProofs Runs DomainProofs SafetyProofs Fuelless SeedProofs ReachProofs
  Chance ChanceProofs SelChanceProofs PropSelChance PropMutChance ChanceRun ChanceRunProofs ConvergeProofs LuckProofs TourLuck.
Import ListNotations.
Open Scope list_scope.
Open Scope Z_scope.

(** *** Positions *)
Lemma positions : forall (l ks : list nat), incl ks l -> exists ps, Forall2 (fun p r => 0 <= p < Z.of_nat (length l) /\ nth_error l (Z.to_nat p) = Some r) ps ks.
Proof.
  intros l ks. induction ks as [|r ks IH]; intros H; [exists []; constructor|].
  destruct (IH (fun x Hx => H x (or_intror Hx))) as (ps & F). destruct (In_nth_error l r (H r (or_introl eq_refl))) as (p & E).
  exists (Z.of_nat p :: ps). constructor; auto. rewrite Nat2Z.id. split; auto.
  assert (p < length l)%nat by (apply nth_error_Some; congruence). lia.
Qed.
Lemma positions_distinct : forall (l ks : list nat) ps, Forall2 (fun p r => 0 <= p < Z.of_nat (length l) /\ nth_error l (Z.to_nat p) = Some r) ps ks -> NoDup ks -> NoDup ps.
Proof.
  intros l ks ps F. induction F as [|p r ps ks [_ E] F IH]; intros Nd; [constructor|]. inversion Nd as [|? ? Nr Nd']; subst. constructor; auto.
  intros Ip. apply Nr. clear - E F Ip. induction F as [|p' r' ps ks [_ E'] F IH]; [destruct Ip|]. destruct Ip as [->|Ip]; [left; congruence|right; auto].
Qed.

Section TourSteps.
  Context {NO : NumOps}.

  Lemma lucky_bind_bound : forall {A B} s (P : A -> st -> Prop) m w (k : A -> M B) (f : outcome B -> Q) c0 c1, lucky s P m w ->
    (forall a s', arises m s (Ok a s') -> at_most s' f (k a) c0) -> (forall a s', arises m s (Ok a s') -> P a s' -> at_most s' f (k a) c1) ->
    (forall e, f (Err e) <= c0)%Q -> (f NoFuel <= c0)%Q -> (c1 <= c0)%Q -> at_most s f (bind m k) (c0 - w * (c0 - c1)).
  Proof.
    intros A B s P m w k f c0 c1 H. induction H as [m q Pl Hq|m a s1 q Hm Pa Hq|m n mk r q Hn Hm Hr IH Hq|m mn q Hm H IH]; intros F0 F1 Fe Fn L.
    - destruct (am_bind s f m k (fun _ _ => c0) c0) as (p & E & Lp); auto.
      + apply plain_bound; auto. intros o _. destruct o; auto. apply Qle_refl.
      + exists p. split; auto. assert (q * (c0 - c1) <= 0 * (c0 - c1))%Q by (apply Qmult_le_compat_r; lra). lra.
    - assert (Ar : arises m s (Ok a s1)) by (apply arises_done; exact Hm). destruct (F1 a s1 Ar Pa) as (p & E & Lp). exists p. split.
      + eapply expects_same; [exact E|]. intros t e. unfold bind. rewrite Hm. reflexivity.
      + assert (q * (c0 - c1) <= 1 * (c0 - c1))%Q by (apply Qmult_le_compat_r; lra). lra.
    - destruct (finite_choice (below n) (fun d x => expects s f (bind (mk d) k) x /\ x <= c0 - r d * (c0 - c1))%Q) as (r' & R').
      { intros d Hd. apply below_in in Hd. apply IH; auto; [intros a s' Ho; apply F0|intros a s' Ho; apply F1]; eapply arises_draw; eauto. }
      exists (mean (map r' (below n))). split.
      + eapply (ex_draw s f (bind m k) n (fun d => bind (mk d) k)); [exact Hn|intros t e; unfold bind; rewrite Hm; reflexivity| |reflexivity]. intros d Hd. apply R'. apply below_in. auto.
      + apply Qle_trans with (mean (map (fun d => - (c0 - c1) * r d + c0) (below n)))%Q.
        * apply mean_le. intros d Hd. destruct (R' d Hd) as [_ X]. lra.
        * rewrite (mean_affine r (- (c0 - c1)) c0 (below n) (below_nonempty n Hn)).
          assert (q * (c0 - c1) <= mean (map r (below n)) * (c0 - c1))%Q by (apply Qmult_le_compat_r; auto; lra). lra.
    - destruct IH as (p & E & Lp); auto; [intros a s' Ho; apply F0|intros a s' Ho; apply F1|]; try (eapply arises_seed; eauto). exists p. split; auto.
      eapply (ex_seed s f (bind m k) (bind mn k)); eauto. intros t e. unfold bind. rewrite Hm. reflexivity.
  Qed.

  (** *** Equal scores *)
  (** The objective answers equal points alike. *)
  Definition steady (f : fitness) (D : list gv -> Prop) : Prop := forall k k' pt v v', D pt -> called f k pt = inr v -> called f k' pt = inr v' -> v = v'.
  Lemma assess_alike : forall f gen best v i i' j j', fkind f = Hyperbola -> assess f gen best v i = inr j -> assess f gen best v i' = inr j' -> score j = score j'.
  Proof.
    intros f gen best v i i' j j' Fk H H'. unfold assess, get_fitness_score in *. rewrite Fk in *. destruct (check_input f v) as [|cv]; [discriminate|].
    destruct (is_conditional f).
    - destruct cv; try discriminate. destruct (fpenalty f); [|discriminate]. destruct (take_obj_score f l) as [|ov]; [discriminate|].
      destruct (violates _ _) as [|bad]; [discriminate|]. destruct (penalty_execute _ _ _ _ _) as [|pen]; [discriminate|].
      assert (O : forall i, obj_score (if bad then set_feasible false (set_obj_score_f (fst ov) i) else set_obj_score_f (fst ov) i) = fst ov) by (intros; destruct bad; reflexivity).
      rewrite O in H, H'. destruct (obj_value f) as [|t|]; destruct (fst ov); try discriminate; [|destruct (hyper _ _ _); try discriminate]; inversion H; inversion H'; reflexivity.
    - cbn [obj_score set_obj_score_f] in *. destruct (obj_value f) as [|t|]; destruct cv; try discriminate; [|destruct (hyper _ _ _); try discriminate]; inversion H; inversion H'; reflexivity.
  Qed.

  (** *** One generation *)
  (** [m] members, made in this generation, are the tour [Y], with one score. *)
  Definition flooded (Y : list gv) (m : nat) (gd : gadata) (s : st) : Prop :=
    exists kids x, NoDup kids /\ length kids = m /\ incl kids (members (population gd)) /\ forall r, In r kids -> genotype (heap s r) = Y /\ score (heap s r) = SV1 x.
  Definition step_luck (g : Q) (len : nat) (size : nat) (t m : Z) : Q :=
    (qpow (pair_luck size t) (Z.to_nat m) * (qpow (cut_luck len) (Z.to_nat m) * qpow (move_luck g len) (Z.to_nat m)))%Q.
  Lemma step_lucky : forall ok, NumOrder NO ok -> forall fuel c gd s t m r1 r2 level g a b k len Y,
    going ok c gd s -> rnd_seed s = None -> c_selection c = SelTournament t -> c_crossover c = Order -> c_mutation c = MutCombi Movement level -> pairs_of gd m ->
    gspec_of (population gd) = GenOrd a b k -> (forall x, in_domain (GenOrd a b k) x -> length x = len) -> (3 <= len)%nat -> steady (c_fitness c) (in_domain (GenOrd a b k)) ->
    (0 <= g)%Q -> (g <= gate level)%Q -> (g <= 1 - gate level)%Q ->
    contested s t (members (population gd)) r1 r2 -> one_move (cut_child len (genotype (heap s r1)) (genotype (heap s r2))) Y ->
    lucky s (fun r s' => flooded Y (Z.to_nat m) (snd r) s' /\ exists calls v, log s' = calls ++ log s /\ In (Y, v) calls) (ga_step (S fuel) c gd)
      (step_luck g len (length (members (population gd))) t m).
  Proof.
    intros ok NL fuel c gd s t m r1 r2 level g a b k len Y G Hs Et Ec Em Pm Eg Dl Hl Sd Hg G1 G2 Ct Mv. pose proof G as (Gi & Si & Gs & Rd & Pi & Hn & Hge & Hbe & He).
    unfold step_luck, ga_step.
    set (X := cut_child len (genotype (heap s r1)) (genotype (heap s r2))) in *. set (l := members (population gd)) in *.
    destruct (rd_sel _ _ _ Rd) as (t' & Et' & Ht). assert (t' = t) by congruence. subst t'.
    destruct (rd_pairs _ _ _ Rd) as (m' & Em' & Hm). unfold pairs_of in Pm. assert (m' = m) by congruence. subst m'. clear Em'.
    assert (Cp : (0 <= cut_luck len)%Q).
    { unfold cut_luck. assert (F : (0 < falling (len - 1) 2)%nat) by (apply falling_pos; lia). pose proof (inv_nat_pos _ F). apply Qmult_le_0_compat; [apply Qlt_le_weak; auto|discriminate]. }
    assert (Mp : (0 <= move_luck g len)%Q).
    { unfold move_luck. assert (F : (0 < falling len 2)%nat) by (apply falling_pos; lia). pose proof (inv_nat_pos _ F). apply Qmult_le_0_compat; auto. apply Qlt_le_weak; auto. }
    assert (Tt : forall m3 gd2, treelike (gd3 <- newgen_execute (c_newgen c) gd2 ;; fitness_execute (c_fitness c) gd3 ;;; gd4 <- update gd3 ;; ret (set_mutation m3 c, gd4))).
    { intros. repeat (apply tr_bind; [|intros ?]); [apply tr_newgen|apply tr_fitness_execute|apply tr_update|apply tr_ret]. }
    apply (lucky_bind_tree s (fun gd1 s1 => population gd1 = population gd /\ alternate (genotype (heap s r1)) (genotype (heap s r2)) (Z.to_nat m) gd1 s1)); auto.
    { apply tr_selection_execute. }
    { intros. apply tr_bind; [apply tr_crossover_execute|]. intros. apply tr_bind; [apply tr_mutation_execute|]. intros. apply Tt. }
    { apply (selection_lucky ok NL); auto. }
    { apply Qmult_le_0_compat; apply qpow_nonneg; auto. }
    intros gd1 s1 A1 Hs1 (Ep1 & Al1).
    assert (If : exists first rest, members (population gd1) = first :: rest /\ length (genotype (heap s1 first)) = len).
    { destruct (A1 (tape s1) (ent s1)) as (t1 & e1 & E1). cbn [with_source] in E1. rewrite source_same in E1.
      pose proof (going_source _ _ _ _ t1 e1 G) as (Gx & Sx & _). apply selection_ok in E1; [|apply Gx|apply Sx]. destruct E1 as (((Nx1 & L1 & S1 & P1 & C1) & T1) & a1 & n1 & _ & E1 & _).
      rewrite Ep1. destruct (members (population gd)) as [|f0 rest] eqn:E0; [cbn in Hn; unfold l in Hn; cbn in Hn; lia|]. exists f0, rest. split; auto.
      assert (I0 : In f0 (members (population gd))) by (rewrite E0; left; auto).
      destruct (C1 f0 (gi_alloc _ _ _ Gx f0 I0)) as (Eq & _). rewrite <- Eq. cbn [heap set_source set_ent set_tape]. apply Dl. rewrite <- Eg. apply (Pi f0 I0). }
    destruct If as (first & rest & E0 & L0).
    apply (lucky_bind_tree s1 (fun gd2 s2 => length (children gd2) = Z.to_nat m /\ Forall (fun r => genotype (heap s2 r) = X) (children gd2))); auto.
    { apply tr_crossover_execute. }
    { intros. apply tr_bind; [apply tr_mutation_execute|]. intros. apply Tt. }
    { rewrite Ec. eapply crossover_lucky; eauto. }
    { apply qpow_nonneg; auto. }
    intros gd2 s2 A2 Hs2 (Lk & Fk).
    assert (Ch : NoDup (children gd2) /\ forall r, In r (children gd2) -> (next s <= r)%nat).
    { destruct (A2 (tape s2) (ent s2)) as (t2 & e2 & E2). destruct (A1 t2 e2) as (t1 & e1 & E1). cbn [with_source] in E1, E2.
      pose proof (going_source _ _ _ _ t1 e1 G) as (Gx & Sx & _). apply selection_ok in E1; [|apply Gx|apply Sx]. destruct E1 as (((Nx1 & _) & T1) & a1 & n1 & _ & E1 & La1 & N1 & _).
      cbn [next set_source set_ent set_tape] in *.
      apply crossover_made in E2.
      2:{ rewrite E1. cbn. intros r Hr. apply (gi_alloc _ _ _ Gi) in Hr. lia. }
      2:{ rewrite E1. cbn [parents set_parents]. intros r Hr. apply in_seq in Hr. cbn. lia. }
      destruct E2 as (f0 & rs & n & _ & _ & -> & _). cbn [children set_children next set_source set_ent set_tape]. split; [apply seq_NoDup|]. intros r Hr. apply in_seq in Hr. lia. }
    destruct Ch as (Nd & Nw).
    assert (Lc : length X = len).
    { destruct (A2 (tape s2) (ent s2)) as (t2 & e2 & E2). destruct (A1 t2 e2) as (t1 & e1 & E1). cbn [with_source] in E1, E2. rewrite source_same in E2.
      destruct (first_child ok _ c gd _ _ _ _ _ (going_source _ _ _ _ t1 e1 G) E1 E2) as (_ & r & cs & Er & _ & _ & _ & Dc). rewrite Forall_forall in Fk. rewrite (Fk r) in Dc by (rewrite Er; left; auto).
      apply Dl. rewrite <- Eg. exact Dc. }
    apply (lucky_then s2 (fun _ s3 => Forall (fun r => genotype (heap s3 r) = Y) (children gd2))); auto.
    { apply tr_mutation_execute. }
    { rewrite Em. cbn [mutation_execute].
      apply (lucky_then s2 (fun _ s3 => Forall (fun r => genotype (heap s3 r) = Y) (children gd2))); auto; [apply tr_miter; intros r; unfold combi_child| | |].
      - apply tr_bind; [unfold determines_mutation; apply tr_bind; [apply tr_randint|intros; apply tr_ret]|]. intros []; [|apply tr_ret]. apply tr_mutate_child. intros x. cbn [combi_mutation].
        unfold movement, two_idx. apply tr_bind; [|intros; apply tr_ret]. apply tr_bind; [apply tr_sample|]. intros a0. destruct a0 as [|y [|z [|w a0]]]; first [apply tr_raise|apply tr_ret].
      - intros; apply tr_ret.
      - rewrite <- Lk. eapply lucky_impl; [apply (mutation_lucky level g len X Y); auto; lia|]. cbv beta. tauto.
      - intros u s3 _ _ F. apply lucky_ret. exact F. }
    intros m3 s3 A3 Hs3 F3. apply lucky_sure; [apply Tt; auto|]. intros o Ho.
    destruct o as [[c' gd'] s'|x|].
    - exists (c', gd'), s'. split; auto. cbn [snd].
      destruct (Ho (tape s') (ent s')) as (t4 & e4 & E4). destruct (A3 t4 e4) as (t3 & e3 & E3). destruct (A2 t3 e3) as (t2 & e2 & E2). destruct (A1 t2 e2) as (t1 & e1 & E1).
      cbn [with_source] in E1, E2, E3, E4. rewrite source_same in E4.
      pose proof (going_source _ _ _ _ t1 e1 G) as Gx. pose proof Gx as (GIx & Sx & Gsx & _). pose proof Sx as (Fkx & Ngx & Hox).
      assert (R : ga_step (S fuel) c gd (set_source t1 e1 s) = Ok (c', gd') s').
      { unfold ga_step. unfold bind at 1. rewrite E1. unfold bind at 1. rewrite E2. unfold bind at 1. rewrite E3. exact E4. }
      assert (Cs : forall r, In r (children gd2) -> In r (members (population gd')) /\ genotype (heap s' r) = Y).
      { intros r Hr. destruct (child_stays ok _ c gd _ c' gd' _ _ _ _ _ _ _ NL (proj1 (proj2 Gx)) (proj1 Gx) E1 E2 E3 R r Hr) as [Im Eq]. split; auto. rewrite Eq.
        rewrite Forall_forall in F3. apply F3; auto. }
      destruct (step_ok ok _ c gd _ c' gd' s' NL Gsx Fkx Ngx Hox GIx R) as (kids & els & h & cs & l0 & bst & md & wr & St & G').
      assert (Kd : forall r, In r (children gd2) -> In r kids).
      { intros r Hr. destruct (Cs r Hr) as [Im _]. destruct (st_members _ _ _ _ _ _ _ _ _ _ _ _ _ _ St) as [_ Pmm]. apply (Permutation_in _ Pmm), in_app_or in Im. destruct Im as [Im|Im]; auto. exfalso.
        destruct (st_els _ _ _ _ _ _ _ _ _ _ _ _ _ _ St) as (e0 & b0 & l1 & -> & El & Ie).
        assert (Ir : In r (members (population gd))). { apply in_app_or in Im. destruct Im as [Im|[<-|[]]]; [apply Ie; auto|rewrite El; apply in_or_app; right; left; auto]. }
        apply (gi_alloc _ _ _ Gi) in Ir. specialize (Nw r Hr). lia. }
      assert (As : forall r, In r (children gd2) -> exists v k', In (Y, v) cs /\ called (c_fitness c) k' Y = inr v /\ assess (c_fitness c) (idx_generation gd) (best_solution gd) v (h r) = inr (heap s' r)).
      { intros r Hr. destruct (assessed_in _ _ _ _ _ _ _ _ _ _ (st_eval _ _ _ _ _ _ _ _ _ _ _ _ _ _ St) (Kd r Hr)) as (v & k' & Ic & Cc & A).
        destruct (assess_keeps _ _ _ _ _ _ A) as (Eq & _). destruct (Cs r Hr) as [_ Eq']. assert (Ey : point (gspec_of (population gd)) (h r) = Y) by (rewrite Eg; unfold point; cbn; congruence).
        rewrite Ey in Ic, Cc. eauto. }
      assert (Dy : forall r, In r (children gd2) -> in_domain (GenOrd a b k) Y).
      { intros r Hr. destruct (Cs r Hr) as [Im Eq]. pose proof (going_step _ _ _ _ _ _ _ _ NL Gx R) as (_ & _ & _ & _ & Pi' & _).
        specialize (Pi' r Im). rewrite (st_pop _ _ _ _ _ _ _ _ _ _ _ _ _ _ St) in Pi'. cbn [gspec_of set_sorted set_members] in Pi'. rewrite Eg, Eq in Pi'. exact Pi'. }
      assert (Ne : exists r0, In r0 (children gd2)). { destruct (children gd2) as [|r0 rs]; [cbn in Lk; lia|exists r0; left; auto]. }
      destruct Ne as (r0 & I0). destruct (As r0 I0) as (v0 & k0 & Ic0 & Cc0 & A0).
      destruct (gi_settled _ _ _ G' r0 (proj1 (Cs r0 I0))) as [(x0 & Ex0 & _) _].
      split.
      + exists (children gd2), x0. split; auto. split; auto. split; [intros r Hr; apply Cs; auto|]. intros r Hr. split; [apply Cs; auto|].
        destruct (As r Hr) as (v1 & k1 & _ & Cc1 & A1'). assert (v1 = v0) by (eapply Sd; eauto). subst v1. rewrite <- Ex0. eapply assess_alike; eauto.
      + exists (rev cs), v0. split; [exact (st_log _ _ _ _ _ _ _ _ _ _ _ _ _ _ St)|]. rewrite <- in_rev. exact Ic0.
    - exfalso. destruct (Ho (tape s) (ent s)) as (t4 & e4 & E4). destruct (A3 t4 e4) as (t3 & e3 & E3). destruct (A2 t3 e3) as (t2 & e2 & E2). destruct (A1 t2 e2) as (t1 & e1 & E1).
      cbn [with_source] in E1, E2, E3, E4. pose proof (going_source _ _ _ _ t1 e1 G) as (GIx & Sx & Gsx & Rx & Pix & Hnx & Hgx & Hbx & _).
      apply (ga_step_safe ok (S fuel) c gd (set_source t1 e1 s) NL Gsx Sx GIx Rx Pix Hnx Hgx Hbx x).
      unfold ga_step. unfold bind at 1. rewrite E1. unfold bind at 1. rewrite E2. unfold bind at 1. rewrite E3. exact E4.
    - exfalso. refine (arises_fuel _ _ _ Ho). repeat (apply fl_bind; [|intros ?]); [apply fl_newgen|apply fl_fitness_execute|apply fl_update|apply fl_ret].
  Qed.

  (** *** Tournaments in a flooded population *)
  Lemma tie_first : forall ok, NumOrder NO ok -> forall s l p r tr x, (forall q, In q (p :: tr) -> 0 <= q < Z.of_nat (length l) /\ exists y, nth_error l (Z.to_nat q) = Some y /\ score (heap s y) = SV1 x) ->
    ok x -> nth_error l (Z.to_nat p) = Some r -> winner s None l (p :: tr) = r.
  Proof.
    intros ok NL s l p r tr x H Ox Er. unfold winner, get_best. destruct (H p (or_introl eq_refl)) as [Hp (y & Ey & Sy)]. assert (y = r) by congruence. subst y.
    unfold bind. rewrite (ListLemmas.py_nth_in _ _ Hp), Er. cbn [lift_opt ret].
    assert (L : forall tr, (forall q, In q tr -> 0 <= q < Z.of_nat (length l) /\ exists y, nth_error l (Z.to_nat q) = Some y /\ score (heap s y) = SV1 x) -> get_best_loop None l tr r s = Ok r s).
    { clear tr H. induction tr as [|q tr IH]; intros H; cbn [get_best_loop]; [reflexivity|].
      destruct (H q (or_introl eq_refl)) as [Hq (y & Eq & Sq)]. unfold bind, get, better, m_ltb. rewrite (ListLemmas.py_nth_in _ _ Hq), Eq. cbn [lift_opt ret]. rewrite Sy, Sq. cbn [lift_opt sv_ltb ret].
      rewrite (no_irrefl _ _ NL x Ox). apply IH. intros; apply H; right; auto. }
    rewrite L; [reflexivity|]. intros q Hq. apply H. right. auto.
  Qed.
  Lemma flooded_contested : forall ok, NumOrder NO ok -> forall c gd s t Y m, going ok c gd s -> 2 <= t <= Z.of_nat m -> flooded Y m gd s ->
    exists r1 r2, contested s t (members (population gd)) r1 r2 /\ genotype (heap s r1) = Y /\ genotype (heap s r2) = Y.
  Proof.
    intros ok NL c gd s t Y m G Ht (kids & x & Nd & Lk & Ik & K). set (l := members (population gd)) in *.
    destruct (positions l kids Ik) as (ps & F). pose proof (positions_distinct _ _ _ F Nd) as Np. assert (Lp : length ps = length kids) by (eapply Forall2_length; exact F).
    destruct kids as [|k1 [|k2 kids]]; [cbn in Lk; lia|cbn in Lk; lia|]. inversion F as [|p1 ? ps1 ? F1 F']; subst. inversion F' as [|p2 ? ps2 ? F2 F'']; subst.
    exists k1, k2. split; [|split; apply K; [left; auto|right; left; auto]].
    assert (Ox : ok x). { destruct (gi_settled _ _ _ (proj1 G) k1 (Ik k1 (or_introl eq_refl))) as [(y & Ey & Oy) _]. destruct (K k1 (or_introl eq_refl)) as [_ E]. assert (x = y) by congruence. subst; auto. }
    assert (Gd : forall q, In q (p1 :: p2 :: ps2) -> 0 <= q < Z.of_nat (length l) /\ exists y, nth_error l (Z.to_nat q) = Some y /\ score (heap s y) = SV1 x).
    { assert (Al : forall ps ks, Forall2 (fun p r => 0 <= p < Z.of_nat (length l) /\ nth_error l (Z.to_nat p) = Some r) ps ks -> (forall r, In r ks -> score (heap s r) = SV1 x) ->
        forall q, In q ps -> 0 <= q < Z.of_nat (length l) /\ exists y, nth_error l (Z.to_nat q) = Some y /\ score (heap s y) = SV1 x).
      { intros ps0 ks0 F0. induction F0 as [|q r ps0 ks0 [H1 H2] F0 IH]; intros Hs q' Hq; [destruct Hq|]. destruct Hq as [<-|Hq]; [split; auto; exists r; split; auto; apply Hs; left; auto|apply IH; auto; intros; apply Hs; right; auto]. }
      apply (Al _ _ F). intros r Hr. apply K. auto. }
    set (tl := firstn (Z.to_nat t - 2) ps2).
    assert (It : forall q, In q tl -> In q ps2) by (intros q Hq; (rewrite <- (firstn_skipn (Z.to_nat t - 2) ps2); apply in_or_app; left; exact Hq)).
    assert (Lt : length tl = (Z.to_nat t - 2)%nat). { unfold tl. rewrite firstn_length. cbn [length] in Lp, Ht. lia. }
    assert (Nt : NoDup (p1 :: p2 :: tl)).
    { inversion Np as [|? ? N1 Np1]; subst. inversion Np1 as [|? ? N2 Np2]; subst. constructor; [intros [E|I1]; [apply N1; left; auto|apply N1; right; auto]|]. constructor; [auto|].
      unfold tl. rewrite <- (firstn_skipn (Z.to_nat t - 2) ps2) in Np2. clear - Np2. revert Np2. generalize (firstn (Z.to_nat t - 2) ps2) as u, (skipn (Z.to_nat t - 2) ps2) as v. intros u v N. induction u as [|y u IH]; [constructor|]. inversion N; subst. constructor; auto. intros I. apply H1. apply in_or_app. auto. }
    assert (Nt' : NoDup (p2 :: p1 :: tl)) by (eapply Permutation_NoDup; [|exact Nt]; constructor).
    assert (Gt : forall q, In q (p1 :: p2 :: tl) -> 0 <= q < Z.of_nat (length l) /\ exists y, nth_error l (Z.to_nat q) = Some y /\ score (heap s y) = SV1 x).
    { intros q [<-|[<-|Hq]]; apply Gd; [left; auto|right; left; auto|right; right; auto]. }
    exists (p1 :: p2 :: tl), (p2 :: p1 :: tl).
    assert (El : Z.to_nat t = length (p1 :: p2 :: tl)) by (cbn [length]; rewrite Lt; lia).
    split; [|split; [|split; [|split]]].
    - unfold tours_of. rewrite El. apply arrangements_intro; auto. intros q Hq. apply in_zrange. destruct (Gt q Hq); lia.
    - unfold tours_of. replace (Z.to_nat t) with (length (p2 :: p1 :: tl)) by (cbn [length] in *; lia). apply arrangements_intro; auto. intros q Hq. apply in_zrange. destruct (Gt q) as [B _]; [destruct Hq as [<-|[<-|Hq]]; [right; left|left|right; right]; auto|lia].
    - apply (tie_first ok NL) with (x := x); auto. apply F1.
    - apply (tie_first ok NL) with (x := x); auto; [|apply F2]. intros q Hq. apply Gt. destruct Hq as [<-|[<-|Hq]]; [right; left|left|right; right]; auto.
    - intros ->. inversion Nd as [|? ? N1 _]; subst. apply N1. left; auto.
  Qed.
End TourSteps.
