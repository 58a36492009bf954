(** Multi-objective runs: the population stays in the search space, and valid runs do
    not raise. *)
From Coq Require Import String.
From Coq Require Import ZArith List Bool Lia Permutation.
From Verif Require Import Spec Num State Binary Population GaData Crossover Mutation Selection Penalty Fitness NewGeneration Driver
  ListLemmas Rnd Exec Laws CodingProofs PopulationProofs CrossoverProofs MutationProofs SelectionProofs VegaProofs
  NewGenProofs UpdateProofs FitnessProofs StepProofs RunProofs Runs PropCrossover PropRun DomainProofs SafetyProofs
  RankingProofs MultiProofs MultiRuns.
Import ListNotations.
Open Scope list_scope.
Open Scope Z_scope.

Section MultiSafetyProofs.
  Context {NO : NumOps}.

  (** *** The search space *)
  Lemma mstep_in : forall F c gd s c' gd' s' kids els h1 h2 rc cs front, MStep F c gd s c' gd' s' kids els h1 h2 rc cs front ->
    MI F gd s -> belongs (c_crossover c) (c_mutation c) (gspec_of (population gd)) -> pop_in gd s ->
    (forall r, In r kids -> in_domain (gspec_of (population gd)) (genotype (h1 r))) /\ pop_in gd' s' /\
    Forall (fun c => domain_point (gspec_of (population gd)) (fst c)) cs /\
    Forall (fun c => domain_point (gspec_of (population gd)) (fst c)) rc.
  Proof.
    intros F c gd s c' gd' s' kids els h1 h2 rc cs front St I B P. set (g := gspec_of (population gd)) in *.
    pose proof (ms_els _ _ _ _ _ _ _ _ _ _ _ _ _ _ St) as Ie. destruct (ms_ranks _ _ _ _ _ _ _ _ _ _ _ _ _ _ St) as [Rk _].
    assert (K : forall r, In r kids -> in_domain g (genotype (h1 r))).
    { intros r Hr. destruct (ms_made _ _ _ _ _ _ _ _ _ _ _ _ _ _ St r Hr) as (first & rest & m1 & m2 & g0 & Em & I1 & I2 & Ma & Mu).
      eapply domain_mutated; [exact B| |exact Mu]. eapply domain_made; [exact B| | | |exact Ma]; apply P; auto. rewrite Em. left; auto. }
    assert (E : forall r, In r els -> in_domain g (genotype (h1 r)) /\ decoded g (h1 r)).
    { intros r Hr. apply Ie in Hr. destruct (ms_core _ _ _ _ _ _ _ _ _ _ _ _ _ _ St r (mi_alloc _ _ _ I r Hr)) as [_ C].
      split; [|eapply decoded_core; [exact C|apply (mi_settled _ _ _ I r Hr)]]. destruct C as (<- & _). auto. }
    split; auto. split; [|split].
    - intros r Hr. rewrite (ms_pop _ _ _ _ _ _ _ _ _ _ _ _ _ _ St). cbn [gspec_of set_members].
      apply (Permutation_in _ (ms_perm _ _ _ _ _ _ _ _ _ _ _ _ _ _ St)), in_app_or in Hr. destruct Hr as [Hr|Hr].
      + destruct (assessed_in _ _ _ _ _ _ _ _ _ _ (ms_eval _ _ _ _ _ _ _ _ _ _ _ _ _ _ St) Hr) as (v & k & _ & _ & A).
        apply assess_keeps in A. destruct A as (-> & _). rewrite Rk by (apply in_or_app; auto). cbn. apply K; auto.
      + destruct (ms_core _ _ _ _ _ _ _ _ _ _ _ _ _ _ St r (mi_alloc _ _ _ I r (Ie r Hr))) as [(C & _) _]. rewrite <- C. apply P. auto.
    - apply Forall_forall. intros x Hx. destruct (assessed_call _ _ _ _ _ _ _ _ _ _ (ms_eval _ _ _ _ _ _ _ _ _ _ _ _ _ _ St) Hx) as (r & Hr & Ex & _).
      exists (genotype (h1 r)). split; auto. rewrite Ex. rewrite Rk by (apply in_or_app; auto).
      assert (D : decoded g (set_rank (Some (SV1 (ones (rank_count F h1 (kids ++ els) r)))) (h1 r))).
      { pose proof (proj2 (ms_fresh _ _ _ _ _ _ _ _ _ _ _ _ _ _ St r Hr)) as D. exact D. }
      apply decoded_point in D. exact D.
    - apply Forall_forall. intros [pt v] Hx. cbn [fst]. destruct (ms_rank_points _ _ _ _ _ _ _ _ _ _ _ _ _ _ St pt v Hx) as (_ & r & Hr & Ph).
      assert (D : decoded g (h1 r) /\ in_domain g (genotype (h1 r))).
      { apply in_app_or in Hr. destruct Hr as [Hr|Hr]; [split; [apply (ms_fresh _ _ _ _ _ _ _ _ _ _ _ _ _ _ St r Hr)|auto]|destruct (E r Hr); auto]. }
      destruct D as [D Dm]. exists (genotype (h1 r)). split; auto. pose proof (mi_bin _ _ _ I) as Ib. fold g in Ib. destruct g as [gray gens bp| |]; try discriminate.
      destruct D as (ph & Ph' & Dc). cbn. congruence.
  Qed.
  Lemma mfirst_in : forall F f gd s gd' s' h2 rc cs front, MFirst F f gd s gd' s' h2 rc cs front -> MInit gd s -> pop_in gd s ->
    pop_in gd' s' /\ Forall (fun c => domain_point (gspec_of (population gd)) (fst c)) cs /\
    Forall (fun c => domain_point (gspec_of (population gd)) (fst c)) rc.
  Proof.
    intros F f gd s gd' s' h2 rc cs front Fi I P. set (g := gspec_of (population gd)) in *. destruct (mf_ranks _ _ _ _ _ _ _ _ _ _ Fi) as [Rk _]. split; [|split].
    - intros r Hr. rewrite (mf_pop _ _ _ _ _ _ _ _ _ _ Fi). cbn [gspec_of set_members]. apply (Permutation_in _ (mf_perm _ _ _ _ _ _ _ _ _ _ Fi)) in Hr.
      destruct (assessed_in _ _ _ _ _ _ _ _ _ _ (mf_eval _ _ _ _ _ _ _ _ _ _ Fi) Hr) as (v & k & _ & _ & A).
      apply assess_keeps in A. destruct A as (-> & _). rewrite Rk by auto. cbn. apply P; auto.
    - apply Forall_forall. intros x Hx. destruct (assessed_call _ _ _ _ _ _ _ _ _ _ (mf_eval _ _ _ _ _ _ _ _ _ _ Fi) Hx) as (r & Hr & Ex & _).
      exists (genotype (heap s r)). split; [apply P; auto|]. rewrite Ex, Rk by auto.
      assert (D : decoded g (set_rank (Some (SV1 (ones (rank_count F (heap s) (members (population gd)) r)))) (heap s r))).
      { pose proof (proj2 (mn_fresh _ _ I r Hr)) as D. exact D. }
      apply decoded_point in D. exact D.
    - apply Forall_forall. intros [pt v] Hx. cbn [fst]. destruct (mf_rank_points _ _ _ _ _ _ _ _ _ _ Fi pt v Hx) as (_ & r & Hr & Ph).
      exists (genotype (heap s r)). split; [apply P; auto|]. pose proof (proj2 (mn_fresh _ _ I r Hr)) as D. pose proof (mn_bin _ _ I) as Ib. fold g in D, Ib.
      destruct g as [gray gens bp| |]; try discriminate. destruct D as (ph & Ph' & Dc). cbn. congruence.
  Qed.

  (** *** No exception in the single operations *)
  (** Ranked by assign_ranks. *)
  Definition ranked (v : option sval) : Prop := exists n, v = Some (SV1 (ones n)).
  Definition multi_best (b : best_sol) : Prop := match b with BSingle _ _ => False | _ => True end.

  Lemma multi_fitness_safe : forall ok, NumOrder NO ok -> forall f F m gd s,
    let l := members (population gd) in let g := gspec_of (population gd) in
    is_multi_kind (fkind f) = true -> is_phenotype g = true -> sized ok F m ->
    (forall k pt, domain_point g pt -> one_arg (obj_function f) k pt = inr (OTuple (F pt))) ->
    total_at f g (idx_generation gd) (best_solution gd) ranked ->
    (forall r, In r l -> unscored s r = true -> once l r) ->
    (forall r, In r l -> decodable g (heap s r)) ->
    safe (fitness_execute f gd) s.
  Proof.
    intros ok NL f F m gd s l g Mk Ep Sz Ht T Ho D. unfold fitness_execute. rewrite Mk. fold l g. rewrite Ep. apply safe_bind.
    { apply get_phenotype_safe. intros r Hr. destruct (D r Hr) as (_ & Dd & Dx). destruct g as [gray gens bp| |] eqn:Eg; try discriminate.
      destruct Dd as [(ph & -> & _)|[_ ->]]; auto. destruct Dx as (ph & Dx). eauto 10. }
    intros u s1 R1. apply get_phenotype_ok in R1. destruct R1 as (N1 & L1 & S1 & P1 & T1 & E1 & O1 & F1 & K1).
    assert (H1 : forall r, In r l -> phenotype (heap s1 r) = Some (Some (phen (heap s1) r))).
    { intros r I. destruct (K1 r I) as [ph Ph]. unfold phen. rewrite Ph. reflexivity. }
    assert (D1 : forall r, In r l -> decodable g (heap s1 r)).
    { intros r Hr. destruct (D r Hr) as (Dom & Dd & Dx). destruct (F1 r) as [E|(Pn & gr & ge & bp & ph & Eg & Dc & E)]; rewrite E; [split; auto|].
      split; [exact Dom|]. split; [|exact Dx]. left. rewrite Eg. cbn. eauto. }
    assert (Pt : forall r, In r l -> domain_point g (phen (heap s1) r)).
    { intros r Hr. destruct (D1 r Hr) as (Dom & Dd & _). exists (genotype (heap s1 r)). split; auto. pose proof (H1 r Hr) as Ph.
      destruct g as [gray gens bp| |]; try discriminate. destruct Dd as [(ph & Ph' & Dc)|[_ C]]; [cbn|]; congruence. }
    destruct (assign_run ok NL (obj_function f) F (heap s1) l m (phen (heap s1)) H1 (fun r k I => Ht k _ (Pt r I)) (fun r _ => Sz _) s1 eq_refl) as (s2 & E2 & [Rk Rn] & L2 & Q2).
    apply safe_bind; [intros e C; rewrite E2 in C; discriminate|]. intros u2 s2' R2. rewrite E2 in R2. inversion R2; subst s2' u2. clear R2.
    apply (base_fitness_safe_at f gd s2 ranked); auto; fold l g.
    - intros r Hr U. apply Ho; auto. unfold unscored in *. rewrite Rk in U by auto. cbn [score set_rank] in U.
      destruct (F1 r) as [E|(_ & gr & ge & bp & ph & _ & _ & E)]; rewrite E in U; auto.
    - intros r Hr. rewrite Rk by auto. split; [exact (D1 r Hr)|]. eexists. reflexivity.
  Qed.

  Lemma rank1_prefix_safe : forall l s, (forall r, In r l -> ranked (rank (heap s r))) -> safe (rank1_prefix l) s.
  Proof.
    induction l as [|x l IH]; intros s H; cbn [rank1_prefix]; [apply safe_ret|]. destruct (H x) as [n En]; [left; auto|].
    apply safe_bind.
    - unfold rank_is_1. apply safe_bind; [apply safe_get|]. intros i s1 R. apply get_ok in R. destruct R as [-> ->].
      apply safe_bind; [eapply safe_lift_opt; eauto|intros; apply safe_ret].
    - intros b s1 R. unfold rank_is_1 in R. bd R i s2 R1. apply get_ok in R1. destruct R1 as [-> ->]. bd R v s3 R2. apply lift_opt_ok in R2. destruct R2 as [_ ->].
      apply ret_ok in R. destruct R as [_ ->]. destruct b; [|apply safe_ret]. apply safe_bind; [apply IH; intros; apply H; right; auto|intros; apply safe_ret].
  Qed.
  Lemma update_multi_safe : forall gd s, (forall r, In r (members (population gd)) -> ranked (rank (heap s r))) ->
    multi_best (best_solution gd) -> safe (update_multi gd) s.
  Proof.
    intros gd s H B. unfold update_multi.
    assert (X : exists l, (if is_sorted (population gd) then ret (members (population gd)) else sort_by_dict KRank (members (population gd))) s = Ok l s /\
      Permutation l (members (population gd))).
    { destruct (is_sorted (population gd)); [eexists; split; [reflexivity|auto]|].
      destruct (sort_safe (fun _ => True) KRank (members (population gd)) s) as (l & E).
      - intros r Hr. destruct (H r Hr) as [n E]. exists (ones n). split; auto.
      - exists l. split; auto. apply sort_ok in E. tauto. }
    destruct X as (l & E & P). apply safe_bind; [intros e; rewrite E; discriminate|]. intros l' s1 R. rewrite E in R. inversion R; subst l' s1.
    apply safe_bind; [apply rank1_prefix_safe; intros r Hr; apply H; eapply Permutation_in; eauto|].
    intros front s1 R1. apply safe_bind; [intros e; rewrite mmap_get; discriminate|]. intros set s2 R2.
    apply safe_bind; [destruct (best_solution gd); [apply safe_ret|destruct B|apply safe_ret]|]. intros [old g] s3 _. apply safe_ret.
  Qed.

  (** Every exception is one of E. *)
  Definition only (E : exn -> Prop) {A} (m : M A) (s : st) : Prop := forall e, m s = Err e -> E e.
  Lemma safe_only : forall E {A} (m : M A) s, safe m s -> only E m s.
  Proof. intros E A m s H e C. elim (H e C). Qed.
  Lemma only_safe : forall {A} (m : M A) s, only (fun _ => False) m s -> safe m s.
  Proof. intros A m s H e C. exact (H e C). Qed.
  Lemma only_bind : forall E {A B} (m : M A) (k : A -> M B) s,
    only E m s -> (forall a s1, m s = Ok a s1 -> only E (k a) s1) -> only E (bind m k) s.
  Proof.
    intros E A B m k s Hm Hk e. unfold bind. destruct (m s) eqn:C; try discriminate.
    - apply Hk; auto.
    - intros X. inversion X; subst. apply Hm. exact C.
  Qed.
  (** *** A generation *)
  Section Step.
    Context (ok : num -> Prop) (NL : NumOrder NO ok) (Ct : counting ok) (F : list gv -> list num) (m : nat) (Sz : sized ok F m) (fuel : nat).
    (** What stays the same during a run. *)
    Context (f : fitness) (sel : selection) (ck : crossover_kind) (ng : newgen) (g : gspec) (n : Z) (cp : num).
    Definition fits (gd : gadata) : Prop :=
      gspec_of (population gd) = g /\ num_individ (population gd) = n /\ children_percent gd = cp.
    (** [G]: the scores the evaluation gives; [big]: population sizes the operators can handle;
        [Exc]: the exceptions the selection may raise; [lim]: a bound on the generation numbers. *)
    Context (G : sval -> Prop) (big : nat -> Prop) (lo : nat).
    Context (Mk : is_multi_kind (fkind f) = true) (Ep : is_phenotype g = true) (Plain : plain_selection sel) (Ho : objectives_ok sel).
    Context (Hcall : forall k pt, domain_point g pt -> one_arg (obj_function f) k pt = inr (OTuple (F pt))).
    Context (Hsteady : steady (obj_function f) F).
    Context (Exc : exn -> Prop) (lim : Z) (Hlim : 1 <= lim).
    Context (Htotal : forall gen best, 0 <= gen < lim -> multi_best best -> total_at f g gen best ranked).
    Context (Hscore : forall k pt gen best i v j, domain_point g pt -> 0 <= gen < lim -> ranked (rank i) -> called f k pt = inr v -> assess f gen best v i = inr j -> G (score j)).
    Context (Hsel : forall gd s, fits gd -> (forall r, In r (members (population gd)) -> (r < next s)%nat /\ G (score (heap s r))) ->
      big (length (members (population gd))) -> only Exc (selection_execute fuel sel gd) s).
    Context (Hpairs : forall gd k, fits gd -> num_pairs sel gd k -> (lo <= k)%nat).
    Context (Hng : forall gd s, fits gd -> (forall r, In r (members (population gd)) -> G (score (heap s r)) /\ ranked (rank (heap s r)) /\
        Forall (gene_ok (ok := ok)) (genotype (heap s r)) /\ exists ph, phenotype (heap s r) = Some (Some ph)) ->
      big (length (members (population gd))) -> (lo <= length (children gd))%nat -> safe (newgen_execute ng gd) s).
    Context (Hbig1 : forall k, big k -> (0 < k)%nat).
    Context (Hbig : forall c gd s c' gd' s' kids els h1 h2 rc cs front, c_newgen c = ng -> fits gd -> big (length (members (population gd))) -> (lo <= length kids)%nat ->
      c_selection c = sel -> MStep F c gd s c' gd' s' kids els h1 h2 rc cs front -> big (length (members (population gd')))).
    Context (Hdec : forall x, in_domain g x -> match g with GenBinary gray gens bp => exists ph, decode_genotype gray gens bp x = inr ph | _ => True end).

    Definition mready (c : comps) : Prop :=
      c_fitness c = f /\ c_selection c = sel /\ c_crossover c = ck /\ c_newgen c = ng /\
      belongs ck (c_mutation c) g /\ mut_spec_ok (c_mutation c) g /\
      forall x, in_domain g x -> (min_len ck <= length x)%nat /\ mut_pre (c_mutation c) g x /\ Forall (gene_ok (ok := ok)) x.
    Lemma mready_ext : forall c m', mready c -> match c_mutation c with MutBin _ => exists x, m' = MutBin (LFloat x) | m => m' = m end ->
      mready (set_mutation m' c).
    Proof.
      intros c m' (A1 & A2 & A3 & A4 & A5 & A6 & A7) E. repeat (split; [solve [auto]|]). cbn [c_mutation set_mutation].
      destruct (c_mutation c) eqn:Em; try (rewrite E; auto). destruct E as (x & ->). split; [|split].
      - inversion A5; subst. constructor; auto.
      - cbn in A6 |- *. destruct g; auto.
      - intros x0 Hx. destruct (A7 x0 Hx) as (B1 & B2 & B3). split; auto.
    Qed.

    Lemma domain_length : forall x y, in_domain g x -> in_domain g y -> length x = length y.
    Proof.
      intros x y Dx Dy. destruct g; cbn in Dx, Dy.
      - destruct Dx as (? & -> & ?), Dy as (? & -> & ?). rewrite !map_length. lia.
      - apply Forall2_length in Dx. apply Forall2_length in Dy. congruence.
      - destruct Dx as (? & -> & ? & _), Dy as (? & -> & ? & _). rewrite !map_length. lia.
    Qed.
    Lemma multi_step_safe : forall c gd s, mready c -> MI F gd s -> fits gd -> pop_in gd s ->
      (forall r, In r (members (population gd)) -> G (score (heap s r))) -> big (length (members (population gd))) ->
      0 <= idx_generation gd < lim -> multi_best (best_solution gd) -> only Exc (ga_step fuel c gd) s.
    Proof.
      intros c gd s (Ef & Es & Ec & En & Rb & Rm & Rg) I Fi Pi Gs Bg Hgen Mb. destruct I as [Im Iu Ib Ia It Ir Iasc].
      pose proof Fi as (Eg & Enum & Ecp). unfold pop_in in Pi. rewrite Eg in *. unfold ga_step. rewrite Ef, Es, Ec, En.
      apply only_bind; [apply Hsel; auto|].
      intros gd1 s1 R1. apply safe_only. pose proof (selection_rank fuel sel gd s gd1 s1 Ia Plain R1) as [_ Rk].
      apply selection_ok in R1; auto. destruct R1 as (T1 & a & k & Hk & -> & La & N1 & Fp).
      destruct T1 as [(Nx1 & L1 & S1 & P1 & C1) T1].
      destruct (members (population gd)) as [|first rest] eqn:Em; [apply Hbig1 in Bg; cbn in Bg; lia|]. rewrite <- Em in *.
      assert (If : In first (members (population gd))) by (rewrite Em; left; auto).
      assert (G1 : forall r, In r (members (population gd)) -> genotype (heap s1 r) = genotype (heap s r)).
      { intros r Hr. destruct (C1 r (Ia r Hr)) as (E & _). auto. }
      assert (Par : forall r, In r (seq a (2 * k)) -> exists m, In m (members (population gd)) /\ genotype (heap s1 r) = genotype (heap s m)).
      { intros r Hr. rewrite Forall_forall in Fp. destruct (Fp r Hr) as (x & Ix & E). exists x. split; auto. destruct E as (E & _). auto. }
      apply safe_bind.
      { apply (crossover_execute_safe (ok := ok) NL ck (length (genotype (heap s first))) _ s1 k); cbn [population set_parents parents].
        - split; [intros r Hr; apply Ia in Hr; lia|]. split; [exists first, rest; split; auto; rewrite G1; auto|].
          intros r Hr. split; [apply in_seq in Hr; cbn [next]; lia|]. destruct (Par r Hr) as (x & Ix & Egx). rewrite Egx. split.
          + apply domain_length; apply Pi; auto.
          + intros Eo. destruct (Rg _ (Pi x Ix)) as (_ & _ & Go). split; auto. eapply dup_free_domain; [|apply Pi; exact Ix].
            rewrite Eo in Rb. inversion Rb; subst; try congruence. eauto.
        - apply Rg. apply Pi; auto.
        - rewrite seq_length. auto. }
      intros gd2 s2 R2. apply crossover_made in R2.
      2:{ cbn. intros r Hr. apply Ia in Hr. lia. }
      2:{ cbn [parents set_parents]. intros r Hr. apply in_seq in Hr. lia. }
      cbn [population set_parents parents] in R2. destruct R2 as (first' & rest' & n' & Em' & Ln & -> & N2 & X2 & F2).
      rewrite Em in Em'. inversion Em'; subst first' rest'. clear Em'.
      rewrite seq_length in Ln. assert (n' = k) by lia. subst n'. clear Ln. destruct X2 as (_ & L2 & S2 & P2 & X2).
      set (kids := seq (next s1) k) in *. assert (NDk : NoDup kids) by apply seq_NoDup.
      assert (Hkids : forall r, In r kids <-> (next s1 <= r < next s1 + k)%nat) by (intros; apply in_seq).
      assert (Kd : forall r, In r kids -> in_domain g (genotype (heap s2 r)) /\ exists x, heap s2 r = child_of (heap s1 first) x).
      { intros r Hr. rewrite Forall_forall in F2. destruct (F2 r Hr) as (p1 & p2 & x & I1 & I2 & Ma & E). split; [|eauto]. rewrite E. cbn.
        destruct (Par _ I1) as (m1 & M1 & E1). destruct (Par _ I2) as (m2 & M2 & E2). rewrite E1, E2, G1 in Ma by auto.
        eapply domain_made; [exact Rb| | | |exact Ma]; apply Pi; auto. }
      apply safe_bind.
      { apply mutation_execute_safe; cbn [children set_children population set_parents]; rewrite ?Eg; auto. intros r Hr. apply Rg. apply Kd; auto. }
      intros m' s3 R3. apply mutation_execute_ok in R3; [|exact NDk]. cbn [children set_children population set_parents] in R3. rewrite Eg in R3.
      destruct R3 as [(N3 & L3 & S3 & P3 & Mu) Hm'].
      assert (Old : forall r, (r < next s)%nat -> heap s3 r = heap s1 r).
      { intros r Hr. destruct (Mu r) as (x & E & _ & K). rewrite K in E; [|rewrite Hkids; lia]. rewrite E, set_genotype_same. apply X2. lia. }
      assert (Kd3 : forall r, In r kids -> in_domain g (genotype (heap s3 r)) /\ exists x, heap s3 r = child_of (heap s1 first) x).
      { intros r Hr. destruct (Kd r Hr) as (Dm & x & E). destruct (Mu r) as (x' & E' & K & _). rewrite E'. split.
        - cbn. eapply domain_mutated; [exact Rb|exact Dm|apply K; auto].
        - exists x'. rewrite E. reflexivity. }
      assert (Ms : forall r, In r (members (population gd)) -> decoded g (heap s3 r) /\ genotype (heap s3 r) = genotype (heap s r) /\
        score (heap s3 r) = score (heap s r) /\ rank (heap s3 r) = rank (heap s r)).
      { intros r Hr. rewrite Old by auto. pose proof (C1 r (Ia r Hr)) as C. split; [eapply decoded_core; [exact C|apply It; auto]|].
        destruct C as (E1 & _ & E3 & _). split; auto. }
      assert (Lk : length kids = k) by apply seq_length.
      apply safe_bind.
      { apply Hng; cbn [population set_children set_parents children]; fold kids; [exact Fi| |exact Bg|].
        - intros r Hr. destruct (Ms r Hr) as (D & E1 & E2 & E3). rewrite E1, E2, E3. split; [auto|]. split; [eexists; apply Ir; auto|].
          split; [apply Rg; apply Pi; auto|]. eapply decoded_phen; eauto.
        - rewrite Lk. apply (Hpairs gd); auto. }
      intros gd3 s4 R4.
      assert (Gx : exists els, incl els (members (population gd)) /\ s4 = set_tape (tape s4) s3 /\ gd3 = with_next (kids ++ els) (set_children kids (set_parents (seq a (2 * k)) gd))).
      { destruct (ng_multi ng) eqn:Ngm.
        - apply newgen_multi_ok in R4; auto; cbn [children set_children population set_parents] in *.
          2:{ intros r Hr. eapply decoded_phen; [exact Ep|]. apply Ms; auto. }
          destruct R4 as (els & Ie & E4 & -> & _). eauto.
        - apply newgen_single_ok in R4; auto. cbn [children set_children population set_parents] in R4.
          destruct R4 as (l & els & So & Tk & E4 & ->). apply sorted_from_perm in So.
          assert (Nl : l <> []) by (intros ->; apply Permutation_nil in So; rewrite So in Em; discriminate).
          destruct (list_snoc _ Nl) as (l1 & b & Eb). rewrite Eb in Tk. destruct (taken_snoc s3 _ _ l1 b els Tk) as (e & Ee & Ie). rewrite <- Eb in Ie, Tk.
          exists els. split; [|split; auto].
          rewrite Ee. intros x Hx. apply (Permutation_in _ So). apply in_app_or in Hx. destruct Hx as [Hx|[<-|[]]]; auto. rewrite Eb. apply in_or_app; right; left; auto. }
      clear R4. destruct Gx as (els & Iels & E4 & ->).
      assert (H4 : heap s4 = heap s3) by (rewrite E4; auto). clear E4.
      assert (Hun1 : forall r, In r kids -> unscored s4 r = true).
      { intros r Hr. destruct (Kd3 r Hr) as (_ & x & E). unfold unscored. rewrite H4, E. reflexivity. }
      assert (Hun2 : forall r, In r els -> unscored s4 r = false).
      { intros r Hr. destruct (Ms r (Iels r Hr)) as (_ & _ & E & _). destruct (It r (Iels r Hr)) as [U _]. unfold unscored in *. rewrite H4, E. exact U. }
      assert (Dis : forall r, In r kids -> ~ In r els).
      { intros r Hr C. apply Iels, Ia in C. apply Hkids in Hr. lia. }
      assert (Hone : forall r, In r (kids ++ els) -> unscored s4 r = true -> once (kids ++ els) r).
      { intros r Hr Hu. apply in_app_or in Hr. destruct Hr as [Hr|Hr]; [apply once_app; auto|]. rewrite Hun2 in Hu by auto. discriminate. }
      apply safe_bind.
      { apply (multi_fitness_safe ok NL f F m);
          cbn [population with_next set_children set_population set_sorted set_members set_parents members gspec_of idx_generation best_solution]; rewrite ?Eg; auto.
        intros r Hr. rewrite H4. apply in_app_or in Hr. destruct Hr as [Hr|Hr].
        - destruct (Kd3 r Hr) as (Dm & x & E). split; [exact Dm|]. split; [|apply Hdec; exact Dm]. rewrite E. destruct (Ms first If) as [D _]. rewrite Old in D by (apply Ia; auto).
          destruct g as [gray gens bp|gens|y z w]; cbn in D |- *; try discriminate. right. destruct D as (ph & -> & _). auto.
        - destruct (Ms r (Iels r Hr)) as (D & E & _). split; [rewrite E; apply Pi; auto|]. split; [auto|]. rewrite E. apply Hdec. apply Pi; auto. }
      intros u5 s5 R5. apply (multi_fitness_ok ok NL _ F m) in R5; auto.
      2:{ cbn [population with_next set_children set_population set_sorted set_members set_parents gspec_of]. rewrite Eg. auto. }
      cbn [population with_next set_children set_population set_sorted set_members set_parents members gspec_of idx_generation best_solution] in R5. rewrite Eg in R5.
      rewrite (news_app s4 kids els NDk Hun1 Hun2) in R5.
      destruct R5 as (h1 & h2 & rc & cs & Fh & Fo & [Rk1 Rk2] & _ & _ & _ & _ & As & O5).
      apply safe_bind; [|intros; apply safe_ret]. unfold update. cbn [is_multi with_next set_children set_population set_parents]. rewrite Im.
      apply update_multi_safe; cbn [population with_next set_children set_population set_sorted set_members set_parents members best_solution]; auto.
      intros r Hr. fold kids in Hr. apply in_app_or in Hr. destruct Hr as [Hr|Hr].
      - destruct (assessed_in _ _ _ _ _ _ _ _ _ _ As Hr) as (v & k' & _ & _ & Av). apply assess_keeps in Av. destruct Av as (_ & _ & _ & ->).
        rewrite Rk1 by (apply in_or_app; auto). eexists. reflexivity.
      - rewrite O5 by (intros C; apply (Dis r); auto). rewrite Rk1 by (apply in_or_app; auto). eexists. reflexivity.
    Qed.

    Lemma front_nonempty : forall h l front, l <> [] -> front_first F h l front -> front <> [].
    Proof.
      intros h l front Nl (rest & El & A & B) ->. cbn [app] in El. subst rest.
      destruct (minimal ok NL F l m (phen h)) with (xs := l) as (r & Ir & Hr); [intros; apply Sz|apply incl_refl|auto|].
      destruct (B r Ir) as (y & Iy & D). assert (dom F (phen h) y r = true) by (apply dom_true; auto). rewrite Hr in H by auto. discriminate.
    Qed.

    (** *** A run *)
    Definition mgoing (c : comps) (gd : gadata) (s : st) : Prop :=
      mready c /\ MI F gd s /\ fits gd /\ pop_in gd s /\ (forall r, In r (members (population gd)) -> G (score (heap s r))) /\
      big (length (members (population gd))) /\ (exists e, early_stop gd = Some e) /\ 0 <= idx_generation gd /\
      exists set k, best_solution gd = BPareto set (Some k) /\ set <> [] /\ Forall (fun i => phenotype i <> None) set.
    Lemma mgoing_best : forall gd, (exists set k, best_solution gd = BPareto set (Some k) /\ set <> [] /\ Forall (fun i => phenotype i <> None) set) -> multi_best (best_solution gd).
    Proof. intros gd (set & k & -> & _). exact I. Qed.
    Lemma front_set : forall gd s front, MI F gd s -> fits gd -> front_first F (heap s) (members (population gd)) front -> members (population gd) <> [] ->
      map (heap s) front <> [] /\ Forall (fun i => phenotype i <> None) (map (heap s) front).
    Proof.
      intros gd s front M (Eg & _) Fr Ne. pose proof (front_nonempty _ _ _ Ne Fr) as Nf. split; [destruct front; [congruence|discriminate]|].
      apply Forall_forall. intros i Hi. apply in_map_iff in Hi. destruct Hi as (r & <- & Hr). destruct Fr as (rest & El & _).
      destruct (mi_settled _ _ _ M r) as [_ D]; [rewrite El; apply in_or_app; auto|]. rewrite Eg in D. destruct (decoded_phen g (heap s r) Ep D) as [ph E]. congruence.
    Qed.
    Lemma mgoing_step : forall c gd s c' gd' s', mgoing c gd s -> idx_generation gd < lim -> ga_step fuel c gd s = Ok (c', gd') s' -> mgoing c' gd' s' /\ idx_generation gd' = idx_generation gd + 1.
    Proof.
      intros c gd s c' gd' s' (Rd & M & Fi & Pi & Gs & Bg & He & Hgen & Hb) Hl R. pose proof Rd as (Ef & Es & Ec & En & Rb & Rm & Rg). pose proof Fi as (Eg & Enum & Ecp).
      destruct (multi_step_ok ok fuel F m c gd s c' gd' s' NL Ct) as (kids & els & h1 & h2 & rc & cs & front & St & M'); auto; [rewrite Ef; auto|rewrite Ef; auto|rewrite Es; auto|].
      destruct (ms_comps _ _ _ _ _ _ _ _ _ _ _ _ _ _ St) as (m' & -> & Em). destruct (ms_params _ _ _ _ _ _ _ _ _ _ _ _ _ _ St) as (_ & F2 & F3).
      pose proof (ms_pop _ _ _ _ _ _ _ _ _ _ _ _ _ _ St) as Epop.
      destruct (mstep_in _ _ _ _ _ _ _ _ _ _ _ _ _ _ St M) as (Kd & Pi' & _ & _); [rewrite Ec, Eg; auto|auto|]. rewrite Eg in Kd.
      assert (Fi' : fits gd') by (split; [rewrite Epop; auto|split; [rewrite Epop; auto|congruence]]).
      assert (Bg' : big (length (members (population gd')))).
      { eapply (Hbig _ _ _ _ _ _ _ _ _ _ _ _ _ En Fi Bg); [|exact Es|exact St]. apply (Hpairs gd); auto. rewrite <- Es. apply (ms_count _ _ _ _ _ _ _ _ _ _ _ _ _ _ St). }
      assert (Ne : members (population gd') <> []) by (intros C; apply Hbig1 in Bg'; rewrite C in Bg'; cbn in Bg'; lia).
      split; [|apply (ms_gen _ _ _ _ _ _ _ _ _ _ _ _ _ _ St)].
      split; [apply mready_ext; auto|]. split; auto. split; auto. split; auto. split; [|split; [auto|split; [rewrite F2; auto|split; [rewrite (ms_gen _ _ _ _ _ _ _ _ _ _ _ _ _ _ St); lia|]]]].
      - intros r Hr. apply (Permutation_in _ (ms_perm _ _ _ _ _ _ _ _ _ _ _ _ _ _ St)), in_app_or in Hr. destruct (ms_ranks _ _ _ _ _ _ _ _ _ _ _ _ _ _ St) as [Rk _]. destruct Hr as [Hr|Hr].
        + destruct (assessed_in _ _ _ _ _ _ _ _ _ _ (ms_eval _ _ _ _ _ _ _ _ _ _ _ _ _ _ St) Hr) as (v & k & _ & Cv & A). rewrite Ef, Eg in *.
          eapply Hscore; [| | |exact Cv|exact A].
          * exists (genotype (h1 r)). split; auto. rewrite Rk by (apply in_or_app; auto).
            assert (D : decoded g (set_rank (Some (SV1 (ones (rank_count F h1 (kids ++ els) r)))) (h1 r))).
            { pose proof (proj2 (ms_fresh _ _ _ _ _ _ _ _ _ _ _ _ _ _ St r Hr)) as D. rewrite Eg in D. exact D. }
            apply decoded_point in D. exact D.
          * lia.
          * rewrite Rk by (apply in_or_app; auto). eexists. reflexivity.
        + destruct (ms_core _ _ _ _ _ _ _ _ _ _ _ _ _ _ St r) as [(_ & _ & E & _) _]; [apply (mi_alloc _ _ _ M); apply (ms_els _ _ _ _ _ _ _ _ _ _ _ _ _ _ St); auto|].
          rewrite <- E. apply Gs. apply (ms_els _ _ _ _ _ _ _ _ _ _ _ _ _ _ St). auto.
      - destruct (front_set gd' s' front M' Fi' (ms_front _ _ _ _ _ _ _ _ _ _ _ _ _ _ St) Ne) as [Nf Ff]. destruct Hb as (set & k & Eb & Nb & Fb).
        pose proof (ms_best _ _ _ _ _ _ _ _ _ _ _ _ _ _ St) as B. rewrite Eb in B. cbn [old_set old_gen] in B. destruct (inds_eqb set (map (heap s') front)); eauto 10.
    Qed.
    Lemma multi_loop_safe : forall k c gd s, mgoing c gd s -> idx_generation gd + Z.of_nat k <= lim -> only Exc (ga_loop fuel k c gd) s.
    Proof.
      induction k as [|k IH]; intros c gd s Go Hk; cbn [ga_loop]; [apply safe_only, safe_ret|]. apply only_bind.
      - destruct Go as (Rd & M & Fi & Pi & Gs & Bg & He & Hgen & Hb). apply multi_step_safe; auto; [lia|]. apply mgoing_best; auto.
      - intros [c1 gd1] s1 R. destruct (mgoing_step _ _ _ _ _ _ Go ltac:(lia) R) as [G1 Hg1]. cbn [fst snd]. pose proof G1 as (_ & _ & _ & _ & _ & _ & (e & He) & _).
        unfold should_stop. rewrite He. apply only_bind; [apply safe_only, safe_ret|]. intros b s2 R2. apply ret_ok in R2. destruct R2 as [-> ->].
        destruct (e <? no_improve gd1); [apply safe_only, safe_ret|]. apply IH; auto. lia.
    Qed.
    Lemma multi_loop_going : forall k c gd s c' gd' s', mgoing c gd s -> idx_generation gd + Z.of_nat k <= lim -> ga_loop fuel k c gd s = Ok (c', gd') s' -> mgoing c' gd' s'.
    Proof.
      induction k as [|k IH]; intros c gd s c' gd' s' Go Hk R; cbn [ga_loop] in R; [apply ret_ok in R; destruct R as [X ->]; inversion X; subst; auto|].
      bd R r s1 R1. destruct r as [c1 gd1]. cbn [fst snd] in R. destruct (mgoing_step _ _ _ _ _ _ Go ltac:(lia) R1) as [G1 Hg1]. pose proof G1 as (_ & _ & _ & _ & _ & _ & (e & He) & _).
      unfold should_stop in R. rewrite He in R. bd R b s2 R2. apply ret_ok in R2. destruct R2 as [-> ->].
      destruct (e <? no_improve gd1); [apply ret_ok in R; destruct R as [X ->]; inversion X; subst; auto|]. eapply IH; [exact G1| |exact R]. lia.
    Qed.

    Lemma multi_first_safe : forall c gd s, mready c -> MInit gd s -> fits gd -> pop_in gd s -> safe (first_generation (c_fitness c) gd) s.
    Proof.
      intros c gd s (Ef & Es & Ec & En & Rb & Rm & Rg) I Fi Pi. destruct I as [Im Iu Ib Ind Ia If (Ig & Ini & Ibs & Ih)]. pose proof Fi as (Eg & Enum & Ecp). unfold pop_in in Pi. rewrite Eg in *. rewrite Ef.
      assert (Mb : multi_best (best_solution gd)) by (rewrite Ibs; exact Logic.I).
      assert (Un : forall r, In r (members (population gd)) -> unscored s r = true).
      { intros r Hr. destruct (If r Hr) as [(E & _) _]. unfold unscored. rewrite E. reflexivity. }
      unfold first_generation. apply safe_bind.
      - apply (multi_fitness_safe ok NL f F m); rewrite ?Eg; auto.
        + apply Htotal; auto. lia.
        + intros r Hr _. apply (NoDup_count_occ' Nat.eq_dec); auto.
        + intros r Hr. destruct (If r Hr) as [_ D]. split; [apply Pi; auto|]. split; [auto|]. apply Hdec. apply Pi; auto.
      - intros u s1 R. apply (multi_fitness_ok ok NL _ F m) in R; rewrite ?Eg; auto.
        2:{ intros r Hr _. apply (NoDup_count_occ' Nat.eq_dec); auto. }
        assert (Enw : news s (members (population gd)) = members (population gd)).
        { rewrite <- (app_nil_r (members (population gd))) at 1. apply news_app; auto. intros r []. }
        rewrite Enw in R. destruct R as (h1 & h2 & rc & cs & Fh & Fo & [Rk1 Rk2] & _ & _ & _ & _ & As & O5).
        unfold update. rewrite Im. apply update_multi_safe; auto. intros r Hr.
        destruct (assessed_in _ _ _ _ _ _ _ _ _ _ As Hr) as (v & k' & _ & _ & Av). apply assess_keeps in Av. destruct Av as (_ & _ & _ & ->). rewrite Rk1 by auto. eexists. reflexivity.
    Qed.
    Lemma multi_first_going : forall c gd s gd' s', mready c -> MInit gd s -> fits gd -> pop_in gd s -> big (length (members (population gd))) -> (exists e, early_stop gd = Some e) ->
      first_generation (c_fitness c) gd s = Ok gd' s' -> mgoing c gd' s' /\ idx_generation gd' = 1 /\ num_generations gd' = num_generations gd.
    Proof.
      intros c gd s gd' s' Rd I Fi Pi Bg He R. pose proof Rd as (Ef & Es & Ec & En & Rb & Rm & Rg). pose proof Fi as (Eg & Enum & Ecp). rewrite Ef in R.
      destruct (multi_first_ok ok F m f gd s gd' s' NL Ct Mk Hsteady Sz I R) as (h2 & rc & cs & front & Ff & M').
      destruct (mf_params _ _ _ _ _ _ _ _ _ _ Ff) as (F1 & F2 & F3). pose proof (mf_pop _ _ _ _ _ _ _ _ _ _ Ff) as Epop. pose proof (mf_perm _ _ _ _ _ _ _ _ _ _ Ff) as Pm.
      assert (Fi' : fits gd') by (split; [rewrite Epop; auto|split; [rewrite Epop; auto|congruence]]).
      assert (Bg' : big (length (members (population gd')))) by (rewrite (Permutation_length Pm); auto).
      assert (Ne : members (population gd') <> []) by (intros C; apply Hbig1 in Bg'; rewrite C in Bg'; cbn in Bg'; lia).
      destruct (mfirst_in _ _ _ _ _ _ _ _ _ _ Ff I Pi) as (Pi' & _ & _).
      split; [|split; [apply (mf_gen _ _ _ _ _ _ _ _ _ _ Ff)|exact F1]].
      split; auto. split; auto. split; auto. split; auto. split; [|split; [auto|split; [rewrite F2; auto|split; [rewrite (mf_gen _ _ _ _ _ _ _ _ _ _ Ff); lia|]]]].
      - intros r Hr. apply (Permutation_in _ Pm) in Hr. destruct (mf_ranks _ _ _ _ _ _ _ _ _ _ Ff) as [Rk _].
        destruct (assessed_in _ _ _ _ _ _ _ _ _ _ (mf_eval _ _ _ _ _ _ _ _ _ _ Ff) Hr) as (v & k & _ & Cv & A). rewrite Eg in *. eapply Hscore; [| | |exact Cv|exact A].
        + exists (genotype (heap s r)). split; [specialize (Pi r Hr); rewrite Eg in Pi; exact Pi|]. rewrite Rk by auto.
          assert (D : decoded g (set_rank (Some (SV1 (ones (rank_count F (heap s) (members (population gd)) r)))) (heap s r))).
          { pose proof (proj2 (mn_fresh _ _ I r Hr)) as D. rewrite Eg in D. exact D. }
          apply decoded_point in D. exact D.
        + lia.
        + rewrite Rk by auto. eexists. reflexivity.
      - destruct (front_set gd' s' front M' Fi' (mf_front _ _ _ _ _ _ _ _ _ _ Ff) Ne) as [Nf Fp]. pose proof (mf_best _ _ _ _ _ _ _ _ _ _ Ff) as B.
        destruct (map (heap s') front) as [|i l] eqn:E; [congruence|]. cbn [inds_eqb] in B. eauto 10.
    Qed.
    Lemma multi_run_safe : forall c gd s, mready c -> MInit gd s -> fits gd -> pop_in gd s -> big (length (members (population gd))) -> (exists e, early_stop gd = Some e) ->
      num_generations gd <= lim ->
      only Exc (run_loop fuel c gd) s /\ forall c' gd' s', run_loop fuel c gd s = Ok (c', gd') s' -> safe (print_best_solution gd') s'.
    Proof.
      intros c gd s Rd I Fi Pi Bg He Hn. pose proof (multi_first_safe c gd s Rd I Fi Pi) as Fs. unfold safe, first_generation, bind in Fs.
      destruct (fitness_execute (c_fitness c) gd s) as [u s1|e'|] eqn:R1; [|destruct (Fs e' eq_refl)|].
      2:{ split; [intros e|intros c' gd' s']; unfold run_loop, bind; rewrite R1; discriminate. }
      destruct (update gd s1) as [gd1 s2|e'|] eqn:R2; [|destruct (Fs e' eq_refl)|].
      2:{ split; [intros e|intros c' gd' s']; unfold run_loop, bind; rewrite R1, R2; discriminate. }
      assert (Go : mgoing c gd1 s2 /\ idx_generation gd1 = 1 /\ num_generations gd1 = num_generations gd) by (eapply multi_first_going; eauto; unfold first_generation, bind; rewrite R1; exact R2).
      destruct Go as (Go & Hg1 & Hn1). assert (Hk : idx_generation gd1 + Z.of_nat (Z.to_nat (num_generations gd1 - 1)) <= lim) by lia.
      split.
      - intros e. unfold run_loop, bind. rewrite R1, R2. apply multi_loop_safe; auto.
      - intros c' gd' s' R. unfold run_loop, bind in R. rewrite R1, R2 in R. apply multi_loop_going in R; auto.
        destruct R as (_ & _ & _ & _ & _ & _ & _ & _ & set & k & Eb & _ & Fp). unfold print_best_solution. rewrite Eb. clear Eb.
        induction Fp as [|i l Hi Fp IH]; cbn [miter]; [apply safe_ret|]. apply safe_bind; [|intros u0 s0 R0].
        + destruct (phenotype i); [apply safe_ret|congruence].
        + destruct (phenotype i); [|congruence]. apply ret_ok in R0. destruct R0 as [_ ->]. auto.
    Qed.
  End Step.
End MultiSafetyProofs.
