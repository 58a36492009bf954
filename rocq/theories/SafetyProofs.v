(** Runs of the single-objective algorithms with tournament selection never raise. *)
From Coq Require Import String.
From Coq Require Import ZArith List Bool Lia Permutation.
From Verif Require Import Spec Num State Binary Population GaData Crossover Mutation Selection Penalty Fitness NewGeneration Driver
  ListLemmas Rnd Exec Laws CodingProofs PopulationProofs CrossoverProofs MutationProofs SelectionProofs VegaProofs
  NewGenProofs UpdateProofs FitnessProofs StepProofs RunProofs Runs PropCrossover PropRun DomainProofs.
Import ListNotations.
Open Scope list_scope.
Open Scope Z_scope.

Section SafetyProofs.
  Context {NO : NumOps}.

  (** The best solution as a single-objective run knows it at a generation. *)
  Definition sane_best (gen : Z) (best : best_sol) : Prop :=
    (gen = 0 /\ best = BNone) \/ (0 < gen /\ exists i g, best = BSingle i g).
  (** Every evaluation of a point of the search space succeeds. *)
  Definition total_eval (f : fitness) (g : gspec) : Prop :=
    forall k pt gen best i, domain_point g pt -> sane_best gen best ->
      exists v j, called f k pt = inr v /\ assess f gen best v i = inr j.

  Lemma evaluated_in : forall f gen best h h' k us cs r, evaluated f gen best h h' k us cs -> In r us ->
    exists v, assess f gen best v (h r) = inr (h' r).
  Proof. induction 1; intros Hr; [destruct Hr|]. destruct Hr as [->|Hr]; eauto. Qed.

  (** The same for one generation and for individuals whose rank satisfies [Rk]. *)
  Definition total_at (f : fitness) (g : gspec) (gen : Z) (best : best_sol) (Rk : option sval -> Prop) : Prop :=
    forall k pt i, domain_point g pt -> Rk (rank i) -> exists v j, called f k pt = inr v /\ assess f gen best v i = inr j.
  Lemma evaluate_all_safe : forall f g gen best Rk l s, total_at f g gen best Rk ->
    (forall r, In r l -> unscored s r = true -> domain_point g (genotype (heap s r)) /\ Rk (rank (heap s r))) ->
    safe (miter (evaluate f gen best) l) s.
  Proof.
    intros f g gen best Rk l s T H.
    apply safe_miter with (P := fun _ s1 => forall r, In r l -> unscored s1 r = true -> domain_point g (genotype (heap s1 r)) /\ Rk (rank (heap s1 r))); auto.
    - intros d x rest s1 El P. apply evaluate_safe. intros U. destruct (P x) as [P1 P2]; auto. rewrite El. apply in_or_app; right; left; auto.
    - intros d x rest s1 s2 El P E r Hr U. apply evaluate_ok in E. destruct E as [[_ ->]|(Un & v & Cv & Av & _ & _ & O)]; [auto|].
      destruct (Nat.eq_dec r x) as [->|Hne].
      + apply assess_scored in Av. unfold unscored in U. congruence.
      + unfold unscored in U. rewrite O in * by auto. apply P; auto.
  Qed.

  (** Individuals whose phenotype is present or can be computed. *)
  Definition decodable (g : gspec) (i : individ) : Prop :=
    in_domain g (genotype i) /\ (decoded g i \/ (is_phenotype g = true /\ phenotype i = Some None)) /\
    match g with GenBinary gray gens bp => exists ph, decode_genotype gray gens bp (genotype i) = inr ph | _ => True end.
  Lemma base_fitness_safe_at : forall f gd s Rk,
    let l := members (population gd) in let g := gspec_of (population gd) in
    total_at f g (idx_generation gd) (best_solution gd) Rk ->
    (forall r, In r l -> unscored s r = true -> once l r) ->
    (forall r, In r l -> decodable g (heap s r) /\ Rk (rank (heap s r))) ->
    safe (base_fitness_execute f gd) s.
  Proof.
    intros f gd s Rk l g T Ho D0. assert (D : forall r, In r l -> decodable g (heap s r)) by (intros r Hr; apply D0; auto). unfold base_fitness_execute. fold l g. destruct (is_phenotype g) eqn:Ep.
    - apply safe_bind.
      { apply safe_bind.
        - apply get_phenotype_safe. intros r Hr. destruct (D r Hr) as (_ & Dd & Dx). destruct g as [gray gens bp| |] eqn:Eg; try discriminate.
          destruct Dd as [(ph & -> & _)|[_ ->]]; auto. destruct Dx as (ph & Dx). eauto 10.
        - intros u s1 R1. apply get_phenotype_ok in R1. destruct R1 as (_ & _ & _ & _ & _ & _ & _ & _ & K1). apply swap_safe. auto. }
      intros u s2 R. bd R u0 s1 R1. apply get_phenotype_ok in R1. destruct R1 as (N1 & L1 & S1 & P1 & T1 & E1 & O1 & F1 & K1).
      apply swap_ok in R. destruct R as (Q2 & L2 & _ & H2).
      assert (Us : forall r, unscored s2 r = unscored s r).
      { intros r. unfold unscored. rewrite H2.
        assert (Es : score (heap s1 r) = score (heap s r)) by (destruct (F1 r) as [->|(_ & gr & ge & bp & ph & _ & _ & ->)]; auto).
        destruct (Nat.odd _); [|rewrite Es; auto]. unfold swap_ind. destruct (phenotype (heap s1 r)) as [[ph|]|]; cbn; rewrite Es; auto. }
      apply safe_bind.
      + apply (evaluate_all_safe f g _ _ Rk); auto. intros r Hr U. rewrite Us in U.
        assert (Er : rank (heap s2 r) = rank (heap s r)).
        { rewrite H2. assert (Es : rank (heap s1 r) = rank (heap s r)) by (destruct (F1 r) as [->|(_ & gr & ge & bp & ph & _ & _ & ->)]; auto).
          destruct (Nat.odd _); [|rewrite Es; auto]. unfold swap_ind. destruct (phenotype (heap s1 r)) as [[ph|]|]; cbn; rewrite Es; auto. }
        split; [clear Er|rewrite Er; apply D0; auto]. pose proof (Ho r Hr U) as C. unfold once in C.
        rewrite H2, C. change (Nat.odd 1) with true. cbv iota. destruct (K1 r Hr) as [ph Ph]. unfold swap_ind. rewrite Ph. cbn [genotype dress set_genotype set_phenotype].
        destruct (D r Hr) as (Dom & Dd & Dx). exists (genotype (heap s r)). split; auto.
        destruct g as [gray gens bp| |] eqn:Eg; try discriminate. cbn.
        destruct (F1 r) as [E|(Pn & gr & ge & bp' & ph' & Eg' & Dc & E)]; rewrite E in Ph.
        * destruct Dd as [(ph0 & Ph0 & Dc)|[_ C0]]; congruence.
        * inversion Eg'; subst. cbn in Ph. inversion Ph; subst. auto.
      + intros u1 s3 R3. apply evaluate_all_ok in R3. destruct R3 as (cs & _ & _ & Ev & O3). apply swap_safe. intros r Hr.
        assert (X : exists ph, phenotype (heap s2 r) = Some (Some ph)).
        { rewrite H2. destruct (K1 r Hr) as [ph Ph]. destruct (Nat.odd _); [|eauto]. unfold swap_ind. rewrite Ph. cbn. eauto. }
        destruct X as [ph Ph]. destruct (in_dec Nat.eq_dec r (news s2 l)) as [Hi|Hi].
        * destruct (evaluated_in _ _ _ _ _ _ _ _ _ Ev Hi) as (v & Av). apply assess_keeps in Av. destruct Av as (_ & -> & _). eauto.
        * rewrite O3 by auto. eauto.
    - apply safe_bind; [apply safe_ret|]. intros u s1 R1. apply ret_ok in R1. destruct R1 as [_ ->].
      apply safe_bind; [|intros; apply safe_ret]. apply (evaluate_all_safe f g _ _ Rk); auto.
      intros r Hr U. split; [|apply D0; auto]. destruct (D r Hr) as (Dom & _). exists (genotype (heap s r)). split; auto. destruct g; [discriminate| |]; reflexivity.
  Qed.
  Lemma base_fitness_safe : forall f gd s,
    let l := members (population gd) in let g := gspec_of (population gd) in
    total_eval f g -> sane_best (idx_generation gd) (best_solution gd) ->
    (forall r, In r l -> unscored s r = true -> once l r) ->
    (forall r, In r l -> decodable g (heap s r)) ->
    safe (base_fitness_execute f gd) s.
  Proof. intros f gd s l g T Sb Ho D. apply (base_fitness_safe_at f gd s (fun _ => True)); auto. intros k pt i Dp _. apply T; auto. Qed.

  (** *** The requirements on the components *)
  Record ready (ok : num -> Prop) (c : comps) (gd : gadata) : Prop := {
    rd_belongs : belongs (c_crossover c) (c_mutation c) (gspec_of (population gd));
    rd_sel : exists t, c_selection c = SelTournament t /\ 2 <= t < num_individ (population gd);
    rd_pairs : exists x, ntrunc (nmul (children_percent gd) (nofZ (num_individ (population gd)))) = Some x /\ 1 <= x;
    rd_mut : mut_spec_ok (c_mutation c) (gspec_of (population gd));
    rd_geno : forall x, in_domain (gspec_of (population gd)) x ->
      (min_len (c_crossover c) <= length x)%nat /\ mut_pre (c_mutation c) (gspec_of (population gd)) x /\
      Forall (gene_ok (ok := ok)) x;
    rd_decode : forall x, in_domain (gspec_of (population gd)) x ->
      match gspec_of (population gd) with GenBinary gray gens bp => exists ph, decode_genotype gray gens bp x = inr ph | _ => True end;
    rd_eval : total_eval (c_fitness c) (gspec_of (population gd))
  }.
  Lemma ready_ext : forall ok c c' gd gd', same_sort (c_mutation c) (c_mutation c') -> c_fitness c' = c_fitness c -> c_selection c' = c_selection c ->
    c_crossover c' = c_crossover c -> mut_spec_ok (c_mutation c') (gspec_of (population gd)) ->
    num_individ (population gd') = num_individ (population gd) -> gspec_of (population gd') = gspec_of (population gd) ->
    children_percent gd' = children_percent gd -> ready ok c gd -> ready ok c' gd'.
  Proof.
    intros ok c c' gd gd' Hs E1 E2 E3 Hm F1 F2 F3 [A1 A2 A3 A4 A5 A6 A7]. constructor; rewrite ?E1, ?E2, ?E3, ?F1, ?F2, ?F3; auto.
    - eapply belongs_sort; eauto.
    - intros x Hx. destruct (A5 x Hx) as (B1 & B2 & B3). split; auto. split; auto. destruct (c_mutation c), (c_mutation c'); cbn in Hs |- *; try congruence; inversion Hs; subst; exact B2.
  Qed.

  Lemma members_grow : forall c gd s c' gd' s' kids els h cs l0 bst md w, Step c gd s c' gd' s' kids els h cs l0 bst md w ->
    num_individ (population gd) - Z.of_nat (length kids) < Z.of_nat (length (members (population gd))) ->
    num_individ (population gd) < Z.of_nat (length (members (population gd'))).
  Proof.
    intros c gd s c' gd' s' kids els h cs l0 bst md w St Hl.
    destruct (st_taken _ _ _ _ _ _ _ _ _ _ _ _ _ _ St) as (s1 & _ & Tk). apply taken_length in Tk; auto.
    destruct (st_members _ _ _ _ _ _ _ _ _ _ _ _ _ _ St) as [_ Pm]. apply Permutation_length in Pm. rewrite Pm, app_length, Tk.
    destruct (0 <? _) eqn:E; [apply Z.ltb_lt in E|apply Z.ltb_ge in E]; lia.
  Qed.

  Lemma dup_free_domain : forall g x, (exists a b k, g = GenOrd a b k) -> in_domain g x -> dup_free gv_eqb x.
  Proof. intros g x (a & b & k & ->) (zs & -> & _ & N & _). apply ints_dup_free; auto. Qed.

  Lemma ga_step_safe : forall ok fuel c gd s, NumOrder NO ok -> good_scores ok (c_fitness c) -> single c -> GI ok gd s ->
    ready ok c gd -> pop_in gd s -> num_individ (population gd) <= Z.of_nat (length (members (population gd))) ->
    0 < idx_generation gd -> (exists i g x, best_solution gd = BSingle i g /\ score i = SV1 x) ->
    safe (ga_step fuel c gd) s.
  Proof.
    intros ok fuel c gd s NL Gs (Fk & Ng & Ho) I Rd Pi Hn Hgen Hbest. destruct I as [Is Ine Ia It Iso Iasc]. destruct Rd as [Rb Rs Rp Rm Rg Rdc Re].
    destruct Rs as (t & Et & Ht). destruct Rp as (np & Hnp & Hnp1). unfold ga_step.
    apply safe_bind.
    { rewrite Et. apply (tournament_execute_safe ok NL); auto; [|lia|exists np; auto].
      intros r Hr. destruct (It r Hr) as [(x & Ex & Ox) _]. exists x. split; auto. cbn. rewrite Ex. reflexivity. }
    intros gd1 s1 R1. apply selection_ok in R1; auto. destruct R1 as (T1 & a & n & Hnn & -> & La & N1 & Fp).
    destruct T1 as [(Nx1 & L1 & S1 & P1 & C1) T1].
    rewrite Et in Hnn. cbn in Hnn. destruct Hnn as (x & Hx & ->). assert (x = np) by (cbn in Hx; congruence). subst x.
    set (n := Z.to_nat np) in *.
    destruct (members (population gd)) as [|first rest] eqn:Em; [congruence|]. rewrite <- Em in *.
    assert (If : In first (members (population gd))) by (rewrite Em; left; auto).
    assert (G1 : forall r, In r (members (population gd)) -> genotype (heap s1 r) = genotype (heap s r)).
    { intros r Hr. destruct (C1 r (Ia r Hr)) as (E & _). auto. }
    assert (Par : forall r, In r (seq a (2 * n)) -> exists m, In m (members (population gd)) /\ genotype (heap s1 r) = genotype (heap s m)).
    { intros r Hr. rewrite Forall_forall in Fp. destruct (Fp r Hr) as (m & Im & E). exists m. split; auto. destruct E as (E & _). auto. }
    assert (Plen : forall x y, in_domain (gspec_of (population gd)) x -> in_domain (gspec_of (population gd)) y -> length x = length y).
    { intros x y Dx Dy. destruct (gspec_of (population gd)); cbn in Dx, Dy.
      - destruct Dx as (? & -> & ?), Dy as (? & -> & ?). rewrite !map_length. lia.
      - apply Forall2_length in Dx. apply Forall2_length in Dy. congruence.
      - destruct Dx as (? & -> & ? & _), Dy as (? & -> & ? & _). rewrite !map_length. lia. }
    apply safe_bind.
    { apply (crossover_execute_safe (ok := ok) NL (c_crossover c) (length (genotype (heap s first))) _ s1 n); cbn [population set_parents parents].
      - split; [intros r Hr; apply Ia in Hr; lia|]. split; [exists first, rest; split; auto; rewrite G1; auto|].
        intros r Hr. split; [apply in_seq in Hr; cbn [next]; lia|]. destruct (Par r Hr) as (m & Im & Eg). rewrite Eg. split.
        + apply Plen; apply Pi; auto.
        + intros Eo. destruct (Rg _ (Pi m Im)) as (_ & _ & Go). split; auto. eapply dup_free_domain; [|apply Pi; exact Im].
          rewrite Eo in Rb. inversion Rb; subst; try congruence. eauto.
      - apply Rg. apply Pi; auto.
      - rewrite seq_length. auto. }
    intros gd2 s2 R2. apply crossover_made in R2.
    2:{ cbn. intros r Hr. apply Ia in Hr. lia. }
    2:{ cbn [parents set_parents]. intros r Hr. apply in_seq in Hr. lia. }
    cbn [population set_parents parents] in R2. destruct R2 as (first' & rest' & n' & Em' & Ln & -> & N2 & X2 & F2).
    rewrite Em in Em'. inversion Em'; subst first' rest'. clear Em'.
    rewrite seq_length in Ln. assert (n' = n) by lia. subst n'. clear Ln. destruct X2 as (_ & L2 & S2 & P2 & X2).
    set (kids := seq (next s1) n) in *. assert (NDk : NoDup kids) by apply seq_NoDup.
    assert (Hkids : forall r, In r kids <-> (next s1 <= r < next s1 + n)%nat) by (intros; apply in_seq).
    assert (Kd : forall r, In r kids -> in_domain (gspec_of (population gd)) (genotype (heap s2 r)) /\ exists g, heap s2 r = child_of (heap s1 first) g).
    { intros r Hr. rewrite Forall_forall in F2. destruct (F2 r Hr) as (p1 & p2 & g & I1 & I2 & Ma & E). split; [|eauto]. rewrite E. cbn.
      destruct (Par _ I1) as (m1 & M1 & E1). destruct (Par _ I2) as (m2 & M2 & E2). rewrite E1, E2, G1 in Ma by auto.
      eapply domain_made; [exact Rb| | | |exact Ma]; apply Pi; auto. }
    apply safe_bind.
    { apply mutation_execute_safe; cbn [children set_children population set_parents]; auto. intros r Hr. apply Rg. apply Kd; auto. }
    intros m' s3 R3. apply mutation_execute_ok in R3; [|exact NDk]. cbn [children set_children population set_parents] in R3.
    destruct R3 as [(N3 & L3 & S3 & P3 & Mu) Hm'].
    assert (Old : forall r, (r < next s)%nat -> heap s3 r = heap s1 r).
    { intros r Hr. destruct (Mu r) as (g & E & _ & K). rewrite K in E; [|rewrite Hkids; lia]. rewrite E, set_genotype_same. apply X2. lia. }
    assert (Kd3 : forall r, In r kids -> in_domain (gspec_of (population gd)) (genotype (heap s3 r)) /\ exists g, heap s3 r = child_of (heap s1 first) g).
    { intros r Hr. destruct (Kd r Hr) as (Dm & g & E). destruct (Mu r) as (g' & E' & K & _). rewrite E'. split.
      - cbn. eapply domain_mutated; [exact Rb|exact Dm|apply K; auto].
      - exists g'. rewrite E. reflexivity. }
    assert (Ms : forall r, In r (members (population gd)) -> settled ok (gspec_of (population gd)) (heap s3 r) /\ genotype (heap s3 r) = genotype (heap s r)).
    { intros r Hr. rewrite Old by auto. split; [|auto]. apply (settled_core ok _ (heap s r)); [apply C1|apply It]; auto. }
    assert (Lk : length kids = n) by apply seq_length.
    apply safe_bind.
    { apply (newgen_single_safe ok); cbn [population set_children set_parents children]; auto.
      - intros r Hr. destruct (Ms r Hr) as [[(x & Ex & Ox) _] Eg]. split; [exists x; cbn; rewrite Ex; auto|]. rewrite Eg. apply Rg. apply Pi; auto.
      - unfold n in *. lia. }
    intros gd3 s4 R4. apply newgen_single_ok in R4; auto. cbn [children set_children population set_parents] in R4.
    destruct R4 as (l & els & So & Tk & E4 & ->). unfold sorted_from in So. rewrite Iso in So. subst l.
    assert (H4 : heap s4 = heap s3) by (rewrite E4; auto). clear E4.
    destruct (list_snoc _ Ine) as (l1 & b & Eb).
    change (length (seq (next s1) n)) with (length kids) in *.
    destruct (taken_snoc s3 (ng_transfer (c_newgen c)) (num_individ (population gd) - Z.of_nat (length kids)) l1 b els) as (e & Ee & Ie); [rewrite <- Eb; auto|]. rewrite <- Eb in Ie.
    assert (Iels : incl els (members (population gd))).
    { rewrite Ee. intros z Hz. apply in_app_or in Hz. destruct Hz as [Hz|[<-|[]]]; auto. rewrite Eb. apply in_or_app; right; left; auto. }
    assert (Hun1 : forall r, In r kids -> unscored s4 r = true).
    { intros r Hr. destruct (Kd3 r Hr) as (_ & g & E). unfold unscored. rewrite H4, E. reflexivity. }
    assert (Hun2 : forall r, In r els -> unscored s4 r = false).
    { intros r Hr. destruct (Ms r (Iels r Hr)) as [[(z & E & _) _] _]. unfold unscored. rewrite H4, E. reflexivity. }
    assert (Dis : forall r, In r kids -> ~ In r els).
    { intros r Hr C. apply Iels, Ia in C. apply Hkids in Hr. lia. }
    set (g := gspec_of (population gd)) in *.
    assert (Hfr : forall r, In r kids -> decoded g (heap s3 r) \/ (is_phenotype g = true /\ phenotype (heap s3 r) = Some None)).
    { intros r Hr. destruct (Kd3 r Hr) as (_ & gg & E). rewrite E. destruct (Ms first If) as [[_ D] _]. rewrite Old in D by (apply Ia; auto).
      destruct g as [gray gens bp|gens|x y z]; cbn in D |- *.
      - right. destruct D as (ph & -> & _). auto.
      - left. rewrite D. auto.
      - left. rewrite D. auto. }
    assert (Hone : forall r, In r (kids ++ els) -> unscored s4 r = true -> once (kids ++ els) r).
    { intros r Hr Hu. apply in_app_or in Hr. destruct Hr as [Hr|Hr]; [apply once_app; auto|]. rewrite Hun2 in Hu by auto. discriminate. }
    apply safe_bind.
    { unfold fitness_execute. rewrite Fk. cbn [is_multi_kind]. apply base_fitness_safe;
        cbn [population with_next set_children set_population set_sorted set_members set_parents members gspec_of idx_generation best_solution]; fold g kids; auto.
      - right. split; auto. destruct Hbest as (i & g' & x & E & _). eauto.
      - intros r Hr. rewrite H4. apply in_app_or in Hr. destruct Hr as [Hr|Hr].
        + destruct (Kd3 r Hr) as (Dm & _). split; [exact Dm|]. split; [apply Hfr; auto|]. apply Rdc. exact Dm.
        + destruct (Ms r (Iels r Hr)) as [[_ D] Eg]. split; [rewrite Eg; apply Pi; auto|]. split; [auto|]. rewrite Eg. apply Rdc. apply Pi; auto. }
    intros u5 s5 R5. unfold fitness_execute in R5. rewrite Fk in R5. cbn [is_multi_kind] in R5. apply base_fitness_ok in R5.
    2:{ cbn [population with_next set_children set_population set_sorted set_members members]. auto. }
    cbn [population with_next set_children set_population set_sorted set_members set_parents members gspec_of idx_generation best_solution] in R5. fold g kids in R5.
    rewrite (news_app s4 kids els NDk Hun1 Hun2) in R5.
    destruct R5 as (h & cs & Fh & Fo & _ & L5 & As & O5).
    apply safe_bind; [|intros; apply safe_ret]. unfold update. cbn [is_multi with_next set_children set_population set_parents]. rewrite Is.
    apply (update_single_safe ok); cbn [population with_next set_children set_population set_sorted set_members set_parents members best_solution].
    - intros r Hr. fold kids in Hr. apply in_app_or in Hr. destruct Hr as [Hr|Hr].
      + destruct (assessed_in _ _ _ _ _ _ _ _ _ _ As Hr) as (v & k' & _ & Cv & Av). destruct (Gs _ _ _ _ _ _ _ Cv Av) as (x & Ex & Ox).
        exists x. cbn. rewrite Ex. auto.
      + assert (E : heap s5 r = heap s4 r).
        { rewrite O5 by (intros C; apply (Dis r); auto). eapply filled_same; [|apply Fh; apply in_or_app; auto]. rewrite H4. apply (Ms r (Iels r Hr)). }
        destruct (Ms r (Iels r Hr)) as [[(x & Ex & Ox) _] _]. exists x. cbn. rewrite E, H4, Ex. auto.
    - fold kids. rewrite Ee. destruct kids; [destruct e|]; discriminate.
    - right. destruct Hbest as (i & g' & x & E & Ex). eauto 10.
  Qed.

  Lemma first_safe : forall ok c gd s, NumOrder NO ok -> good_scores ok (c_fitness c) -> single c -> Init gd s ->
    ready ok c gd -> pop_in gd s -> members (population gd) <> [] ->
    safe (first_generation (c_fitness c) gd) s.
  Proof.
    intros ok c gd s NL Gs (Fk & Ng & Ho) I Rd Pi Ne. destruct I as [Im Iu Ind Ia If (Ig & Ini & Ib) (Ih1 & Ih2 & Ih3)]. destruct Rd as [Rb Rs Rp Rm Rg Rdc Re].
    unfold first_generation. apply safe_bind.
    - unfold fitness_execute. rewrite Fk. cbn [is_multi_kind]. apply base_fitness_safe; auto.
      + left. auto.
      + intros r Hr _. apply (NoDup_count_occ' Nat.eq_dec); auto.
      + intros r Hr. destruct (If r Hr) as [_ D]. split; [apply Pi; auto|]. split; auto. apply Rdc. apply Pi; auto.
    - intros u s1 R. unfold fitness_execute in R. rewrite Fk in R. cbn [is_multi_kind] in R. apply base_fitness_ok in R.
      2:{ intros r Hr _. apply (NoDup_count_occ' Nat.eq_dec); auto. }
      destruct R as (h & cs & Fh & Fo & Q & L & As & O). unfold update. rewrite Im. apply (update_single_safe ok); auto.
      intros r Hr.
      assert (Hi : In r (news s (members (population gd)))).
      { apply news_in. split; auto. destruct (If r Hr) as [(E & _) _]. unfold unscored. rewrite E. reflexivity. }
      destruct (assessed_in _ _ _ _ _ _ _ _ _ _ As Hi) as (v & k' & _ & Cv & Av). destruct (Gs _ _ _ _ _ _ _ Cv Av) as (x & Ex & Ox).
      exists x. cbn. rewrite Ex. auto.
  Qed.

  (** *** The loop *)
  Definition going (ok : num -> Prop) (c : comps) (gd : gadata) (s : st) : Prop :=
    GI ok gd s /\ single c /\ good_scores ok (c_fitness c) /\ ready ok c gd /\ pop_in gd s /\
    num_individ (population gd) <= Z.of_nat (length (members (population gd))) /\ 0 < idx_generation gd /\
    (exists i g x, best_solution gd = BSingle i g /\ score i = SV1 x) /\ (exists e, early_stop gd = Some e).
  Lemma going_step : forall ok fuel c gd s c' gd' s', NumOrder NO ok -> going ok c gd s -> ga_step fuel c gd s = Ok (c', gd') s' -> going ok c' gd' s'.
  Proof.
    intros ok fuel c gd s c' gd' s' NL (G & Si & Gs & Rd & Pi & Hn & Hg & Hb & He) R. pose proof Si as (Fk & Ng & Ho).
    destruct (step_ok ok fuel c gd s c' gd' s' NL Gs Fk Ng Ho G R) as (kids & els & h & cs & l0 & bst & md & w & St & G').
    destruct (step_same_comps _ _ _ _ _ _ _ _ _ _ _ _ _ _ St) as (E1 & E2 & E3 & E4).
    destruct (st_comps _ _ _ _ _ _ _ _ _ _ _ _ _ _ St) as (m' & Ec & Em).
    pose proof (st_pop _ _ _ _ _ _ _ _ _ _ _ _ _ _ St) as Ep. destruct (st_params _ _ _ _ _ _ _ _ _ _ _ _ _ _ St) as (F1 & F2 & F3).
    destruct (step_in _ _ _ _ _ _ _ _ _ _ _ _ _ _ St (gi_alloc _ _ _ G) (rd_belongs _ _ _ Rd) Pi) as (_ & P2 & _).
    split; auto. split; [unfold single; rewrite E1, E2, E4; auto|]. split; [rewrite E1; auto|]. split; [|split; [auto|split; [|split; [|split]]]].
    - apply (ready_ext ok c c' gd gd'); auto.
      + rewrite Ec. cbn [c_mutation set_mutation]. destruct (c_mutation c); cbn; auto. destruct Em as (x & ->). exact I.
      + rewrite Ec. cbn [c_mutation set_mutation]. pose proof (rd_mut _ _ _ Rd) as Rm. destruct (c_mutation c); cbn in Rm |- *; try (rewrite Em; exact Rm).
        destruct Em as (x & ->). cbn. destruct (gspec_of (population gd)); auto.
      + rewrite Ep. reflexivity.
      + rewrite Ep. reflexivity.
    - rewrite Ep. cbn [num_individ set_sorted set_members]. rewrite <- Ep. apply Z.lt_le_incl. eapply members_grow; [exact St|].
      pose proof (st_count _ _ _ _ _ _ _ _ _ _ _ _ _ _ St) as Cn. destruct (rd_sel _ _ _ Rd) as (t & Et & _). rewrite Et in Cn. cbn in Cn.
      destruct Cn as (x & Hx & Hk). destruct (rd_pairs _ _ _ Rd) as (y & Hy & Hy1). assert (x = y) by congruence. lia.
    - rewrite (st_gen _ _ _ _ _ _ _ _ _ _ _ _ _ _ St). lia.
    - pose proof (st_best _ _ _ _ _ _ _ _ _ _ _ _ _ _ St) as B.
      destruct (gi_settled _ _ _ G' bst) as [(y & Ey & _) _]; [rewrite (proj1 (st_members _ _ _ _ _ _ _ _ _ _ _ _ _ _ St)); apply in_or_app; right; left; auto|].
      destruct Hb as (i & g0 & x & Eb & Ex). unfold best_after in B. rewrite Eb in B. destruct (sv_lt _ _); inversion B; eauto.
    - rewrite F2. auto.
  Qed.
  Lemma loop_safe : forall ok fuel n c gd s, NumOrder NO ok -> going ok c gd s -> safe (ga_loop fuel n c gd) s.
  Proof.
    intros ok fuel n. induction n as [|n IH]; intros c gd s NL G; cbn [ga_loop]; [apply safe_ret|]. apply safe_bind.
    - destruct G as (G & Si & Gs & Rd & Pi & Hn & Hg & Hb & He). apply (ga_step_safe ok); auto.
    - intros [c1 gd1] s1 R. pose proof (going_step _ _ _ _ _ _ _ _ NL G R) as G1. cbn [fst snd]. pose proof G1 as (_ & _ & _ & _ & _ & _ & _ & _ & (e & He)).
      unfold should_stop. rewrite He. apply safe_bind; [apply safe_ret|]. intros b s2 R2. apply ret_ok in R2. destruct R2 as [-> ->].
      destruct (e <? no_improve gd1); [apply safe_ret|]. apply IH; auto.
  Qed.
  Lemma first_going : forall ok c gd s gd' s', NumOrder NO ok -> good_scores ok (c_fitness c) -> single c -> Init gd s ->
    ready ok c gd -> pop_in gd s -> num_individ (population gd) <= Z.of_nat (length (members (population gd))) -> (exists e, early_stop gd = Some e) ->
    first_generation (c_fitness c) gd s = Ok gd' s' -> going ok c gd' s'.
  Proof.
    intros ok c gd s gd' s' NL Gs Si I Rd Pi Hn He R.
    destruct (first_ok ok _ _ _ _ _ NL Gs (proj1 Si) I R) as (cs & l0 & bst & md & w & F & G).
    pose proof (fi_pop _ _ _ _ _ _ _ _ _ _ F) as Ep. destruct (fi_params _ _ _ _ _ _ _ _ _ _ F) as (F1 & F2 & F3).
    destruct (fi_members _ _ _ _ _ _ _ _ _ _ F) as [Em Pm].
    split; auto. split; auto. split; auto. split; [|split; [|split; [|split; [|split]]]].
    - apply (ready_ext ok c c gd gd'); auto; try (rewrite Ep; reflexivity); [destruct (c_mutation c); cbn; auto|apply (rd_mut _ _ _ Rd)].
    - intros r Hr. apply (Permutation_in _ Pm) in Hr. rewrite Ep. cbn [gspec_of set_sorted set_members].
      destruct (assessed_in _ _ _ _ _ _ _ _ _ _ (fi_eval _ _ _ _ _ _ _ _ _ _ F) Hr) as (v & k & _ & _ & A). apply assess_keeps in A. destruct A as (-> & _). auto.
    - apply Permutation_length in Pm. rewrite Pm, Ep. auto.
    - rewrite (fi_gen _ _ _ _ _ _ _ _ _ _ F). lia.
    - destruct (fi_best _ _ _ _ _ _ _ _ _ _ F) as [Eb _].
      destruct (gi_settled _ _ _ G bst) as [(y & Ey & _) _]; [rewrite Em; apply in_or_app; right; left; auto|]. eauto 10.
    - rewrite F2. auto.
  Qed.
  Lemma run_safe : forall ok fuel c gd s, NumOrder NO ok -> good_scores ok (c_fitness c) -> single c -> Init gd s ->
    ready ok c gd -> pop_in gd s -> num_individ (population gd) <= Z.of_nat (length (members (population gd))) -> (exists e, early_stop gd = Some e) ->
    safe (run_loop fuel c gd) s.
  Proof.
    intros ok fuel c gd s NL Gs Si I Rd Pi Hn He.
    assert (Ne : members (population gd) <> []).
    { intros C. rewrite C in Hn. cbn in Hn. destruct (rd_sel _ _ _ Rd) as (t & _ & Ht). lia. }
    pose proof (first_safe ok c gd s NL Gs Si I Rd Pi Ne) as Fs.
    intros e. unfold run_loop, bind. unfold safe, first_generation, bind in Fs.
    destruct (fitness_execute (c_fitness c) gd s) as [u s1|e'|] eqn:R1; [|destruct (Fs e' eq_refl)|discriminate].
    destruct (update gd s1) as [gd1 s2|e'|] eqn:R2; [|destruct (Fs e' eq_refl)|discriminate].
    apply (loop_safe ok); auto. eapply first_going; eauto. unfold first_generation, bind. rewrite R1. exact R2.
  Qed.
End SafetyProofs.
