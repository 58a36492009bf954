(** One generation of a single-objective run (Driver.v): what ga_step does to the
    population, the individuals and the log of objective calls. *)
From Coq Require Import ZArith List Bool Lia Permutation Sorted.
From Verif Require Import Spec Num State Binary Population GaData Crossover Mutation Selection Penalty Fitness NewGeneration Driver
  ListLemmas Rnd Exec Laws PopulationProofs CrossoverProofs MutationProofs SelectionProofs BalancedProofs VegaProofs
  NewGenProofs UpdateProofs FitnessProofs.
Import ListNotations.
Open Scope list_scope.
Open Scope Z_scope.

Section StepProofs.
  Context {NO : NumOps}.

  (** *** Selection *)
  Definition num_pairs (sel : selection) (gd : gadata) (n : nat) : Prop :=
    match sel with
    | SelTournament _ | SelBalanced | SelRanked => exists x, pairs_wanted None gd x /\ n = Z.to_nat x
    | SelVegaTournament m _ => exists x, (0 < m -> pairs_wanted (Some m) gd x) /\ n = (Z.to_nat m * Z.to_nat x)%nat
    | SelVegaBalanced m | SelVegaRanked m => exists x, pairs_wanted (Some m) gd x /\ n = Z.to_nat x
    end.
  Lemma pairs_wanted_fun : forall m gd x y, pairs_wanted m gd x -> pairs_wanted m gd y -> x = y.
  Proof.
    intros [m|] gd x y; cbn.
    - intros (a & E & F) (b & E' & F'). congruence.
    - congruence.
  Qed.
  Lemma blocks_length : forall {A} (bs : list (list A)) n, (forall k b, nth_error bs k = Some b -> length b = n) ->
    length (concat bs) = (length bs * n)%nat.
  Proof.
    induction bs as [|b bs IH]; intros n H; cbn; auto. rewrite app_length, (IH n), (H 0%nat b); auto.
    intros k b' Hk. apply (H (S k)). auto.
  Qed.
  Definition parent_from (l : list nat) (s s' : st) (c : nat) : Prop := exists p, In p l /\ same_core (heap s p) (heap s' c).
  Lemma parents_from : forall l s s' (P : nat -> nat -> Prop) cs prs, (forall c p, P c p -> same_core (heap s p) (heap s' c)) ->
    Forall (fun p => In (fst p) l /\ In (snd p) l) prs -> Forall2 P cs (flatten_pairs prs) ->
    Forall (parent_from l s s') cs.
  Proof.
    intros l s s' P cs prs HP F H. assert (I : Forall (fun p => In p l) (flatten_pairs prs)).
    { clear - F. induction F as [|[a b] prs [I1 I2] F IH]; [constructor|]. cbn in *. repeat constructor; auto. }
    revert I. induction H as [|c p cs ps E H IH]; intros I; constructor; inversion I; subst; auto.
    exists p. auto.
  Qed.
  Lemma balanced_pass_from : forall f ranked m idx gd s gd' s', (forall r, In r (members (population gd)) -> (r < next s)%nat) ->
    balanced_pass f ranked m idx gd s = Ok gd' s' ->
    exists x, pairs_wanted m gd x /\ gd' = set_parents (seq (next s) (2 * Z.to_nat x)) gd /\ next s' = (next s + 2 * Z.to_nat x)%nat /\
      Forall (parent_from (members (population gd)) s s') (seq (next s) (2 * Z.to_nat x)).
  Proof.
    intros f ranked m idx gd s gd' s' Hlt H. apply balanced_pass_ok in H; auto.
    destruct H as (s1 & s2 & ws & scores & x & prs & Rn & N1 & _ & A & Fr & _ & _ & Hx & L & -> & N & X & F & F2).
    exists x. rewrite <- L. repeat split; auto.
    assert (I : Forall (fun p => In p (members (population gd))) (flatten_pairs prs)).
    { clear - F. induction F as [|[a b] prs (I1 & I2 & _) F IH]; [constructor|]. cbn in *. repeat constructor; auto. }
    revert I F2. generalize (flatten_pairs prs) (seq (next s) (2 * length prs)). intros ps cs I F2.
    induction F2 as [|c p cs ps E F2 IH]; constructor; inversion I; subst; auto. exists p. split; auto. rewrite E.
    destruct Fr as (_ & _ & _ & _ & Fr). apply Fr. auto.
  Qed.
  Lemma pairs_wanted_ext : forall m gd gd' x, population gd' = population gd -> children_percent gd' = children_percent gd ->
    pairs_wanted m gd' x -> pairs_wanted m gd x.
  Proof. intros [m|] gd gd' x P C; cbn; rewrite P, C; auto. Qed.
  Lemma parent_from_trans : forall l s0 s s' c, (forall r, In r l -> (r < next s0)%nat) -> frame s0 s -> parent_from l s s' c -> parent_from l s0 s' c.
  Proof.
    intros l s0 s s' c Hlt F (p & I & E). exists p. split; auto. eapply same_core_trans; [|exact E]. destruct F as (_ & _ & _ & _ & F). auto.
  Qed.

  Lemma selection_ok : forall f sel gd s gd' s', (forall r, In r (members (population gd)) -> (r < next s)%nat) -> objectives_ok sel ->
    selection_execute f sel gd s = Ok gd' s' ->
    touches_only (members (population gd)) s s' /\
    exists a n, num_pairs sel gd n /\ gd' = set_parents (seq a (2 * n)) gd /\ (next s <= a)%nat /\ next s' = (a + 2 * n)%nat /\
      Forall (parent_from (members (population gd)) s s') (seq a (2 * n)).
  Proof.
    intros f sel gd s gd' s' Hlt Ho H. split; [eapply selection_touches; eauto|].
    destruct sel as [t| | |m t|m|m].
    - apply tournament_execute_ok in H; auto. destruct H as (_ & x & prs & Hx & L & -> & N & Fr & F & _ & F2).
      exists (next s), (length prs). split; [exists x; auto|]. repeat split; auto.
      eapply parents_from with (P := fun c p => same_core (heap s p) (heap s' c) /\ rank (heap s' c) = rank (heap s p)); [tauto| |exact F2].
      eapply Forall_impl; [|exact F]. cbv beta. intros p (A1 & A2 & _). auto.
    - cbn [selection_execute] in H. apply balanced_pass_from in H; auto. destruct H as (x & Hx & -> & N & F). exists (next s), (Z.to_nat x). repeat split; auto. exists x; auto.
    - cbn [selection_execute] in H. apply balanced_pass_from in H; auto. destruct H as (x & Hx & -> & N & F). exists (next s), (Z.to_nat x). repeat split; auto. exists x; auto.
    - apply vega_tournament_ok in H; auto. destruct H as (_ & T & blocks & L & -> & N & K & F2).
      exists (next s), (length (concat blocks)). split.
      + cbn. destruct blocks as [|b0 bs].
        * exists 0. cbn in L. split; [lia|]. cbn. lia.
        * destruct (K 0%nat b0 eq_refl) as [(x & Hx & Lx) _]. exists x. split; auto. rewrite <- L. apply blocks_length.
          intros k b Hk. destruct (K k b Hk) as [(y & Hy & Ly) _]. rewrite (pairs_wanted_fun _ _ _ _ Hx Hy). auto.
      + repeat split; auto. eapply parents_from with (P := fun c p => same_core (heap s p) (heap s' c)); [auto| |exact F2].
        apply Forall_concat. apply Forall_forall. intros b Hb. apply In_nth_error in Hb. destruct Hb as (k & Hk). destruct (K k b Hk) as [_ V].
        eapply Forall_impl; [|exact V]. cbv beta. intros p (A1 & A2 & _). auto.
    - cbn [selection_execute] in H. destruct (last_zrange m Ho) as [Ne _]. apply vega_passes_ok in H; auto. destruct H as (g0 & s0 & T0 & P0 & C0 & E0 & R0).
      pose proof (touches_next _ _ _ T0) as N0.
      apply balanced_pass_from in R0; [|rewrite P0; intros r Hr; apply Hlt in Hr; lia]. destruct R0 as (x & Hx & -> & N & F). rewrite P0 in F.
      exists (next s0), (Z.to_nat x). split; [exists x; split; auto; eapply pairs_wanted_ext; eauto|]. split; [|repeat split; auto].
      + change (set_parents ?l g0) with (set_parents l (set_parents [] g0)). rewrite E0. reflexivity.
      + eapply Forall_impl; [|exact F]. intros c. apply parent_from_trans; auto. apply T0.
    - cbn [selection_execute] in H. bd H u s1 R1. apply set_rank_iter in R1. destruct R1 as [A1 _]. pose proof (touches_annotated _ _ _ A1) as T1.
      destruct (last_zrange m Ho) as [Ne _]. assert (N1 : next s1 = next s) by (destruct A1; auto).
      apply vega_passes_ok in H; auto; [|rewrite N1; auto]. destruct H as (g0 & s0 & T0 & P0 & C0 & E0 & R0).
      pose proof (touches_next _ _ _ T0) as N0.
      apply balanced_pass_from in R0; [|rewrite P0; intros r Hr; apply Hlt in Hr; lia]. destruct R0 as (x & Hx & -> & N & F). rewrite P0 in F.
      exists (next s0), (Z.to_nat x). split; [exists x; split; auto; eapply pairs_wanted_ext; eauto|]. split; [|repeat split; auto; try lia].
      + change (set_parents ?l g0) with (set_parents l (set_parents [] g0)). rewrite E0. reflexivity.
      + eapply Forall_impl; [|exact F]. intros c. apply parent_from_trans; auto. eapply frame_trans; [apply T1|apply T0].
  Qed.

  (** *** Crossover, whatever the parents look like *)
  Definition made (k : crossover_kind) (n : nat) (p1 p2 g : list gv) : Prop :=
    exists s gs s', crossover k (Z.of_nat n) p1 p2 s = Ok gs s' /\ (g = fst gs \/ g = snd gs).
  Lemma cross_pairs_made : forall l k n first s cs s',
    (forall r, In r l -> (r < next s)%nat) -> (first < next s)%nat ->
    cross_pairs k (Z.of_nat n) first l s = Ok cs s' ->
    length l = (2 * length cs)%nat /\ cs = seq (next s) (length cs) /\ next s' = (next s + length cs)%nat /\
    extends s s' /\
    Forall (fun c => exists p1 p2 g, In p1 l /\ In p2 l /\ made k n (genotype (heap s p1)) (genotype (heap s p2)) g /\
                     heap s' c = child_of (heap s first) g) cs.
  Proof.
    intros l. pattern l. apply pair_ind; clear l.
    - intros k n first s cs s' Hl Hf H. cbn [cross_pairs] in H. inv_run. repeat split; auto.
    - intros a k n first s cs s' Hl Hf H. discriminate.
    - intros a b l IH k n first s cs s' Hl Hf H. cbn [cross_pairs] in H.
      bd H ia sa Ra. apply get_ok in Ra. destruct Ra as [-> ->].
      bd H ib sb Rb. apply get_ok in Rb. destruct Rb as [-> ->].
      bd H c s3 R1. bd H cs' s4 R2. apply ret_ok in H. destruct H as [-> ->].
      assert (G : c = next s /\ next s3 = S (next s) /\ extends s s3 /\
        exists g, made k n (genotype (heap s a)) (genotype (heap s b)) g /\ heap s3 c = child_of (heap s first) g).
      { unfold get_child in R1. bd R1 i0 s0 R0. apply get_ok in R0. destruct R0 as [-> ->].
        bd R1 gs s1 R3. bd R1 coin s2 R4.
        pose proof (frame_heap_rnd _ _ _ _ (rnd_only_crossover _ _ _ _) R3) as (H1 & N1 & _).
        pose proof (frame_heap_rnd _ _ _ _ (rnd_only_randint _ _) R4) as (H2 & N2 & _).
        pose proof (extends_rnd _ _ _ _ (rnd_only_crossover _ _ _ _) R3) as X1.
        pose proof (extends_rnd _ _ _ _ (rnd_only_randint _ _) R4) as X2.
        pose proof (extends_alloc _ _ _ _ R1) as X3.
        apply frame_alloc in R1. destruct R1 as (_ & -> & Hh & Hn & _).
        split; [congruence|]. split; [congruence|].
        split; [eapply extends_trans; [eassumption|eapply extends_trans; eassumption]|].
        exists (if coin =? 1 then fst gs else snd gs). split; [|exact Hh].
        exists s, gs, s1. split; auto. destruct (coin =? 1); auto. }
      destruct G as (-> & N3 & X & g & Og & Hg). pose proof X as (_ & _ & _ & _ & Xh).
      destruct (IH k n first s3 cs' s4) as (L & E & N & X' & F); auto.
      + intros r Hr. specialize (Hl r (or_intror (or_intror Hr))). lia.
      + lia.
      + cbn [length]. split; [lia|]. split; [rewrite E at 1; rewrite N3; reflexivity|]. split; [lia|].
        split; [eapply extends_trans; eauto|]. constructor.
        * exists a, b, g. repeat split; auto; [left; auto|right; left; auto|].
          destruct X' as (_ & _ & _ & _ & Xh'). rewrite Xh' by lia. exact Hg.
        * eapply Forall_impl; [|exact F]. cbv beta. intros c (p1 & p2 & g' & I1 & I2 & M & E'). exists p1, p2, g'.
          rewrite !Xh in M by (apply Hl; right; right; auto). rewrite Xh in E' by auto.
          repeat split; auto; right; right; auto.
  Qed.
  Lemma crossover_made : forall k gd s gd' s', (forall r, In r (members (population gd)) -> (r < next s)%nat) ->
    (forall r, In r (parents gd) -> (r < next s)%nat) ->
    crossover_execute k gd s = Ok gd' s' ->
    exists first rest n, members (population gd) = first :: rest /\ length (parents gd) = (2 * n)%nat /\
      gd' = set_children (seq (next s) n) gd /\ next s' = (next s + n)%nat /\ extends s s' /\
      Forall (fun c => exists p1 p2 g, In p1 (parents gd) /\ In p2 (parents gd) /\
                made k (length (genotype (heap s first))) (genotype (heap s p1)) (genotype (heap s p2)) g /\
                heap s' c = child_of (heap s first) g) (seq (next s) n).
  Proof.
    intros k gd s gd' s' Hm Hp H. unfold crossover_execute in H. destruct (members (population gd)) as [|first rest] eqn:Em; [discriminate|].
    unfold get_empty_copy in H. bd H i0 s1 R1. apply get_ok in R1. destruct R1 as [-> ->].
    bd H l0 s1 R1. bd R1 u s2 R2. apply ret_ok in R1. destruct R1 as [-> ->].
    bd H cs s3 R0. apply ret_ok in H. destruct H as [-> ->].
    apply extends_do_seed in R2. destruct R2 as (X1 & N1 & H1).
    apply cross_pairs_made in R0; [|rewrite N1; auto|rewrite N1; apply Hm; left; auto].
    destruct R0 as (L & E & N & X & F). rewrite N1, H1 in *.
    exists first, rest, (length cs). rewrite <- E. repeat split; auto; try (apply (extends_trans _ _ _ X1 X)).
  Qed.

  (** *** The invariant *)
  (** The phenotype of an individual is the decoding of its genotype (binary
      populations), or absent. *)
  Definition decoded (g : gspec) (i : individ) : Prop :=
    match g with
    | GenBinary gray gens bp => exists ph, phenotype i = Some (Some ph) /\ decode_genotype gray gens bp (genotype i) = inr ph
    | _ => phenotype i = None
    end.
  Definition settled (ok : num -> Prop) (g : gspec) (i : individ) : Prop :=
    (exists x, score i = SV1 x /\ ok x) /\ decoded g i.
  Lemma settled_core : forall ok g i j, same_core i j -> settled ok g i -> settled ok g j.
  Proof.
    intros ok g i j E [(x & Ex & Ox) D]. destruct E as (E1 & E2 & E3 & E4 & E5).
    split; [exists x; split; congruence|]. unfold decoded in *. rewrite <- E2, <- E1. auto.
  Qed.
  (** The individual made by fill or by crossover before its evaluation. *)
  Definition fresh (g : gspec) (i : individ) : Prop :=
    score i = SVNone /\ obj_score i = SVNone /\ feasible i = true /\
    (decoded g i \/ (is_phenotype g = true /\ phenotype i = Some None)).

  Record GI (ok : num -> Prop) (gd : gadata) (s : st) : Prop := {
    gi_single : is_multi gd = false;
    gi_ne : members (population gd) <> [];
    gi_alloc : forall r, In r (members (population gd)) -> (r < next s)%nat;
    gi_settled : forall r, In r (members (population gd)) -> settled ok (gspec_of (population gd)) (heap s r);
    gi_sorted : is_sorted (population gd) = true;
    gi_asc : asc KScore s (members (population gd))
  }.
  (** Every score the fitness object computes is a usable number. *)
  Definition good_scores (ok : num -> Prop) (f : fitness) : Prop :=
    forall k genes gen best v i j, called f k genes = inr v -> assess f gen best v i = inr j ->
      exists x, score j = SV1 x /\ ok x.

  Lemma filled_decoded : forall g i j, decoded g i \/ (is_phenotype g = true /\ phenotype i = Some None) -> filled g i j -> decoded g j.
  Proof.
    intros g i j H F. unfold filled in F. destruct g as [gray gens bp|gens|a b k]; cbn in *.
    - destruct F as [[->|(P & gr & ge & bp' & ph & E & D & ->)] (ph' & Ph')].
      + destruct H as [H|[_ H]]; auto. congruence.
      + inversion E; subst. exists ph. split; auto.
    - destruct H as [H|[C _]]; [congruence|discriminate].
    - destruct H as [H|[C _]]; [congruence|discriminate].
  Qed.
  Lemma filled_same : forall g i j, decoded g i -> filled g i j -> j = i.
  Proof.
    intros g i j H F. unfold filled in F. destruct g as [gray gens bp|gens|a b k]; cbn in *; auto.
    destruct F as [[->|(P & gr & ge & bp' & ph & E & D & ->)] _]; auto. destruct H as (ph' & Ph' & _). congruence.
  Qed.
  Lemma filled_genotype : forall g i j, filled g i j -> genotype j = genotype i.
  Proof.
    intros g i j F. unfold filled in F. destruct (is_phenotype g); [|congruence].
    destruct F as [[->|(P & gr & ge & bp' & ph & E & D & ->)] _]; auto.
  Qed.
  Lemma filled_fresh : forall g i j, fresh g i -> filled g i j -> fresh g j /\ decoded g j.
  Proof.
    intros g i j (A & B & C & D) F. pose proof (filled_decoded _ _ _ D F) as Dj. split; auto.
    unfold filled in F. destruct (is_phenotype g).
    - destruct F as [[->|(P & gr & ge & bp' & ph & E & Dd & ->)] _]; split; auto.
    - subst j. split; auto.
  Qed.
  (** What the objective is called on: the decoded genotype, or the genotype. *)
  Definition spec_point (g : gspec) (geno pt : list gv) : Prop :=
    match g with
    | GenBinary gray gens bp => decode_genotype gray gens bp geno = inr pt
    | _ => pt = geno
    end.
  Lemma decoded_point : forall g i, decoded g i -> spec_point g (genotype i) (point g i).
  Proof.
    intros g i H. destruct g as [gray gens bp|gens|a b k]; cbn in *; auto. destruct H as (ph & E & D). unfold point. cbn. rewrite E. auto.
  Qed.

  Lemma filter_negx : forall x (l : list nat), ~ In x l -> filter (fun y => negb (Nat.eqb y x)) l = l.
  Proof. intros x l H. apply filter_all. intros y Hy. rewrite negb_true_iff, Nat.eqb_neq. congruence. Qed.
  Lemma news_app : forall s a b, NoDup a -> (forall r, In r a -> unscored s r = true) -> (forall r, In r b -> unscored s r = false) ->
    news s (a ++ b) = a.
  Proof.
    intros s a b ND Ha Hb. induction a as [|x a IH]; cbn [app].
    - destruct (news s b) as [|r l] eqn:E; auto. assert (I : In r (news s b)) by (rewrite E; left; auto).
      apply news_in in I. destruct I as [I U]. rewrite Hb in U by auto. discriminate.
    - inversion ND; subst. unfold news in *. cbn [dedup filter]. rewrite (Ha x) by (left; auto).
      rewrite filter_filter. rewrite (filter_ext _ (fun y => unscored s y && negb (Nat.eqb y x))) by (intros; apply andb_comm).
      rewrite <- filter_filter. rewrite IH; auto; [|intros; apply Ha; right; auto]. rewrite filter_negx; auto.
  Qed.
  Lemma once_app : forall a b r, NoDup a -> In r a -> ~ In r b -> once (a ++ b) r.
  Proof.
    intros a b r ND Ha Hb. unfold once. rewrite count_occ_app. apply (count_occ_not_In Nat.eq_dec) in Hb. rewrite Hb.
    apply (NoDup_count_occ' Nat.eq_dec) in Ha; auto. lia.
  Qed.

  (** *** One generation *)
  Record Step (c : comps) (gd : gadata) (s : st) (c' : comps) (gd' : gadata) (s' : st)
         (kids els : list nat) (h : nat -> individ) (cs : list (list gv * oval)) (l0 : list nat) (bst md w : nat) : Prop := {
    (* the components: only the mutation level may be resolved *)
    st_comps : exists m', c' = set_mutation m' c /\ match c_mutation c with MutBin _ => exists x, m' = MutBin (LFloat x) | m => m' = m end;
    (* the children are new individuals *)
    st_kids : exists a, kids = seq a (length kids) /\ (next s <= a)%nat /\ next s' = (a + length kids)%nat;
    st_count : num_pairs (c_selection c) gd (length kids);
    (* their genotypes come from two members *)
    st_made : forall r, In r kids -> exists first rest m1 m2 g, members (population gd) = first :: rest /\
      In m1 (members (population gd)) /\ In m2 (members (population gd)) /\
      made (c_crossover c) (length (genotype (heap s first))) (genotype (heap s m1)) (genotype (heap s m2)) g /\
      mutated (c_mutation c) (gspec_of (population gd)) g (genotype (h r));
    st_fresh : forall r, In r kids -> fresh (gspec_of (population gd)) (h r) /\ decoded (gspec_of (population gd)) (h r);
    (* they and nobody else are evaluated *)
    st_log : log s' = rev cs ++ log s;
    st_eval : assessed (c_fitness c) (gspec_of (population gd)) (idx_generation gd) (best_solution gd) h (heap s')
                (length (log s)) kids cs;
    (* older individuals keep everything but numbering and rank *)
    st_core : forall r, (r < next s)%nat -> same_core (heap s r) (heap s' r);
    st_frame : forall r, (r < next s)%nat -> ~ In r (members (population gd)) -> heap s' r = heap s r;
    st_seed : rnd_seed s' = rnd_seed s /\ prng s' = prng s;
    (* the members carried over, the best one among them *)
    st_els : exists e b l1, els = e ++ [b] /\ members (population gd) = l1 ++ [b] /\ incl e (members (population gd));
    st_taken : exists s1, (forall r, (r < next s)%nat -> same_core (heap s r) (heap s1 r)) /\
      taken s1 (ng_transfer (c_newgen c)) (num_individ (population gd) - Z.of_nat (length kids)) (members (population gd)) els;
    st_members : members (population gd') = l0 ++ [bst] /\ Permutation (members (population gd')) (kids ++ els);
    (* bookkeeping *)
    st_pop : population gd' = set_sorted true (set_members (l0 ++ [bst]) (population gd));
    st_gen : idx_generation gd' = idx_generation gd + 1;
    st_best : (best_solution gd', no_improve gd') = best_after gd (heap s' bst);
    st_hist : hist_best gd' = hist_best gd ++ [score (heap s' bst)] /\
              hist_mediocre gd' = hist_mediocre gd ++ [score (heap s' md)] /\
              hist_worst gd' = hist_worst gd ++ [score (heap s' w)];
    st_pos : nth_error (l0 ++ [bst]) (length (l0 ++ [bst]) / 2) = Some md /\ nth_error (l0 ++ [bst]) 0 = Some w;
    st_params : num_generations gd' = num_generations gd /\ early_stop gd' = early_stop gd /\
                children_percent gd' = children_percent gd;
    (* with tournaments, from two winners *)
    st_winners : forall t, c_selection c = SelTournament t -> t <= Z.of_nat (length (members (population gd))) ->
      forall r, In r kids -> exists first rest m1 m2 g, members (population gd) = first :: rest /\
        can_win s None t (members (population gd)) m1 /\ can_win s None t (members (population gd)) m2 /\
        made (c_crossover c) (length (genotype (heap s first))) (genotype (heap s m1)) (genotype (heap s m2)) g /\
        mutated (c_mutation c) (gspec_of (population gd)) g (genotype (h r))
  }.
  Lemma winners_of : forall ok f t gd s gd' s', NumOrder NO ok -> (forall r, In r (members (population gd)) -> (r < next s)%nat) ->
    keys_ok ok s None (members (population gd)) -> t <= Z.of_nat (length (members (population gd))) ->
    selection_execute f (SelTournament t) gd s = Ok gd' s' ->
    forall c, In c (parents gd') -> exists p, can_win s None t (members (population gd)) p /\ same_core (heap s p) (heap s' c).
  Proof.
    intros ok f t gd s gd' s' NL Hlt K Ht H c Hc. apply tournament_execute_ok in H; auto.
    destruct H as (_ & x & prs & _ & _ & -> & _ & _ & _ & W & F2). specialize (W ok NL K Ht). cbn [parents set_parents] in Hc.
    assert (Wall : Forall (fun p => can_win s None t (members (population gd)) p) (flatten_pairs prs)).
    { clear - W. induction W as [|[a b] prs [H1 H2] W IH]; [constructor|]. rewrite flatten_cons. repeat constructor; auto. }
    clear W. revert Wall F2 Hc. generalize (seq (next s) (2 * length prs)) as cs. generalize (flatten_pairs prs) as ps. induction ps as [|p ps IH]; intros cs Wall F2 Hc.
    - inversion F2; subst. destruct Hc.
    - inversion F2 as [|c0 ? cs' ? Hc0 F2']; subst. inversion Wall as [|? ? Wp Wall']; subst. destruct Hc as [<-|Hc]; [|eapply IH; eauto]. exists p. split; auto. apply Hc0.
  Qed.

  Lemma step_ok : forall ok fuel c gd s c' gd' s', NumOrder NO ok -> good_scores ok (c_fitness c) -> fkind (c_fitness c) = Hyperbola ->
    ng_multi (c_newgen c) = false -> objectives_ok (c_selection c) -> GI ok gd s ->
    ga_step fuel c gd s = Ok (c', gd') s' ->
    exists kids els h cs l0 bst md w, Step c gd s c' gd' s' kids els h cs l0 bst md w /\ GI ok gd' s'.
  Proof.
    intros ok fuel c gd s c' gd' s' NL Gs Fk Ng Ho I H. destruct I as [Is Ine Ia It Iso Iasc].
    unfold ga_step in H.
    bd H gd1 s1 R1. pose proof R1 as Rw. apply selection_ok in R1; auto. destruct R1 as (T1 & a & n & Hn & -> & La & N1 & Fp).
    destruct T1 as [(Nx1 & L1 & S1 & P1 & C1) T1].
    bd H gd2 s2 R2. apply crossover_made in R2.
    2:{ cbn. intros r Hr. apply Ia in Hr. lia. }
    2:{ cbn [parents set_parents]. intros r Hr. apply in_seq in Hr. lia. }
    cbn [population set_parents parents] in R2. destruct R2 as (first & rest & n' & Em & Ln & -> & N2 & X2 & F2).
    rewrite seq_length in Ln. assert (n' = n) by lia. subst n'. clear Ln. destruct X2 as (_ & L2 & S2 & P2 & X2).
    set (kids := seq (next s1) n) in *. assert (NDk : NoDup kids) by apply seq_NoDup.
    assert (Hkids : forall r, In r kids <-> (next s1 <= r < next s1 + n)%nat) by (intros; apply in_seq).
    bd H m' s3 R3. apply mutation_execute_ok in R3; [|exact NDk]. cbn [children set_children population set_parents] in R3.
    destruct R3 as [(N3 & L3 & S3 & P3 & Mu) Hm'].
    bd H gd3 s4 R4. apply newgen_single_ok in R4; auto. cbn [children set_children population set_parents] in R4.
    destruct R4 as (l & els & So & Tk & E4 & ->). unfold sorted_from in So. rewrite Iso in So. subst l.
    assert (H4 : heap s4 = heap s3) by (rewrite E4; auto). assert (N4 : next s4 = next s3) by (rewrite E4; auto).
    assert (L4 : log s4 = log s3) by (rewrite E4; auto). assert (S4 : rnd_seed s4 = rnd_seed s3) by (rewrite E4; auto).
    assert (P4 : prng s4 = prng s3) by (rewrite E4; auto). clear E4.
    destruct (list_snoc _ Ine) as (l1 & b & Eb). destruct (taken_snoc s3 (ng_transfer (c_newgen c)) (num_individ (population gd) - Z.of_nat (length kids)) l1 b els) as (e & Ee & Ie); [rewrite <- Eb; auto|]. rewrite <- Eb in Ie.
    assert (Iels : incl els (members (population gd))).
    { rewrite Ee. intros x Hx. apply in_app_or in Hx. destruct Hx as [Hx|[<-|[]]]; auto. rewrite Eb. apply in_or_app; right; left; auto. }
    (* the heap when fitness starts *)
    assert (Old : forall r, (r < next s)%nat -> heap s4 r = heap s1 r).
    { intros r Hr. rewrite H4. destruct (Mu r) as (g & E & _ & K). rewrite K in E; [|rewrite Hkids; lia]. rewrite E, set_genotype_same. apply X2. lia. }
    assert (Kid : forall r, In r kids -> exists p1 p2 g, In p1 (seq a (2 * n)) /\ In p2 (seq a (2 * n)) /\
        made (c_crossover c) (length (genotype (heap s first))) (genotype (heap s1 p1)) (genotype (heap s1 p2)) g /\
        heap s4 r = child_of (heap s1 first) (genotype (heap s4 r)) /\
        mutated (c_mutation c) (gspec_of (population gd)) g (genotype (heap s4 r))).
    { intros r Hr. rewrite Forall_forall in F2. destruct (F2 r Hr) as (p1 & p2 & g & I1 & I2 & Ma & E). rewrite H4.
      destruct (Mu r) as (g' & E' & K & _). exists p1, p2, g.
      assert (Lf : length (genotype (heap s first)) = length (genotype (heap s1 first))).
      { destruct (C1 first) as (E0 & _); [apply Ia; rewrite Em; left; auto|]. congruence. }
      rewrite Lf. split; auto. split; auto. split; auto. rewrite E', E. cbn. split; auto.
      specialize (K Hr). rewrite E in K. exact K. }
    assert (Mlt : forall r, In r (members (population gd)) -> (r < next s)%nat) by auto.
    assert (Elsc : forall r, In r els -> settled ok (gspec_of (population gd)) (heap s4 r)).
    { intros r Hr. apply Iels in Hr. rewrite Old by auto. apply (settled_core ok _ (heap s r)); [apply C1|apply It]; auto. }
    assert (Hun1 : forall r, In r kids -> unscored s4 r = true).
    { intros r Hr. destruct (Kid r Hr) as (p1 & p2 & g & _ & _ & _ & E & _). unfold unscored. rewrite E. reflexivity. }
    assert (Hun2 : forall r, In r els -> unscored s4 r = false).
    { intros r Hr. destruct (Elsc r Hr) as [(x & E & _) _]. unfold unscored. rewrite E. reflexivity. }
    assert (Dis : forall r, In r kids -> ~ In r els).
    { intros r Hr C. apply Iels, Ia in C. apply Hkids in Hr. lia. }
    bd H u5 s5 R5. unfold fitness_execute in R5. rewrite Fk in R5. cbn [is_multi_kind] in R5.
    apply base_fitness_ok in R5.
    2:{ cbn [population with_next set_children set_population set_sorted set_members members]. intros r Hr Hu. apply in_app_or in Hr.
        destruct Hr as [Hr|Hr]; [apply once_app; auto|]. rewrite Hun2 in Hu by auto. discriminate. }
    cbn [population with_next set_children set_population set_sorted set_members set_parents members gspec_of idx_generation best_solution] in R5.
    change (length (seq (next s1) n)) with (length kids) in *.
    rewrite (news_app s4 kids els NDk Hun1 Hun2) in R5.
    destruct R5 as (h & cs & Fh & Fo & (Q1 & Q2 & Q3 & Q4 & Q5) & L5 & As & O5).
    assert (Hels : forall r, In r els -> heap s5 r = heap s4 r).
    { intros r Hr. rewrite O5 by (intros C; apply (Dis r); auto). eapply filled_same; [|apply Fh; apply in_or_app; auto]. apply Elsc; auto. }
    assert (Hold : forall r, (r < next s)%nat -> heap s5 r = heap s1 r).
    { intros r Hr. rewrite <- Old by auto. rewrite O5 by (rewrite Hkids; lia). destruct (in_dec Nat.eq_dec r els) as [i|i].
      - rewrite <- Hels by auto. rewrite O5 by (rewrite Hkids; lia). reflexivity.
      - apply Fo. intros C. apply in_app_or in C. destruct C as [C|C]; auto. apply Hkids in C. lia. }
    assert (Hfr : forall r, In r kids -> fresh (gspec_of (population gd)) (h r) /\ decoded (gspec_of (population gd)) (h r)).
    { intros r Hr. apply filled_fresh with (i := heap s4 r); [|apply Fh; apply in_or_app; auto].
      destruct (Kid r Hr) as (p1 & p2 & g & _ & _ & _ & E & _). rewrite E. split; auto. split; auto. split; auto.
      assert (D : decoded (gspec_of (population gd)) (heap s1 first)).
      { assert (Im : In first (members (population gd))) by (rewrite Em; left; auto). apply (settled_core ok _ (heap s first)); [apply C1|apply It]; auto. }
      destruct (gspec_of (population gd)) as [gray gens bp|gens|x y z]; cbn in D |- *.
      - right. destruct D as (ph & -> & _). auto.
      - left. rewrite D. auto.
      - left. rewrite D. auto. }
    assert (Skids : forall r, In r kids -> settled ok (gspec_of (population gd)) (heap s5 r)).
    { intros r Hr. destruct (assessed_in _ _ _ _ _ _ _ _ _ _ As Hr) as (v & k' & _ & Cv & Av). split; [eapply Gs; eauto|].
      pose proof (assess_keeps _ _ _ _ _ _ Av) as (G1 & G2 & _). destruct (Hfr r Hr) as [_ D]. unfold decoded in *. rewrite G1, G2. auto. }
    assert (Sall : forall r, In r (kids ++ els) -> settled ok (gspec_of (population gd)) (heap s5 r)).
    { intros r Hr. apply in_app_or in Hr. destruct Hr; auto. rewrite Hels by auto. auto. }
    bd H gd4 s6 R6. apply ret_ok in H. destruct H as [E ->]. inversion E; subst c' gd4. clear E.
    unfold update in R6. cbn [is_multi with_next set_children set_population set_parents] in R6. rewrite Is in R6.
    apply update_single_ok in R6. destruct R6 as (-> & l0 & bst & md & w & So & Hmd & Hw & Hb & ->).
    cbn [population with_next set_children set_population set_parents] in So. unfold sorted_from in So. cbn [is_sorted set_sorted] in So.
    cbn [members set_members set_sorted] in So. change (seq (next s1) n) with kids in So.
    apply sort_ok in So. destruct So as (_ & Pm & Sa).
    destruct (Sa ok NL) as [Asc _].
    { intros r Hr. destruct (Sall r Hr) as [(x & Ex & Ox) _]. exists x. cbn. rewrite Ex. auto. }
    exists kids, els, h, cs, l0, bst, md, w. split.
    - constructor; cbn [updated population idx_generation hist_best hist_mediocre hist_worst num_generations early_stop children_percent members set_members set_sorted
          with_next set_children set_population set_parents best_solution no_improve is_multi]; auto.
      + exists m'. split; auto. destruct (c_mutation c); auto.
      + exists (next s1). unfold kids. rewrite seq_length. split; auto. split; [auto|]. lia.
      + unfold kids. rewrite seq_length. auto.
      + intros r Hr. destruct (Kid r Hr) as (p1 & p2 & g & I1 & I2 & Ma & E & Mt). rewrite Forall_forall in Fp.
        destruct (Fp _ I1) as (m1 & M1 & E1). destruct (Fp _ I2) as (m2 & M2 & E2). exists first, rest, m1, m2, g.
        destruct E1 as (E1 & _). destruct E2 as (E2 & _). rewrite E1, E2.
        rewrite (filled_genotype _ _ _ (Fh r (in_or_app _ _ _ (or_introl Hr)))). auto.
      + rewrite L5, L4, L3, L2, L1. auto.
      + replace (length (log s)) with (length (log s4)) by (rewrite L4, L3, L2, L1; auto). exact As.
      + intros r Hr. rewrite Hold by auto. auto.
      + intros r Hr Hm. rewrite Hold by auto. auto.
      + split; congruence.
      + exists e, b, l1. auto.
      + exists s3. split.
        * intros r Hr. rewrite <- H4, Old by auto. auto.
        * auto.
      + unfold best_after. cbn. destruct (best_solution gd) as [|i g|]; auto. destruct (sv_lt _ _); auto.
      + intros t Et Lt r Hr. rewrite Et in Rw. destruct (Kid r Hr) as (p1 & p2 & g & I1 & I2 & Ma & E & Mt).
        assert (Kk : keys_ok ok s None (members (population gd))).
        { intros r' Hr'. destruct (It r' Hr') as [(x & Ex & Ox) _]. exists x. unfold key_at. rewrite Ex. auto. }
        pose proof (winners_of ok fuel t gd s _ s1 NL Ia Kk Lt Rw) as Wn. cbn [parents set_parents] in Wn.
        destruct (Wn _ I1) as (m1 & M1 & E1). destruct (Wn _ I2) as (m2 & M2 & E2). exists first, rest, m1, m2, g.
        destruct E1 as (E1 & _). destruct E2 as (E2 & _). rewrite E1, E2.
        rewrite (filled_genotype _ _ _ (Fh r (in_or_app _ _ _ (or_introl Hr)))). auto 6.
    - constructor; cbn [updated population is_multi members set_members set_sorted with_next set_children set_population set_parents is_sorted gspec_of]; auto.
      + destruct l0; discriminate.
      + intros r Hr. apply (Permutation_in _ Pm) in Hr. apply in_app_or in Hr. rewrite Q1, N4, N3, N2.
        destruct Hr as [Hr|Hr]; [apply Hkids in Hr; lia|]. apply Iels, Ia in Hr. lia.
      + intros r Hr. apply (Permutation_in _ Pm) in Hr. auto.
  Qed.
End StepProofs.
