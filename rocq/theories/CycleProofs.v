(** Two facts about single generations, used for C94: which cells of the heap a generation
    writes to, and that it does not look at the records in GaData. *)
From Coq Require Import String.
From Coq Require Import ZArith List Bool Lia Permutation.
From Verif Require Import Num State Binary Population GaData Crossover Mutation Selection Penalty Fitness NewGeneration Driver
  ListLemmas Rnd Exec Laws PopulationProofs CrossoverProofs MutationProofs SelectionProofs VegaProofs NewGenProofs FitnessProofs UpdateProofs StepProofs RunProofs.
Import ListNotations.
Open Scope list_scope.
Open Scope Z_scope.

(** *** Writes *)
Section Writes.
  Context {NO : NumOps}.
  (** Besides new cells, [m] writes only to the cells in [L]. *)
  Definition writes (L : nat -> Prop) {A} (m : M A) : Prop := forall s a s', m s = Ok a s' ->
    (next s <= next s')%nat /\ forall r, (next s' <= r)%nat -> ~ L r -> heap s' r = heap s r.
  Variable L : nat -> Prop.
  Lemma wr_ret : forall {A} (a : A), writes L (ret a).
  Proof. intros A a s b s' [= <- <-]. auto. Qed.
  Lemma wr_raise : forall {A} e, writes L (@raise NO A e).
  Proof. intros A e s b s' [=]. Qed.
  Lemma wr_nofuel : forall {A}, writes L (@nofuel NO A).
  Proof. intros A s b s' [=]. Qed.
  Lemma wr_bind : forall {A B} (m : M A) (k : A -> M B), writes L m -> (forall a, writes L (k a)) -> writes L (bind m k).
  Proof.
    intros A B m k Hm Hk s b s' H. unfold bind in H. destruct (m s) as [a s1|x|] eqn:E; try discriminate.
    destruct (Hm _ _ _ E) as [N1 F1]. destruct (Hk _ _ _ _ H) as [N2 F2]. split; [lia|]. intros r Hr Lr. rewrite F2 by auto. apply F1; auto. lia.
  Qed.
  Lemma wr_lift : forall {A} (r : exn + A), writes L (lift r).
  Proof. intros A [x|a]; [apply wr_raise|apply wr_ret]. Qed.
  Lemma wr_lift_opt : forall {A} e (r : option A), writes L (lift_opt e r).
  Proof. intros A e [a|]; [apply wr_ret|apply wr_raise]. Qed.
  Lemma wr_opt_bind : forall {A B} e (o : option A) (k : A -> M B), (forall a, o = Some a -> writes L (k a)) -> writes L (bind (lift_opt e o) k).
  Proof. intros A B e [a|] k H; [|intros s b s' K; discriminate K]. intros s b s' K. apply (H a eq_refl s b s' K). Qed.
  Lemma wr_get : forall r, writes L (get r).
  Proof. intros r s b s' [= <- <-]. auto. Qed.
  Lemma wr_modify : forall r f, L r -> writes L (modify r f).
  Proof. intros r f Hr s b s' [= <- <-]. cbn. split; auto. intros q _ Hq. unfold upd. destruct (Nat.eqb_spec q r); auto. subst. contradiction. Qed.
  Lemma wr_alloc : forall i, writes L (alloc i).
  Proof. intros i s b s' [= <- <-]. cbn. split; auto. intros q Hq _. unfold upd. destruct (Nat.eqb_spec q (next s)); auto. lia. Qed.
  Lemma wr_do_seed : writes L do_seed.
  Proof. intros s b s' H. unfold do_seed in H. destruct (rnd_seed s); injection H as <- <-; auto. Qed.
  Lemma wr_draw : forall k, writes L (draw k).
  Proof. intros k s b s' [= <- <-]. auto. Qed.
  Lemma wr_logged : forall r g, writes L (call_logged r g).
  Proof. intros r g s b s' H. unfold call_logged in H. cbn in H. destruct (r _); [discriminate|]. injection H as <- <-. auto. Qed.
  Lemma wr_mmap : forall {A B} (f : A -> M B) l, (forall a, In a l -> writes L (f a)) -> writes L (mmap f l).
  Proof.
    intros A B f l. induction l as [|a l IH]; intros H; cbn [mmap]; [apply wr_ret|]. apply wr_bind; [apply H; left; auto|]. intros.
    apply wr_bind; [apply IH; intros; apply H; right; auto|]. intros. apply wr_ret.
  Qed.
  Lemma wr_miter : forall {A} (f : A -> M unit) l, (forall a, In a l -> writes L (f a)) -> writes L (miter f l).
  Proof. intros A f l. induction l as [|a l IH]; intros H; cbn [miter]; [apply wr_ret|]. apply wr_bind; [apply H; left; auto|]. intros. apply IH; intros; apply H; right; auto. Qed.
  Lemma wr_mfold : forall {A B} (f : A -> B -> M A) l a, (forall a b, writes L (f a b)) -> writes L (mfold f l a).
  Proof. intros A B f l. induction l; intros b H; cbn [mfold]; [apply wr_ret|]. apply wr_bind; auto. Qed.
  Lemma wr_mrepeat : forall {A} n (m : M A), writes L m -> writes L (mrepeat n m).
  Proof. intros A n m H. induction n; cbn [mrepeat]; [apply wr_ret|]. apply wr_bind; auto. intros. apply wr_bind; auto. intros. apply wr_ret. Qed.
  Hint Resolve wr_ret wr_raise wr_nofuel wr_lift wr_lift_opt wr_get wr_modify wr_alloc wr_do_seed wr_draw wr_logged : wr.
  Ltac wr_step :=
    match goal with
    | |- forall _, _ => intros
    | |- writes _ (bind _ _) => apply wr_bind
    | |- writes _ (mmap _ _) => apply wr_mmap
    | |- writes _ (miter _ _) => apply wr_miter
    | |- writes _ (mfold _ _ _) => apply wr_mfold
    | |- writes _ (mrepeat _ _) => apply wr_mrepeat
    | |- writes _ (match ?x with _ => _ end) => destruct x
    | |- writes _ (let _ := _ in _) => cbv zeta
    | |- writes _ _ => solve [auto with wr]
    end.
  Ltac wr := repeat wr_step.

  Lemma wr_randint : forall a b, writes L (randint a b).
  Proof. intros. unfold randint. wr. Qed.
  Lemma wr_choice : forall {A} (l : list A), writes L (choice l).
  Proof. intros. unfold choice. wr. Qed.
  Lemma wr_sample_loop : forall {A} k (l : list A), writes L (sample_loop k l).
  Proof. intros A k. induction k; intros l; cbn [sample_loop]; wr. Qed.
  Hint Resolve wr_randint wr_choice wr_sample_loop : wr.
  Lemma wr_sample : forall {A} (l : list A) k, writes L (sample l k).
  Proof. intros. unfold sample. wr. Qed.
  Lemma wr_random : writes L random_.
  Proof. unfold random_. wr. Qed.
  Lemma wr_randrange : forall a b c, writes L (randrange a b c).
  Proof. intros. unfold randrange. wr. Qed.
  Hint Resolve wr_sample wr_random wr_randrange : wr.
  Lemma wr_reset : forall l i, (forall r, In r l -> L r) -> writes L (reset_idx_loop i l).
  Proof. induction l as [|a l IH]; intros i H; cbn [reset_idx_loop]; [apply wr_ret|]. apply wr_bind; [apply wr_modify, H; left; auto|]. intros. apply IH. intros; apply H; right; auto. Qed.
  Lemma wr_phenotype : forall g l, (forall r, In r l -> L r) -> writes L (get_phenotype g l).
  Proof. intros. unfold get_phenotype, get_phenotype1. wr. Qed.
  Lemma wr_swap : forall l, (forall r, In r l -> L r) -> writes L (swap l).
  Proof. intros. unfold swap, swap1. wr. Qed.
  Lemma wr_sort : forall k l, writes L (sort_by_dict k l).
  Proof. intros. unfold sort_by_dict, read_key. wr. Qed.
  Lemma wr_gen_binary : forall gray ps, writes L (gen_binary_loop gray ps).
  Proof. intros gray ps. induction ps as [|[a b] ps]; cbn [gen_binary_loop]; wr. Qed.
  Hint Resolve wr_sort wr_gen_binary wr_phenotype wr_swap wr_reset : wr.
  Lemma wr_crossover : forall k n p1 p2, writes L (crossover k n p1 p2).
  Proof. intros. unfold crossover, one_point, two_point, uniform, uniform_gene, order, get_idx_segment. wr. Qed.
  Hint Resolve wr_crossover : wr.
  Lemma wr_cross_pairs : forall k n first m l, (length l <= m)%nat -> writes L (cross_pairs k n first l).
  Proof.
    intros k n first m. induction m; intros [|a [|b l]] H; cbn [cross_pairs length] in *; try lia; unfold get_child; wr.
    apply IHm. lia.
  Qed.
  Lemma wr_crossover_execute : forall k gd, writes L (crossover_execute k gd).
  Proof. intros. unfold crossover_execute, get_empty_copy. wr. eapply wr_cross_pairs; eauto. Qed.
  Lemma wr_cat_mutation : forall lvl g ps, writes L (cat_mutation lvl ps g).
  Proof. intros lvl g. induction g; intros [|p ps]; cbn [cat_mutation]; unfold cat_gene, determines_mutation; wr. Qed.
  Hint Resolve wr_cat_mutation : wr.
  Lemma wr_mutation_execute : forall m gd, (forall r, In r (children gd) -> L r) -> writes L (mutation_execute m gd).
  Proof.
    intros. unfold mutation_execute, combi_child, mutate_child, combi_mutation, movement, swap_mut, inversion, shift, two_idx, bin_mutation, bin_gene, determines_mutation. wr.
  Qed.
  Lemma wr_evaluate : forall f gen best r, L r -> writes L (evaluate f gen best r).
  Proof. intros. unfold evaluate, calc_obj_func, call1, call2. wr. Qed.
  Hint Resolve wr_evaluate : wr.
  Lemma wr_base_fitness : forall f gd, (forall r, In r (members (population gd)) -> L r) -> writes L (base_fitness_execute f gd).
  Proof. intros. unfold base_fitness_execute. wr. Qed.
  Lemma wr_pop_at : forall l i, writes L (pop_at l i).
  Proof. intros. unfold pop_at. wr. Qed.
  Lemma wr_ltb : forall a b, writes L (m_ltb a b).
  Proof. intros. unfold m_ltb. wr. Qed.
  Lemma wr_rank1 : forall l, writes L (rank1_prefix l).
  Proof. induction l; cbn [rank1_prefix]; unfold rank_is_1; wr. Qed.
  Hint Resolve wr_pop_at wr_ltb wr_rank1 : wr.
  Lemma wr_add_best_loop : forall fuel l n nc lc zc els, writes L (add_best_loop fuel l n nc lc zc els).
  Proof. induction fuel as [|f IH]; intros; cbn [add_best_loop]; unfold genotypes; wr. Qed.
  Lemma wr_add_random_loop : forall fuel l n nc lc els, writes L (add_random_loop fuel l n nc lc els).
  Proof. induction fuel as [|f IH]; intros; cbn [add_random_loop]; unfold is_duplicate, genotypes; wr. Qed.
  Hint Resolve wr_add_best_loop wr_add_random_loop : wr.
  Lemma wr_newgen : forall ng gd, (forall r, In r (members (population gd)) -> L r) -> writes L (newgen_execute ng gd).
  Proof. intros. unfold newgen_execute, add_parents, add_best, add_random. wr. Qed.
  Lemma wr_best_loop : forall idx tr l b, writes L (get_best_loop idx l tr b).
  Proof. intros idx tr. induction tr; intros; cbn [get_best_loop]; unfold better, sv_at; wr. Qed.
  Hint Resolve wr_best_loop : wr.
  Lemma wr_run_tournament : forall idx t l, writes L (run_tournament idx t l).
  Proof. intros. unfold run_tournament, get_best. wr. Qed.
  Hint Resolve wr_run_tournament : wr.
  Lemma wr_second_parent : forall fuel idx t l b, writes L (second_parent fuel idx t l b).
  Proof. induction fuel; intros; cbn [second_parent]; wr. Qed.
  Hint Resolve wr_second_parent : wr.
  Lemma wr_total : forall m gd, writes L (get_total_num_parents m gd).
  Proof. intros. unfold get_total_num_parents. wr. Qed.
  Hint Resolve wr_total : wr.
  Lemma wr_tournament : forall fuel m idx t gd, writes L (tournament fuel m idx t gd).
  Proof. intros. unfold tournament, tournament_pair. wr. Qed.
  Lemma wr_base : forall gd, (forall r, In r (members (population gd)) -> L r) -> writes L (base_execute gd).
  Proof. intros. unfold base_execute, reset_idx_individ, get_empty_copy. wr. Qed.
  Lemma wr_get_index : forall sc, writes L (get_index sc).
  Proof. intros. unfold get_index. wr. Qed.
  Hint Resolve wr_tournament wr_base wr_get_index : wr.
  Lemma wr_second_index : forall fuel sc i, writes L (second_index fuel sc i).
  Proof. induction fuel; intros; cbn [second_index]; wr. Qed.
  Hint Resolve wr_second_index : wr.
  Lemma wr_put_rank : forall idx l i v, (forall r, In r l -> L r) -> writes L (put_rank idx l i v).
  Proof.
    intros idx l i v H. unfold put_rank. apply wr_opt_bind. intros r E. apply py_nth_some in E. wr.
  Qed.
  Hint Resolve wr_put_rank : wr.
  Lemma wr_pass : forall fuel b m idx gd, (forall r, In r (members (population gd)) -> L r) -> writes L (balanced_pass fuel b m idx gd).
  Proof.
    intros fuel b m idx gd H s a s' K. unfold balanced_pass in K. revert K. unfold bind at 1. destruct (base_execute gd s) as [gd1 s1|x|] eqn:E; try discriminate. intros K.
    assert (P : population gd1 = population gd) by (unfold base_execute, bind, get_empty_copy in E; destruct (reset_idx_individ _ s); try discriminate; unfold bind, do_seed in E; destruct (rnd_seed s0); inversion E; reflexivity).
    pose proof (wr_base gd H s gd1 s1 E) as [N1 F1]. revert K. rewrite P. intros K. assert (W : writes L ((if b then assign_selection_ranks idx (members (population gd)) else ret tt) ;;;
      scores <- add_probabilities (if b then KRank else KScore) idx (members (population gd)) ;; balanced_selection fuel m scores gd1)).
    { unfold balanced_selection, balanced_pair, add_probabilities, weight, sv_at, assign_selection_ranks, rank_step, put_group, rank_score, sv_at. wr. }
    destruct (W _ _ _ K) as [N2 F2]. split; [lia|]. intros r Hr Lr. rewrite F2 by auto. apply F1; auto. lia.
  Qed.
End Writes.

(** *** The cells not in use stay blank *)
Section Clean.
  Context {NO : NumOps}.
  Definition unused (s : st) : Prop := forall r, (next s <= r)%nat -> heap s r = blank_individ.
  Definition plain_selection (sel : selection) : Prop := match sel with SelTournament _ | SelBalanced | SelRanked => True | _ => False end.
  Lemma plain_objectives : forall sel, plain_selection sel -> objectives_ok sel.
  Proof. intros []; cbn; auto; contradiction. Qed.
  Lemma wr_selection : forall fuel sel gd, plain_selection sel -> writes (fun r => In r (members (population gd))) (selection_execute fuel sel gd).
  Proof.
    intros fuel sel gd P. destruct sel; cbn in P; try contradiction; cbn [selection_execute].
    - apply wr_bind; [unfold check_tournament_size; destruct (_ || _); [apply wr_raise|apply wr_ret]|]. intros. apply wr_bind; [apply wr_base; auto|]. intros. apply wr_tournament.
    - apply wr_pass; auto.
    - apply wr_pass; auto.
  Qed.
  Lemma cross_pairs_live : forall k n first m l s cs s', (length l <= m)%nat -> cross_pairs k n first l s = Ok cs s' -> forall r, In r cs -> (r < next s')%nat.
  Proof.
    intros k n first. induction m as [|m IH]; intros [|a [|b l]] s cs s' Hl H; cbn [cross_pairs length] in *; try lia; try (inversion H; subst; intros r []).
    bd H ia s1 R1. bd H ib s2 R2. bd H c s3 R3. bd H cs' s4 R4. apply ret_ok in H. destruct H as [-> ->].
    intros r [<-|Hr]; [|eapply IH; [|exact R4|exact Hr]; lia].
    assert (Hc : (c < next s3)%nat).
    { unfold get_child in R3. bd R3 i0 t1 Q1. bd R3 gs t2 Q2. bd R3 coin t3 Q3. unfold alloc in R3. inversion R3; subst. cbn. lia. }
    destruct (wr_cross_pairs (fun _ => False) k n first m l ltac:(lia) _ _ _ R4) as [N _]. lia.
  Qed.
  Lemma step_unused : forall ok fuel c gd s c' gd' s', NumOrder NO ok -> good_scores ok (c_fitness c) -> fkind (c_fitness c) = Hyperbola ->
    ng_multi (c_newgen c) = false -> plain_selection (c_selection c) -> GI ok gd s -> ga_step fuel c gd s = Ok (c', gd') s' -> unused s -> unused s'.
  Proof.
    intros ok fuel c gd s c' gd' s' NL Gs Fk Ng Ps G H U r Hr.
    destruct (step_ok ok fuel c gd s c' gd' s' NL Gs Fk Ng (plain_objectives _ Ps) G H) as (kids & els & h & cs & l0 & bst & md & w & _ & G').
    pose proof (gi_alloc _ _ _ G) as Al. pose proof (gi_alloc _ _ _ G') as Al'. unfold ga_step in H.
    bd H gd1 s1 R1. bd H gd2 s2 R2. bd H m' s3 R3. bd H gd3 s4 R4. bd H u s5 R5. bd H gd4 s6 R6. apply ret_ok in H. destruct H as [E ->]. inversion E; subst c' gd4; clear E.
    destruct (wr_selection fuel (c_selection c) gd Ps _ _ _ R1) as [N1 F1].
    apply selection_ok in R1; [|exact Al|apply plain_objectives, Ps]. destruct R1 as (_ & a & n & _ & -> & _).
    destruct (wr_crossover_execute (fun _ => False) _ _ _ _ _ R2) as [N2 F2].
    assert (C2 : population gd2 = population gd /\ is_multi gd2 = is_multi gd /\ forall q, In q (children gd2) -> (q < next s2)%nat).
    { unfold crossover_execute in R2. destruct (members (population (set_parents (seq a (2 * n)) gd))) as [|first rest]; [discriminate R2|]. bd R2 i0 t1 Q1. bd R2 e t2 Q2. bd R2 ch t3 Q3.
      apply ret_ok in R2. destruct R2 as [-> ->]. split; [reflexivity|]. split; [reflexivity|]. cbn [children set_children]. eapply cross_pairs_live; [|exact Q3]. auto. }
    destruct C2 as (P2 & M2 & Lc). 
    destruct (wr_mutation_execute (fun q => In q (children gd2)) (c_mutation c) gd2 (fun q h => h) _ _ _ R3) as [N3 F3].
    destruct (wr_newgen (fun q => In q (members (population gd2))) (c_newgen c) gd2 (fun q h => h) _ _ _ R4) as [N4 F4].
    unfold fitness_execute in R5. rewrite Fk in R5. cbn [is_multi_kind] in R5.
    destruct (wr_base_fitness (fun q => In q (members (population gd3))) (c_fitness c) gd3 (fun q h => h) _ _ _ R5) as [N5 F5].
    assert (M3 : is_multi gd3 = false).
    { unfold newgen_execute in R4. rewrite Ng in R4. cbv zeta in R4. bd R4 l t1 Q1. bd R4 nx t2 Q2. apply ret_ok in R4. destruct R4 as [-> ->]. cbn. rewrite M2. apply G. }
    unfold update in R6. rewrite M3 in R6. apply update_single_ok in R6. destruct R6 as (-> & l & b & md' & w' & So & _ & _ & _ & ->).
    assert (Pm : Permutation (l ++ [b]) (members (population gd3))).
    { unfold sorted_from in So. destruct (is_sorted (population gd3)); [rewrite So; auto|]. apply sort_ok in So. destruct So as (_ & Pm & _). exact Pm. }
    cbn [updated population members set_members set_sorted] in Al'.
    rewrite F5; [|lia|intros I; apply (Permutation_in _ (Permutation_sym Pm)) in I; apply Al' in I; lia].
    rewrite F4; [|lia|rewrite P2; intros I; apply Al in I; lia].
    rewrite F3; [|lia|intros I; apply Lc in I; lia].
    rewrite F2; [|lia|tauto]. rewrite F1; [|lia|intros I; apply Al in I; lia]. apply U. lia.
  Qed.
  Lemma first_unused : forall f gd s gd' s', fkind f = Hyperbola -> is_multi gd = false -> (forall r, In r (members (population gd)) -> (r < next s)%nat) ->
    first_generation f gd s = Ok gd' s' -> unused s -> unused s'.
  Proof.
    intros f gd s gd' s' Fk Im Al H U r Hr. unfold first_generation in H. bd H u s1 R. unfold fitness_execute in R. rewrite Fk in R. cbn [is_multi_kind] in R.
    destruct (wr_base_fitness (fun q => In q (members (population gd))) f gd (fun q h => h) _ _ _ R) as [N1 F1].
    unfold update in H. rewrite Im in H. apply update_single_ok in H. destruct H as (-> & _). rewrite F1; [|lia|intros I; apply Al in I; lia]. apply U. lia.
  Qed.
  Lemma fill_unused : forall p s p' s', fill p s = Ok p' s' -> unused s -> unused s'.
  Proof.
    intros p s p' s' H U r Hr. pose proof H as H0. apply fill_ok in H0. destruct H0 as (g & _ & K). cbv zeta in K. destruct K as (E & N & _).
    assert (Al : forall q, In q (members p') -> (q < next s')%nat) by (rewrite E; cbn [members set_members set_gspec]; intros q Hq; apply in_seq in Hq; lia). clear E N.
    unfold fill in H. bd H g' s1 R1. apply lift_ok in R1. destruct R1 as [_ ->]. bd H l1 s2 R2. bd H l2 s3 R3. bd H u s4 R4. bd H u' s5 R5. apply ret_ok in H. destruct H as [-> ->].
    cbn [members set_members set_gspec] in Al.
    assert (W2 : writes (fun _ => False) (mmap (fun x => geno <- lift (input_genotype g' x) ;; alloc (new_individ g' geno)) (input_population p))).
    { apply wr_mmap. intros. apply wr_bind; [apply wr_lift|]. intros. apply wr_alloc. }
    destruct (W2 _ _ _ R2) as [N2 F2].
    assert (W3 : forall n, writes (fun _ => False) (mrepeat n (g0 <- get_generated_individ g' ;; alloc (new_individ g' g0)))).
    { intros n. apply wr_mrepeat. apply wr_bind; [|intros; apply wr_alloc]. destruct g'; cbn [get_generated_individ].
      - apply wr_bind; [apply wr_gen_binary|]. intros; apply wr_ret.
      - apply wr_mmap. intros [x y z|z|] _; cbn [gen_cat1]; [apply wr_bind; [apply wr_randrange|intros; apply wr_ret]|apply wr_choice|apply wr_raise].
      - apply wr_bind; [apply wr_sample|]. intros; apply wr_ret. }
    destruct (W3 _ _ _ _ R3) as [N3 F3].
    assert (W4 : writes (fun q => In q (l1 ++ l2)) (if is_phenotype g' then get_phenotype g' (l1 ++ l2) else ret tt)) by (destruct (is_phenotype g'); [apply wr_phenotype; auto|apply wr_ret]).
    destruct (W4 _ _ _ R4) as [N4 F4].
    destruct (wr_reset (fun q => In q (l1 ++ l2)) (l1 ++ l2) 0 (fun q h => h) _ _ _ R5) as [N5 F5].
    rewrite F5; [|lia|intros I; apply Al in I; lia]. rewrite F4; [|lia|intros I; apply Al in I; lia]. rewrite F3; [|lia|tauto]. rewrite F2; [|lia|tauto]. apply U. lia.
  Qed.
End Clean.

(** *** A generation does not look at the records *)
Section Records.
  Context {NO : NumOps}.
  (** From every state, the two end in the same state, with results related by [Q]. *)
  Definition twin {A B} (Q : A -> B -> Prop) (m : M A) (n : M B) : Prop := forall s,
    match m s, n s with
    | Ok a s1, Ok b s2 => s1 = s2 /\ Q a b
    | Err e, Err e' => e = e'
    | NoFuel, NoFuel => True
    | _, _ => False
    end.
  Lemma tw_same : forall {A} (m : M A), twin eq m m.
  Proof. intros A m s. destruct (m s); auto. Qed.
  Lemma tw_ret : forall {A B} (Q : A -> B -> Prop) a b, Q a b -> twin Q (ret a) (ret b).
  Proof. intros A B Q a b H s. split; auto. Qed.
  Lemma tw_bind : forall {A B C D} (Q : A -> B -> Prop) (P : C -> D -> Prop) m n k l, twin Q m n -> (forall a b, Q a b -> twin P (k a) (l b)) -> twin P (bind m k) (bind n l).
  Proof.
    intros A B C D Q P m n k l H K s. specialize (H s). unfold bind. destruct (m s) as [a s1|e|], (n s) as [b s2|e'|]; try contradiction; auto.
    destruct H as [<- q]. apply (K _ _ q).
  Qed.
  Lemma tw_bind_eq : forall {A C D} (P : C -> D -> Prop) (m : M A) k l, (forall a, twin P (k a) (l a)) -> twin P (bind m k) (bind m l).
  Proof. intros A C D P m k l K. eapply tw_bind; [apply tw_same|]. intros a b <-. apply K. Qed.

  (** The same individuals and parameters: everything but the records. *)
  Definition has_best (gd : gadata) : Prop := exists i g x, best_solution gd = BSingle i g /\ score i = SV1 x.
  Record same_pop (a b : gadata) : Prop := {
    po_multi : is_multi a = false /\ is_multi b = false; po_pop : population a = population b; po_percent : children_percent a = children_percent b;
    po_best : has_best a /\ has_best b }.
  Definition same_parents (a b : gadata) : Prop := same_pop a b /\ parents a = parents b.
  Definition same_children (a b : gadata) : Prop := same_pop a b /\ children a = children b.

  Lemma tw_base : forall a b, same_pop a b -> twin same_parents (base_execute a) (base_execute b).
  Proof.
    intros a b [E1 E2 E3 E4]. unfold base_execute. rewrite E2. apply tw_bind_eq. intros _. apply tw_bind_eq. intros l. apply tw_ret. split; [constructor; assumption|reflexivity].
  Qed.
  Lemma tw_tournament : forall fuel t a b, same_parents a b -> twin same_parents (tournament fuel None None t a) (tournament fuel None None t b).
  Proof.
    intros fuel t a b [[E1 E2 E3 E4] E5]. unfold tournament, get_total_num_parents. rewrite E2, E3. apply tw_bind_eq. intros n. apply tw_bind_eq. intros ps. apply tw_ret.
    split; [constructor; assumption|]. cbn. rewrite E5. reflexivity.
  Qed.
  Lemma tw_pass : forall fuel rk a b, same_pop a b -> twin same_parents (balanced_pass fuel rk None None a) (balanced_pass fuel rk None None b).
  Proof.
    intros fuel rk a b E. unfold balanced_pass. eapply tw_bind; [apply tw_base, E|]. clear a b E. intros a b [[E1 E2 E3 E4] E5]. cbv zeta. rewrite E2. apply tw_bind_eq. intros _.
    apply tw_bind_eq. intros sc. unfold balanced_selection, get_total_num_parents. rewrite E2, E3. apply tw_bind_eq. intros n. apply tw_bind_eq. intros ps. apply tw_ret.
    split; [constructor; assumption|]. cbn. rewrite E5. reflexivity.
  Qed.
  Lemma tw_selection : forall fuel sel a b, plain_selection sel -> same_pop a b -> twin same_parents (selection_execute fuel sel a) (selection_execute fuel sel b).
  Proof.
    intros fuel sel a b P E. pose proof (po_pop _ _ E) as E2. destruct sel; cbn in P; try contradiction; cbn [selection_execute].
    - rewrite E2. apply tw_bind_eq. intros _. eapply tw_bind; [apply tw_base, E|]. intros. apply tw_tournament; auto.
    - apply tw_pass; auto.
    - apply tw_pass; auto.
  Qed.
  Lemma tw_crossover : forall k a b, same_parents a b -> twin same_children (crossover_execute k a) (crossover_execute k b).
  Proof.
    intros k a b [[E1 E2 E3 E4] E5]. unfold crossover_execute. rewrite E2, E5. destruct (members (population b)); [intros s; reflexivity|].
    apply tw_bind_eq. intros i. cbv zeta. apply tw_bind_eq. intros _. apply tw_bind_eq. intros cs. apply tw_ret. split; [constructor; assumption|reflexivity].
  Qed.
  Lemma tw_mutation : forall m a b, same_children a b -> mutation_execute m a = mutation_execute m b.
  Proof. intros m a b [[E1 E2 E3 E4] E5]. unfold mutation_execute. rewrite E2, E5. reflexivity. Qed.
  Lemma tw_newgen : forall ng a b, ng_multi ng = false -> same_children a b -> twin same_pop (newgen_execute ng a) (newgen_execute ng b).
  Proof.
    intros ng a b N [[E1 E2 E3 E4] E5]. unfold newgen_execute. cbv zeta. rewrite E2, E5, N. apply tw_bind_eq. intros l. apply tw_bind_eq. intros nx. apply tw_ret. constructor; try assumption.
    reflexivity.
  Qed.
  Lemma tw_fitness : forall f a b, fkind f = Hyperbola -> is_conditional f = false -> same_pop a b -> twin eq (fitness_execute f a) (fitness_execute f b).
  Proof.
    intros f a b Fk C [E1 E2 E3 E4]. unfold fitness_execute. rewrite Fk. cbn [is_multi_kind]. unfold base_fitness_execute. rewrite E2. cbv zeta.
    apply tw_bind_eq. intros _. eapply tw_bind with (Q := eq); [|intros x y <-; apply tw_same]. intros s.
    assert (Y : forall l s, miter (evaluate f (idx_generation a) (best_solution a)) l s = miter (evaluate f (idx_generation b) (best_solution b)) l s).
    { induction l as [|r l IH]; intros s0; cbn [miter]; auto. unfold bind.
      assert (X : evaluate f (idx_generation a) (best_solution a) r s0 = evaluate f (idx_generation b) (best_solution b) r s0) by (unfold evaluate; rewrite C; reflexivity).
      rewrite X. destruct (evaluate f (idx_generation b) (best_solution b) r s0); auto. }
    rewrite Y. destruct (miter _ _ s); auto.
  Qed.
  Lemma tw_update : forall a b, same_pop a b -> twin same_pop (update a) (update b).
  Proof.
    intros a b [[M1 M2] E2 E3 [(i & g & x & Bi & Si) (j & h & y & Bj & Sj)]]. unfold update. rewrite M1, M2. unfold update_single. rewrite E2, Bi, Bj, Si, Sj. cbv zeta.
    apply tw_bind_eq. intros l. apply tw_bind_eq. intros u. apply tw_bind_eq. intros v. apply tw_bind_eq. intros w.
    destruct (score u) as [|z|z] eqn:Su; [intros s; reflexivity| |intros s; reflexivity].
    intros s. unfold bind, m_ltb, sv_ltb. cbn [lift_opt ret]. unfold ret. split; auto. constructor; cbn [is_multi population children_percent]; auto.
    split; unfold has_best; cbn [best_solution fst].
    - destruct (nltb x z); cbn [fst]; [exists u, (idx_generation a), z|exists i, g, x]; auto.
    - destruct (nltb y z); cbn [fst]; [exists u, (idx_generation b), z|exists j, h, y]; auto.
  Qed.
  Lemma tw_step : forall fuel c a b, fkind (c_fitness c) = Hyperbola -> is_conditional (c_fitness c) = false -> ng_multi (c_newgen c) = false -> plain_selection (c_selection c) ->
    same_pop a b -> twin (fun p q => fst p = fst q /\ same_pop (snd p) (snd q)) (ga_step fuel c a) (ga_step fuel c b).
  Proof.
    intros fuel c a b Fk Cd Ng Ps E. unfold ga_step. eapply tw_bind; [apply tw_selection; eauto|]. intros a1 b1 E1. eapply tw_bind; [apply tw_crossover; eauto|]. intros a2 b2 E2.
    rewrite (tw_mutation _ _ _ E2). apply tw_bind_eq. intros m. eapply tw_bind; [apply tw_newgen; eauto|]. intros a3 b3 E3.
    eapply tw_bind; [apply tw_fitness; eauto|]. intros _ _ _. eapply tw_bind; [apply tw_update; eauto|]. intros a4 b4 E4. apply tw_ret. auto.
  Qed.
End Records.
