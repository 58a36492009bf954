(** Computations that never reach the entropy source when rnd_seed is set. *)
From Coq Require Import String.
From Coq Require Import ZArith List Bool Lia.
From Verif Require Import Num State Binary Population GaData Crossover Mutation Selection Penalty Fitness NewGeneration Driver.
Import ListNotations.
Open Scope list_scope.
Open Scope Z_scope.

Section Seed.
  Context {NO : NumOps}.

  (** The same outcome with another entropy source. *)
  Definition with_ent {A} (e : nat -> nat -> Z) (o : outcome A) : outcome A :=
    match o with Ok a s => Ok a (set_ent e s) | Err x => Err x | NoFuel => NoFuel end.
  Definition blind {A} (m : M A) : Prop := forall s z, rnd_seed s = Some z ->
    (forall e, m (set_ent e s) = with_ent e (m s)) /\ (forall a s', m s = Ok a s' -> rnd_seed s' = Some z).

  Lemma sb_ret : forall {A} (a : A), blind (ret a).
  Proof. intros A a s z Z. split; [reflexivity|]. intros b s' [= <- <-]. exact Z. Qed.
  Lemma sb_raise : forall {A} e, blind (@raise NO A e).
  Proof. intros A e s z Z. split; [reflexivity|]. discriminate. Qed.
  Lemma sb_nofuel : forall {A}, blind (@nofuel NO A).
  Proof. intros A s z Z. split; [reflexivity|]. discriminate. Qed.
  Lemma sb_bind : forall {A B} (m : M A) (k : A -> M B), blind m -> (forall a, blind (k a)) -> blind (bind m k).
  Proof.
    intros A B m k Hm Hk s z Z. unfold bind. destruct (Hm s z Z) as [Em Zm]. destruct (m s) as [a s1|x|] eqn:E.
    - destruct (Hk a s1 z (Zm a s1 eq_refl)) as [Ek Zk]. split; [|exact Zk]. intros e. rewrite Em. cbn [with_ent]. apply Ek.
    - split; [|discriminate]. intros e. rewrite Em. reflexivity.
    - split; [|discriminate]. intros e. rewrite Em. reflexivity.
  Qed.
  Lemma sb_lift : forall {A} (r : exn + A), blind (lift r).
  Proof. intros A [x|a]; [apply sb_raise|apply sb_ret]. Qed.
  Lemma sb_lift_opt : forall {A} e (r : option A), blind (lift_opt e r).
  Proof. intros A e [a|]; [apply sb_ret|apply sb_raise]. Qed.
  Lemma sb_get : forall r, blind (get r).
  Proof. intros r s z Z. split; [reflexivity|]. intros b s' [= <- <-]. exact Z. Qed.
  Lemma sb_modify : forall r f, blind (modify r f).
  Proof. intros r f s z Z. split; [reflexivity|]. intros b s' [= <- <-]. exact Z. Qed.
  Lemma sb_alloc : forall i, blind (alloc i).
  Proof. intros i s z Z. split; [reflexivity|]. intros b s' [= <- <-]. exact Z. Qed.
  Lemma sb_do_seed : blind do_seed.
  Proof.
    intros s z Z. unfold do_seed. split.
    - intros e. cbn. rewrite Z. reflexivity.
    - rewrite Z. intros b s' [= <- <-]. exact Z.
  Qed.
  Lemma sb_draw : forall k, blind (draw k).
  Proof. intros k s z Z. split; [reflexivity|]. intros b s' [= <- <-]. exact Z. Qed.
  Lemma sb_logged : forall r g, blind (call_logged r g).
  Proof. intros r g s z Z. unfold call_logged. cbn. destruct (r _); (split; [reflexivity|]); try discriminate. intros b s' [= <- <-]. exact Z. Qed.
  Lemma sb_mmap : forall {A B} (f : A -> M B) l, (forall a, blind (f a)) -> blind (mmap f l).
  Proof. intros A B f l H. induction l; cbn [mmap]; [apply sb_ret|]. apply sb_bind; auto. intros. apply sb_bind; auto. intros. apply sb_ret. Qed.
  Lemma sb_miter : forall {A} (f : A -> M unit) l, (forall a, blind (f a)) -> blind (miter f l).
  Proof. intros A f l H. induction l; cbn [miter]; [apply sb_ret|]. apply sb_bind; auto. Qed.
  Lemma sb_mfold : forall {A B} (f : A -> B -> M A) l a, (forall a b, blind (f a b)) -> blind (mfold f l a).
  Proof. intros A B f l. induction l; intros b H; cbn [mfold]; [apply sb_ret|]. apply sb_bind; auto. Qed.
  Lemma sb_mrepeat : forall {A} n (m : M A), blind m -> blind (mrepeat n m).
  Proof. intros A n m H. induction n; cbn [mrepeat]; [apply sb_ret|]. apply sb_bind; auto. intros. apply sb_bind; auto. intros. apply sb_ret. Qed.
  Hint Resolve sb_ret sb_raise sb_nofuel sb_lift sb_lift_opt sb_get sb_modify sb_alloc sb_do_seed sb_draw sb_logged : sb.
  Ltac sb_step :=
    match goal with
    | |- forall _, _ => intros
    | |- blind (bind _ _) => apply sb_bind
    | |- blind (mmap _ _) => apply sb_mmap
    | |- blind (miter _ _) => apply sb_miter
    | |- blind (mfold _ _ _) => apply sb_mfold
    | |- blind (mrepeat _ _) => apply sb_mrepeat
    | |- blind (match ?x with _ => _ end) => destruct x
    | |- blind (let _ := _ in _) => cbv zeta
    | |- blind _ => solve [auto with sb]
    end.
  Ltac sb := repeat sb_step.

  Lemma sb_randint : forall a b, blind (randint a b).
  Proof. intros. unfold randint. sb. Qed.
  Lemma sb_choice : forall {A} (l : list A), blind (choice l).
  Proof. intros. unfold choice. sb. Qed.
  Lemma sb_sample_loop : forall {A} k (l : list A), blind (sample_loop k l).
  Proof. intros A k. induction k; intros l; cbn [sample_loop]; sb. Qed.
  Hint Resolve sb_randint sb_choice sb_sample_loop : sb.
  Lemma sb_sample : forall {A} (l : list A) k, blind (sample l k).
  Proof. intros. unfold sample. sb. Qed.
  Lemma sb_random : blind random_.
  Proof. unfold random_. sb. Qed.
  Lemma sb_randrange : forall a b c, blind (randrange a b c).
  Proof. intros. unfold randrange. sb. Qed.
  Hint Resolve sb_sample sb_random sb_randrange : sb.

  Lemma sb_reset : forall l i, blind (reset_idx_loop i l).
  Proof. induction l; intros i; cbn [reset_idx_loop]; sb. Qed.
  Lemma sb_phenotype : forall g l, blind (get_phenotype g l).
  Proof. intros. unfold get_phenotype, get_phenotype1. sb. Qed.
  Lemma sb_sort : forall k l, blind (sort_by_dict k l).
  Proof. intros. unfold sort_by_dict, read_key. sb. Qed.
  Lemma sb_gen_binary : forall gray ps, blind (gen_binary_loop gray ps).
  Proof. intros gray ps. induction ps as [|[a b] ps]; cbn [gen_binary_loop]; sb. Qed.
  Hint Resolve sb_reset sb_phenotype sb_sort sb_gen_binary : sb.
  Lemma sb_fill : forall p, blind (fill p).
  Proof. intros. unfold fill, get_generated_individ, gen_cat1, reset_idx_individ. sb. Qed.
  Lemma sb_crossover : forall k n p1 p2, blind (crossover k n p1 p2).
  Proof. intros. unfold crossover, one_point, two_point, uniform, uniform_gene, order, get_idx_segment. sb. Qed.
  Hint Resolve sb_crossover : sb.
  Lemma sb_cross_pairs : forall k n first m l, (length l <= m)%nat -> blind (cross_pairs k n first l).
  Proof.
    intros k n first m. induction m; intros [|a [|b l]] H; cbn [cross_pairs length] in *; try lia; unfold get_child; sb.
    apply IHm. lia.
  Qed.
  Lemma sb_crossover_execute : forall k gd, blind (crossover_execute k gd).
  Proof. intros. unfold crossover_execute, get_empty_copy. sb. eapply sb_cross_pairs; eauto. Qed.
  Lemma sb_cat_mutation : forall lvl g ps, blind (cat_mutation lvl ps g).
  Proof.
    intros lvl g. induction g; intros [|p ps]; cbn [cat_mutation]; unfold cat_gene, determines_mutation; sb.
  Qed.
  Hint Resolve sb_cat_mutation : sb.
  Lemma sb_mutation_execute : forall m gd, blind (mutation_execute m gd).
  Proof.
    intros. unfold mutation_execute, combi_child, mutate_child, combi_mutation, movement, swap_mut, inversion, shift, two_idx, bin_mutation, bin_gene, determines_mutation. sb.
  Qed.
  Lemma sb_evaluate : forall f gen best r, blind (evaluate f gen best r).
  Proof. intros. unfold evaluate, calc_obj_func, call1, call2. sb. Qed.
  Hint Resolve sb_evaluate : sb.
  Lemma sb_base_fitness : forall f gd, blind (base_fitness_execute f gd).
  Proof. intros. unfold base_fitness_execute, swap, swap1. sb. Qed.
  Hint Resolve sb_base_fitness : sb.
  Lemma sb_compare : forall o l, blind (compare_all o l).
  Proof. intros o l. induction l; cbn [compare_all]; unfold compare_pair, inferior, phen_of, call_list, incr_rank, call1; sb. Qed.
  Hint Resolve sb_compare : sb.
  Lemma sb_fitness_execute : forall f gd, blind (fitness_execute f gd).
  Proof. intros. unfold fitness_execute, assign_ranks. sb. Qed.
  Lemma sb_pop_at : forall l i, blind (pop_at l i).
  Proof. intros. unfold pop_at. sb. Qed.
  Lemma sb_rank1 : forall l, blind (rank1_prefix l).
  Proof. induction l; cbn [rank1_prefix]; unfold rank_is_1; sb. Qed.
  Lemma sb_ltb : forall a b, blind (m_ltb a b).
  Proof. intros. unfold m_ltb. sb. Qed.
  Hint Resolve sb_pop_at sb_rank1 sb_ltb : sb.
  Lemma sb_update : forall gd, blind (update gd).
  Proof. intros. unfold update, update_single, update_multi. sb. Qed.


  Lemma sb_add_best_loop : forall fuel l n nc lc zc els, blind (add_best_loop fuel l n nc lc zc els).
  Proof. induction fuel as [|f IH]; intros; cbn [add_best_loop]; unfold genotypes; sb. Qed.
  Lemma sb_add_random_loop : forall fuel l n nc lc els, blind (add_random_loop fuel l n nc lc els).
  Proof. induction fuel as [|f IH]; intros; cbn [add_random_loop]; unfold is_duplicate, genotypes; sb. Qed.
  Hint Resolve sb_add_best_loop sb_add_random_loop sb_fill sb_crossover_execute sb_mutation_execute sb_fitness_execute sb_update : sb.
  Lemma sb_newgen : forall ng gd, blind (newgen_execute ng gd).
  Proof. intros. unfold newgen_execute, add_parents, add_best, add_random. sb. Qed.

  (** Selections. *)
  Lemma sb_best_loop : forall idx tr l b, blind (get_best_loop idx l tr b).
  Proof. intros idx tr. induction tr; intros; cbn [get_best_loop]; unfold better, sv_at; sb. Qed.
  Hint Resolve sb_best_loop sb_newgen : sb.
  Lemma sb_run_tournament : forall idx t l, blind (run_tournament idx t l).
  Proof. intros. unfold run_tournament, get_best. sb. Qed.
  Hint Resolve sb_run_tournament : sb.
  Lemma sb_second_parent : forall fuel idx t l b, blind (second_parent fuel idx t l b).
  Proof. induction fuel; intros; cbn [second_parent]; sb. Qed.
  Hint Resolve sb_second_parent : sb.
  Lemma sb_total : forall m gd, blind (get_total_num_parents m gd).
  Proof. intros. unfold get_total_num_parents. sb. Qed.
  Hint Resolve sb_total : sb.
  Lemma sb_tournament : forall fuel m idx t gd, blind (tournament fuel m idx t gd).
  Proof. intros. unfold tournament, tournament_pair. sb. Qed.
  Lemma sb_base : forall gd, blind (base_execute gd).
  Proof. intros. unfold base_execute, reset_idx_individ, get_empty_copy. sb. Qed.
  Lemma sb_get_index : forall sc, blind (get_index sc).
  Proof. intros. unfold get_index. sb. Qed.
  Hint Resolve sb_tournament sb_base sb_get_index : sb.
  Lemma sb_second_index : forall fuel sc i, blind (second_index fuel sc i).
  Proof. induction fuel; intros; cbn [second_index]; sb. Qed.
  Hint Resolve sb_second_index : sb.
  Lemma sb_balanced_pass : forall fuel b m idx gd, blind (balanced_pass fuel b m idx gd).
  Proof.
    intros. unfold balanced_pass, balanced_selection, balanced_pair, add_probabilities, weight, sv_at, assign_selection_ranks, rank_step, put_group, put_rank, rank_score, sv_at. sb.
  Qed.
  Hint Resolve sb_balanced_pass : sb.
  Lemma sb_selection : forall fuel sel gd, blind (selection_execute fuel sel gd).
  Proof. intros. unfold selection_execute, check_tournament_size. sb. Qed.
  Hint Resolve sb_selection : sb.

  (** Drivers. *)
  Lemma sb_step : forall fuel c gd, blind (ga_step fuel c gd).
  Proof. intros. unfold ga_step. sb. Qed.
  Hint Resolve sb_step : sb.
  Lemma sb_loop : forall fuel k c gd, blind (ga_loop fuel k c gd).
  Proof. intros fuel k. induction k; intros; cbn [ga_loop]; unfold should_stop; sb. Qed.
  Hint Resolve sb_loop : sb.
  Lemma sb_run : forall fuel c gd, blind (run_loop fuel c gd).
  Proof. intros. unfold run_loop. sb. Qed.
  Hint Resolve sb_run : sb.
  Lemma sb_print : forall gd, blind (print_best_solution gd).
  Proof. intros. unfold print_best_solution. sb. Qed.
  Hint Resolve sb_print : sb.
  Lemma sb_collector_optimize : forall fuel c gd, blind (collector_optimize fuel c gd).
  Proof. intros. unfold collector_optimize. sb. Qed.
  Lemma sb_collector_population : forall multi n ng g inp cp es, blind (collector_set_population multi n ng g inp cp es).
  Proof. intros. unfold collector_set_population. sb. Qed.
  Lemma sb_ga_optimize : forall fuel cf multi g fk sel ck mk ngm, blind (ga_optimize fuel cf multi g fk sel ck mk ngm).
  Proof. intros. unfold ga_optimize. sb. Qed.
  Hint Resolve sb_ga_optimize : sb.
  Lemma sb_vega : forall fuel cf gray gens, blind (vega fuel cf gray gens).
  Proof. intros. unfold vega, call_list, call1. sb. Qed.
End Seed.

(** Computations that do not read the generator, or restart it first. *)
Section Restart.
  Context {NO : NumOps}.

  Definition with_tape {A} (tp : nat -> Z) (o : outcome A) : outcome A :=
    match o with Ok a s => Ok a (set_tape tp s) | Err x => Err x | NoFuel => NoFuel end.
  (** The generator is neither read nor moved. *)
  Definition deaf {A} (m : M A) : Prop := forall s tp, m (set_tape tp s) = with_tape tp (m s).
  (** With a seed, the outcome does not depend on the state of the generator, ... *)
  Definition restart {A} (m : M A) : Prop := forall s z tp, rnd_seed s = Some z -> m (set_tape tp s) = m s.
  (** ... or only the state of the generator afterwards depends on it. *)
  Definition settled {A} (m : M A) : Prop := forall s z tp, rnd_seed s = Some z -> exists tp', m (set_tape tp s) = with_tape tp' (m s).

  Lemma df_ret : forall {A} (a : A), deaf (ret a).
  Proof. intros A a s tp. reflexivity. Qed.
  Lemma df_raise : forall {A} e, deaf (@raise NO A e).
  Proof. intros A e s tp. reflexivity. Qed.
  Lemma df_get : forall r, deaf (get r).
  Proof. intros r s tp. reflexivity. Qed.
  Lemma df_modify : forall r f, deaf (modify r f).
  Proof. intros r f s tp. reflexivity. Qed.
  Lemma df_bind : forall {A B} (m : M A) (k : A -> M B), deaf m -> (forall a, deaf (k a)) -> deaf (bind m k).
  Proof. intros A B m k Hm Hk s tp. unfold bind. rewrite Hm. destruct (m s); cbn; auto. apply Hk. Qed.
  Lemma df_miter : forall {A} (f : A -> M unit) l, (forall a, deaf (f a)) -> deaf (miter f l).
  Proof. intros A f l H. induction l; cbn [miter]; [apply df_ret|]. apply df_bind; auto. Qed.
  Lemma df_logged : forall r g, deaf (call_logged r g).
  Proof. intros r g s tp. unfold call_logged. cbn. destruct (r _); reflexivity. Qed.
  Lemma df_reset : forall l i, deaf (reset_idx_loop i l).
  Proof. induction l; intros i; cbn [reset_idx_loop]; [apply df_ret|]. apply df_bind; [apply df_modify|auto]. Qed.
  Lemma df_call_list : forall o l, deaf (call_list o l).
  Proof.
    intros. unfold call_list, call1. apply df_bind.
    - destruct o; apply df_logged || apply df_raise.
    - intros [x|v]; [apply df_raise|apply df_ret].
  Qed.

  Lemma rs_seed : forall {A} (k : M A), restart (do_seed ;;; k).
  Proof. intros A k s z tp Z. unfold bind, do_seed. cbn [rnd_seed set_tape]. rewrite Z. reflexivity. Qed.
  Lemma rs_deaf_bind : forall {A B} (m : M A) (k : A -> M B), deaf m -> blind m -> (forall a, restart (k a)) -> restart (bind m k).
  Proof.
    intros A B m k Hm Bm Hk s z tp Z. unfold bind. rewrite Hm. destruct (Bm s z Z) as [_ Zm]. destruct (m s) as [a s1|x|] eqn:E; cbn [with_tape]; auto.
    eapply Hk. apply (Zm a s1 eq_refl).
  Qed.
  Lemma rs_bind : forall {A B} (m : M A) (k : A -> M B), restart m -> restart (bind m k).
  Proof. intros A B m k Hm s z tp Z. unfold bind. rewrite (Hm s z tp Z). reflexivity. Qed.
  Lemma rs_settled_bind : forall {A B} (m : M A) (k : A -> M B), settled m -> blind m -> (forall a, restart (k a)) -> restart (bind m k).
  Proof.
    intros A B m k Hm Bm Hk s z tp Z. unfold bind. destruct (Hm s z tp Z) as (tp' & E). rewrite E. destruct (Bm s z Z) as [_ Zm].
    destruct (m s) as [a s1|x|] eqn:E1; cbn [with_tape]; auto. eapply Hk. apply (Zm a s1 eq_refl).
  Qed.
  Lemma restart_settled : forall {A} (m : M A), restart m -> settled m.
  Proof.
    intros A m H s z tp Z. rewrite (H s z tp Z). destruct (m s) as [a s1|x|]; [exists (tape s1)|exists tp|exists tp]; cbn; auto.
    destruct s1; reflexivity.
  Qed.
  Lemma deaf_settled : forall {A} (m : M A), deaf m -> settled m.
  Proof. intros A m H s z tp Z. exists tp. apply H. Qed.

  Lemma rs_base : forall gd, restart (base_execute gd).
  Proof.
    intros. unfold base_execute, reset_idx_individ, get_empty_copy. apply rs_deaf_bind; [apply df_reset|apply sb_reset|]. intros _.
    apply rs_bind, rs_seed.
  Qed.
  Lemma rs_fold : forall {A B} (f : A -> B -> M A) b l a, (forall a b, restart (f a b)) -> restart (mfold f (b :: l) a).
  Proof. intros A B f b l a H. cbn [mfold]. apply rs_bind. auto. Qed.
  Lemma settled_fold : forall {A B} (f : A -> B -> M A) l a, (forall a b, restart (f a b)) -> settled (mfold f l a).
  Proof. intros A B f [|b l] a H; [apply deaf_settled, df_ret|apply restart_settled, rs_fold; auto]. Qed.
  Lemma rs_pass : forall fuel b m idx gd, restart (balanced_pass fuel b m idx gd).
  Proof. intros. unfold balanced_pass. apply rs_bind, rs_base. Qed.
  Lemma settled_selection : forall fuel sel gd, settled (selection_execute fuel sel gd).
  Proof.
    intros fuel [t| | |m t|m|m] gd; cbn [selection_execute].
    - apply restart_settled, rs_deaf_bind; [unfold check_tournament_size; destruct (_ || _); [apply df_raise|apply df_ret]|
        unfold check_tournament_size; destruct (_ || _); [apply sb_raise|apply sb_ret]|]. intros _. apply rs_bind, rs_base.
    - apply restart_settled, rs_pass.
    - apply restart_settled, rs_pass.
    - apply restart_settled, rs_deaf_bind; [unfold check_tournament_size; destruct (_ || _); [apply df_raise|apply df_ret]|
        unfold check_tournament_size; destruct (_ || _); [apply sb_raise|apply sb_ret]|]. intros _. apply rs_bind, rs_base.
    - apply settled_fold. intros. apply rs_pass.
    - intros s z tp Z. unfold bind.
      rewrite (df_miter (fun r => modify r (set_rank (Some (SVL (repeat nzero (Z.to_nat m)))))) (members (population gd)) (fun a => df_modify _ _) s tp).
      destruct (sb_miter (fun r => modify r (set_rank (Some (SVL (repeat nzero (Z.to_nat m)))))) (members (population gd)) (fun a => sb_modify _ _) s z Z) as [_ Zm].
      destruct (miter _ _ s) as [u s1|x|]; [|exists tp; reflexivity|exists tp; reflexivity]. cbn [with_tape].
      exact (settled_fold (fun g i => balanced_pass fuel true (Some m) (Some i) g) (zrange 0 m) gd (fun a b => rs_pass _ _ _ _ _) s1 z tp (Zm u s1 eq_refl)).
  Qed.
  Lemma rs_crossover : forall k gd, restart (crossover_execute k gd).
  Proof.
    intros. unfold crossover_execute, get_empty_copy. destruct (members _); [intros s z tp Z; reflexivity|].
    apply rs_deaf_bind; [apply df_get|apply sb_get|]. intros i0. cbv zeta. apply rs_bind, rs_seed.
  Qed.
  Lemma rs_step : forall fuel c gd, restart (ga_step fuel c gd).
  Proof.
    intros. unfold ga_step. apply rs_settled_bind; [apply settled_selection|apply sb_selection|]. intros gd1. apply rs_bind, rs_crossover.
  Qed.
  Lemma rs_ga_optimize : forall fuel cf multi g fk sel ck mk ngm, restart (ga_optimize fuel cf multi g fk sel ck mk ngm).
  Proof. intros. unfold ga_optimize. apply rs_seed. Qed.
  Lemma rs_vega : forall fuel cf gray gens, restart (vega fuel cf gray gens).
  Proof.
    intros. unfold vega. apply rs_deaf_bind; [| |intros; apply rs_ga_optimize].
    - destruct (cf_conditions cf); [apply df_ret|]. apply df_bind; [apply df_call_list|intros; apply df_ret].
    - destruct (cf_conditions cf); [apply sb_ret|]. apply sb_bind; [|intros; apply sb_ret]. unfold call_list, call1.
      apply sb_bind; [destruct (cf_objective cf); apply sb_logged || apply sb_raise|]. intros [x|v]; [apply sb_raise|apply sb_ret].
  Qed.
End Restart.
