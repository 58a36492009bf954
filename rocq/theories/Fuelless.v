(** Computations without an unbounded loop: they give a value or an exception. *)
From Coq Require Import String.
From Coq Require Import ZArith List Bool Lia.
From Verif Require Import Num State Binary Population GaData Crossover Mutation Selection Penalty Fitness NewGeneration Driver.
Import ListNotations.
Open Scope list_scope.
Open Scope Z_scope.

Section Fuelless.
  Context {NO : NumOps}.

  Definition fuelless {A} (m : M A) : Prop := forall s, m s <> NoFuel.
  Lemma fl_ret : forall {A} (a : A), fuelless (ret a).
  Proof. intros A a s. discriminate. Qed.
  Lemma fl_raise : forall {A} e, fuelless (@raise NO A e).
  Proof. intros A e s. discriminate. Qed.
  Lemma fl_bind : forall {A B} (m : M A) (k : A -> M B), fuelless m -> (forall a, fuelless (k a)) -> fuelless (bind m k).
  Proof. intros A B m k Hm Hk s. unfold bind. destruct (m s) eqn:E; [apply Hk|discriminate|]. exfalso. eapply Hm; eauto. Qed.
  Lemma fl_lift : forall {A} (r : exn + A), fuelless (lift r).
  Proof. intros A r s. unfold lift. destruct r; discriminate. Qed.
  Lemma fl_lift_opt : forall {A} e (r : option A), fuelless (lift_opt e r).
  Proof. intros A e r s. unfold lift_opt. destruct r; discriminate. Qed.
  Lemma fl_get : forall r, fuelless (get r).
  Proof. intros r s. discriminate. Qed.
  Lemma fl_modify : forall r f, fuelless (modify r f).
  Proof. intros r f s. discriminate. Qed.
  Lemma fl_alloc : forall i, fuelless (alloc i).
  Proof. intros i s. discriminate. Qed.
  Lemma fl_do_seed : fuelless do_seed.
  Proof. intros s. unfold do_seed. destruct (rnd_seed s); discriminate. Qed.
  Lemma fl_draw : forall k, fuelless (draw k).
  Proof. intros k s. discriminate. Qed.
  Lemma fl_logged : forall r g, fuelless (call_logged r g).
  Proof. intros r g s. unfold call_logged. destruct (r _); discriminate. Qed.
  Lemma fl_mmap : forall {A B} (f : A -> M B) l, (forall a, fuelless (f a)) -> fuelless (mmap f l).
  Proof. intros A B f l H. induction l; cbn [mmap]; [apply fl_ret|]. apply fl_bind; auto. intros. apply fl_bind; auto. intros. apply fl_ret. Qed.
  Lemma fl_miter : forall {A} (f : A -> M unit) l, (forall a, fuelless (f a)) -> fuelless (miter f l).
  Proof. intros A f l H. induction l; cbn [miter]; [apply fl_ret|]. apply fl_bind; auto. Qed.
  Lemma fl_mfold : forall {A B} (f : A -> B -> M A) l a, (forall a b, fuelless (f a b)) -> fuelless (mfold f l a).
  Proof. intros A B f l. induction l; intros b H; cbn [mfold]; [apply fl_ret|]. apply fl_bind; auto. Qed.
  Lemma fl_mrepeat : forall {A} n (m : M A), fuelless m -> fuelless (mrepeat n m).
  Proof. intros A n m H. induction n; cbn [mrepeat]; [apply fl_ret|]. apply fl_bind; auto. intros. apply fl_bind; auto. intros. apply fl_ret. Qed.
  Hint Resolve fl_ret fl_raise fl_lift fl_lift_opt fl_get fl_modify fl_alloc fl_do_seed fl_draw fl_logged : fl.
  Ltac fl_step :=
    match goal with
    | |- forall _, _ => intros
    | |- fuelless (bind _ _) => apply fl_bind
    | |- fuelless (mmap _ _) => apply fl_mmap
    | |- fuelless (miter _ _) => apply fl_miter
    | |- fuelless (mfold _ _ _) => apply fl_mfold
    | |- fuelless (mrepeat _ _) => apply fl_mrepeat
    | |- fuelless (match ?x with _ => _ end) => destruct x
    | |- fuelless (let _ := _ in _) => cbv zeta
    | |- fuelless _ => solve [auto with fl]
    end.
  Ltac fl := repeat fl_step.

  Lemma fl_randint : forall a b, fuelless (randint a b).
  Proof. intros. unfold randint. fl. Qed.
  Lemma fl_choice : forall {A} (l : list A), fuelless (choice l).
  Proof. intros. unfold choice. fl. Qed.
  Lemma fl_sample_loop : forall {A} k (l : list A), fuelless (sample_loop k l).
  Proof. intros A k. induction k; intros l; cbn [sample_loop]; fl. Qed.
  Hint Resolve fl_randint fl_choice fl_sample_loop : fl.
  Lemma fl_sample : forall {A} (l : list A) k, fuelless (sample l k).
  Proof. intros. unfold sample. fl. Qed.
  Lemma fl_random : fuelless random_.
  Proof. unfold random_. fl. Qed.
  Lemma fl_randrange : forall a b c, fuelless (randrange a b c).
  Proof. intros. unfold randrange. fl. Qed.
  Hint Resolve fl_sample fl_random fl_randrange : fl.

  Lemma fl_reset : forall l i, fuelless (reset_idx_loop i l).
  Proof. induction l; intros i; cbn [reset_idx_loop]; fl. Qed.
  Lemma fl_phenotype : forall g l, fuelless (get_phenotype g l).
  Proof. intros. unfold get_phenotype, get_phenotype1. fl. Qed.
  Lemma fl_sort : forall k l, fuelless (sort_by_dict k l).
  Proof. intros. unfold sort_by_dict, read_key. fl. Qed.
  Lemma fl_gen_binary : forall gray ps, fuelless (gen_binary_loop gray ps).
  Proof. intros gray ps. induction ps as [|[a b] ps]; cbn [gen_binary_loop]; fl. Qed.
  Hint Resolve fl_reset fl_phenotype fl_sort fl_gen_binary : fl.
  Lemma fl_fill : forall p, fuelless (fill p).
  Proof. intros. unfold fill, get_generated_individ, gen_cat1, reset_idx_individ. fl. Qed.
  Lemma fl_crossover : forall k n p1 p2, fuelless (crossover k n p1 p2).
  Proof. intros. unfold crossover, one_point, two_point, uniform, uniform_gene, order, get_idx_segment. fl. Qed.
  Hint Resolve fl_crossover : fl.
  Lemma fl_cross_pairs : forall k n first m l, (length l <= m)%nat -> fuelless (cross_pairs k n first l).
  Proof.
    intros k n first m. induction m; intros [|a [|b l]] H; cbn [cross_pairs length] in *; try lia; unfold get_child; fl.
    apply IHm. lia.
  Qed.
  Lemma fl_crossover_execute : forall k gd, fuelless (crossover_execute k gd).
  Proof. intros. unfold crossover_execute, get_empty_copy. fl. eapply fl_cross_pairs; eauto. Qed.
  Lemma fl_cat_mutation : forall lvl g ps, fuelless (cat_mutation lvl ps g).
  Proof.
    intros lvl g. induction g; intros [|p ps]; cbn [cat_mutation]; unfold cat_gene, determines_mutation; fl.
  Qed.
  Hint Resolve fl_cat_mutation : fl.
  Lemma fl_mutation_execute : forall m gd, fuelless (mutation_execute m gd).
  Proof.
    intros. unfold mutation_execute, combi_child, mutate_child, combi_mutation, movement, swap_mut, inversion, shift, two_idx, bin_mutation, bin_gene, determines_mutation. fl.
  Qed.
  Lemma fl_evaluate : forall f gen best r, fuelless (evaluate f gen best r).
  Proof. intros. unfold evaluate, calc_obj_func, call1, call2. fl. Qed.
  Hint Resolve fl_evaluate : fl.
  Lemma fl_base_fitness : forall f gd, fuelless (base_fitness_execute f gd).
  Proof. intros. unfold base_fitness_execute, swap, swap1. fl. Qed.
  Hint Resolve fl_base_fitness : fl.
  Lemma fl_compare : forall o l, fuelless (compare_all o l).
  Proof. intros o l. induction l; cbn [compare_all]; unfold compare_pair, inferior, phen_of, call_list, incr_rank, call1; fl. Qed.
  Hint Resolve fl_compare : fl.
  Lemma fl_fitness_execute : forall f gd, fuelless (fitness_execute f gd).
  Proof. intros. unfold fitness_execute, assign_ranks. fl. Qed.
  Lemma fl_pop_at : forall l i, fuelless (pop_at l i).
  Proof. intros. unfold pop_at. fl. Qed.
  Lemma fl_rank1 : forall l, fuelless (rank1_prefix l).
  Proof. induction l; cbn [rank1_prefix]; unfold rank_is_1; fl. Qed.
  Lemma fl_ltb : forall a b, fuelless (m_ltb a b).
  Proof. intros. unfold m_ltb. fl. Qed.
  Hint Resolve fl_pop_at fl_rank1 fl_ltb : fl.
  Lemma fl_update : forall gd, fuelless (update gd).
  Proof. intros. unfold update, update_single, update_multi. fl. Qed.

  (** The loops of NewGeneration carry their own bound. *)
  Lemma fl_add_best_loop : forall fuel l n nc lc zc els, nc + 1 <= Z.of_nat fuel + lc -> (1 <= fuel)%nat -> fuelless (add_best_loop fuel l n nc lc zc els).
  Proof.
    induction fuel as [|f IH]; intros l n nc lc zc els H H1; [lia|]. cbn [add_best_loop]. unfold genotypes. cbv zeta.
    apply fl_bind; [fl|]. intros gs. destruct (negb (has_dup gs)); [fl|]. destruct (_ <? 0); [fl|].
    apply fl_bind; [fl|]. intros r. destruct (Z.leb_spec nc (lc + 1)); [fl|]. apply IH; lia.
  Qed.
  Lemma fl_add_random_loop : forall fuel l n nc lc els, nc + 1 <= Z.of_nat fuel + lc -> (1 <= fuel)%nat -> fuelless (add_random_loop fuel l n nc lc els).
  Proof.
    induction fuel as [|f IH]; intros l n nc lc els H H1; [lia|]. cbn [add_random_loop]. unfold is_duplicate, genotypes. cbv zeta.
    apply fl_bind; [fl|]. intros d. destruct (negb d); [fl|]. apply fl_bind; [fl|]. intros r. destruct (Z.leb_spec nc (lc + 1)); [fl|]. apply IH; lia.
  Qed.
  Lemma fl_newgen : forall ng gd, fuelless (newgen_execute ng gd).
  Proof.
    intros. unfold newgen_execute, add_parents, add_best, add_random. fl; try (apply fl_add_best_loop; lia); apply fl_add_random_loop; lia.
  Qed.
End Fuelless.
