(** What a generation leaves in idx_individ and rank, and facts about finite sets of lists,
    used for C95. *)
From Coq Require Import String.
From Coq Require Import ZArith List Bool Lia Permutation.
From Verif Require Import Spec Num State Binary Population GaData Crossover Mutation Selection Penalty Fitness NewGeneration Driver
  ListLemmas Rnd Exec Laws CodingProofs PopulationProofs CrossoverProofs MutationProofs SelectionProofs VegaProofs NewGenProofs FitnessProofs UpdateProofs StepProofs RunProofs CycleProofs.
Import ListNotations.
Open Scope list_scope.
Open Scope Z_scope.

(** *** Numbers and ranks *)
Section Marks.
  Context {NO : NumOps}.
  Variable N : Z.
  (** The number is missing or below N; there is no rank. *)
  Definition marked (i : individ) : Prop := rank i = None /\ match idx_individ i with Some j => 0 <= j < N | None => True end.
  Definition all_marked (s : st) : Prop := forall r, marked (heap s r).
  Definition holds {A} (m : M A) : Prop := forall s a s', m s = Ok a s' -> all_marked s -> all_marked s'.
  Lemma kp_ret : forall {A} (a : A), holds (ret a).
  Proof. intros A a s b s' [= <- <-]. auto. Qed.
  Lemma kp_raise : forall {A} e, holds (@raise NO A e).
  Proof. intros A e s b s' [=]. Qed.
  Lemma kp_nofuel : forall {A}, holds (@nofuel NO A).
  Proof. intros A s b s' [=]. Qed.
  Lemma kp_bind : forall {A B} (m : M A) (k : A -> M B), holds m -> (forall a, holds (k a)) -> holds (bind m k).
  Proof.
    intros A B m k Hm Hk s b s' H. unfold bind in H. destruct (m s) as [a s1|x|] eqn:E; try discriminate. intros Y. eapply Hk; [exact H|]. eapply Hm; [exact E|exact Y].
  Qed.
  Lemma kp_get_bind : forall {B} r (k : individ -> M B), (forall i, marked i -> holds (k i)) -> holds (bind (get r) k).
  Proof. intros B r k Hk s b s' H Y. unfold bind, get in H. eapply Hk; eauto. Qed.
  Lemma kp_lift : forall {A} (r : exn + A), holds (lift r).
  Proof. intros A [x|a]; [apply kp_raise|apply kp_ret]. Qed.
  Lemma kp_lift_opt : forall {A} e (r : option A), holds (lift_opt e r).
  Proof. intros A e [a|]; [apply kp_ret|apply kp_raise]. Qed.
  Lemma kp_get : forall r, holds (get r).
  Proof. intros r s b s' [= <- <-]. auto. Qed.
  Lemma kp_modify : forall r f, (forall i, marked i -> marked (f i)) -> holds (modify r f).
  Proof. intros r f Hf s b s' [= <- <-] Y q. cbn. unfold upd. destruct (Nat.eqb_spec q r); auto. Qed.
  Lemma kp_alloc : forall i, marked i -> holds (alloc i).
  Proof. intros i Hi s b s' [= <- <-] Y q. cbn. unfold upd. destruct (Nat.eqb_spec q (next s)); auto. Qed.
  Lemma kp_do_seed : holds do_seed.
  Proof. intros s b s' H Y. unfold do_seed in H. destruct (rnd_seed s); injection H as <- <-; auto. Qed.
  Lemma kp_draw : forall k, holds (draw k).
  Proof. intros k s b s' [= <- <-]. auto. Qed.
  Lemma kp_logged : forall r g, holds (call_logged r g).
  Proof. intros r g s b s' H. unfold call_logged in H. cbn in H. destruct (r _); [discriminate|]. injection H as <- <-. auto. Qed.
  Lemma kp_mmap : forall {A B} (f : A -> M B) l, (forall a, In a l -> holds (f a)) -> holds (mmap f l).
  Proof.
    intros A B f l. induction l as [|a l IH]; intros H; cbn [mmap]; [apply kp_ret|]. apply kp_bind; [apply H; left; auto|]. intros.
    apply kp_bind; [apply IH; intros; apply H; right; auto|]. intros. apply kp_ret.
  Qed.
  Lemma kp_miter : forall {A} (f : A -> M unit) l, (forall a, In a l -> holds (f a)) -> holds (miter f l).
  Proof. intros A f l. induction l as [|a l IH]; intros H; cbn [miter]; [apply kp_ret|]. apply kp_bind; [apply H; left; auto|]. intros. apply IH; intros; apply H; right; auto. Qed.
  Lemma kp_mfold : forall {A B} (f : A -> B -> M A) l a, (forall a b, holds (f a b)) -> holds (mfold f l a).
  Proof. intros A B f l. induction l; intros b H; cbn [mfold]; [apply kp_ret|]. apply kp_bind; auto. Qed.
  Lemma kp_mrepeat : forall {A} n (m : M A), holds m -> holds (mrepeat n m).
  Proof. intros A n m H. induction n; cbn [mrepeat]; [apply kp_ret|]. apply kp_bind; auto. intros. apply kp_bind; auto. intros. apply kp_ret. Qed.
  Lemma marked_geno : forall g i, marked i -> marked (set_genotype g i). Proof. auto. Qed.
  Lemma marked_new : forall i, rank i = None -> idx_individ i = None -> marked i. Proof. intros i E F. split; auto. rewrite F. exact I. Qed.
  Hint Resolve kp_ret kp_raise kp_nofuel kp_lift kp_lift_opt kp_get kp_modify kp_alloc kp_do_seed kp_draw kp_logged marked_geno : kp.
  Ltac kp_step :=
    match goal with
    | |- forall _, _ => intros
    | |- holds (bind (get _) _) => apply kp_get_bind
    | |- holds (bind _ _) => apply kp_bind
    | |- holds (mmap _ _) => apply kp_mmap
    | |- holds (miter _ _) => apply kp_miter
    | |- holds (mfold _ _ _) => apply kp_mfold
    | |- holds (mrepeat _ _) => apply kp_mrepeat
    | |- holds (match ?x with _ => _ end) => destruct x
    | |- holds (let _ := _ in _) => cbv zeta
    | |- holds (modify _ _) => apply kp_modify; intros ? ?; try assumption
    | |- holds (alloc _) => apply kp_alloc; try assumption
    | |- holds _ => solve [auto with kp]
    | |- marked (if ?x then _ else _) => destruct x; try assumption
    end.
  Ltac kp := repeat kp_step.

  Lemma kp_randint : forall a b, holds (randint a b).
  Proof. intros. unfold randint. kp. Qed.
  Lemma kp_choice : forall {A} (l : list A), holds (choice l).
  Proof. intros. unfold choice. kp. Qed.
  Lemma kp_sample_loop : forall {A} k (l : list A), holds (sample_loop k l).
  Proof. intros A k. induction k; intros l; cbn [sample_loop]; kp. Qed.
  Hint Resolve kp_randint kp_choice kp_sample_loop : kp.
  Lemma kp_sample : forall {A} (l : list A) k, holds (sample l k).
  Proof. intros. unfold sample. kp. Qed.
  Lemma kp_random : holds random_.
  Proof. unfold random_. kp. Qed.
  Lemma kp_randrange : forall a b c, holds (randrange a b c).
  Proof. intros. unfold randrange. kp. Qed.
  Hint Resolve kp_sample kp_random kp_randrange : kp.
  Lemma kp_reset : forall l i, 0 <= i -> i + Z.of_nat (length l) <= N -> holds (reset_idx_loop i l).
  Proof.
    induction l as [|a l IH]; intros i Hi H; cbn [reset_idx_loop]; [apply kp_ret|]. cbn [length] in H. apply kp_bind; [|intros; apply IH; lia].
    apply kp_modify. intros j [Y _]. split; auto. cbn. lia.
  Qed.
  Lemma kp_phenotype : forall g l, holds (get_phenotype g l).
  Proof. intros. unfold get_phenotype, get_phenotype1. kp. Qed.
  Lemma kp_swap : forall l, holds (swap l).
  Proof. intros. unfold swap, swap1. kp. Qed.
  Lemma kp_sort : forall k l, holds (sort_by_dict k l).
  Proof. intros. unfold sort_by_dict, read_key. kp. Qed.
  Hint Resolve kp_sort kp_phenotype kp_swap : kp.
  Lemma kp_crossover : forall k n p1 p2, holds (crossover k n p1 p2).
  Proof. intros. unfold crossover, one_point, two_point, uniform, uniform_gene, order, get_idx_segment. kp. Qed.
  Hint Resolve kp_crossover : kp.
  Lemma kp_cross_pairs : forall k n first m l, (length l <= m)%nat -> holds (cross_pairs k n first l).
  Proof.
    intros k n first m. induction m; intros [|a [|b l]] H; cbn [cross_pairs length] in *; try lia; unfold get_child; kp.
    all: try (apply IHm; lia); try (split; [reflexivity|exact I]). all: match goal with Y : marked ?i |- marked (set_genotype _ (empty_like ?i)) => destruct Y as [Y Z]; split; [cbn; rewrite Y; reflexivity|cbn; destruct (idx_individ i); exact I] end.
  Qed.
  Lemma kp_crossover_execute : forall k gd, holds (crossover_execute k gd).
  Proof. intros. unfold crossover_execute, get_empty_copy. kp. eapply kp_cross_pairs; eauto. Qed.
  Lemma kp_cat_mutation : forall lvl g ps, holds (cat_mutation lvl ps g).
  Proof. intros lvl g. induction g; intros [|p ps]; cbn [cat_mutation]; unfold cat_gene, determines_mutation; kp. Qed.
  Hint Resolve kp_cat_mutation : kp.
  Lemma kp_mutation_execute : forall m gd, holds (mutation_execute m gd).
  Proof.
    intros. unfold mutation_execute, combi_child, mutate_child, combi_mutation, movement, swap_mut, inversion, shift, two_idx, bin_mutation, bin_gene, determines_mutation. kp.
  Qed.
  Lemma kp_evaluate : forall f gen best r, holds (evaluate f gen best r).
  Proof. intros. unfold evaluate, calc_obj_func, call1, call2. kp. Qed.
  Hint Resolve kp_evaluate : kp.
  Lemma kp_base_fitness : forall f gd, holds (base_fitness_execute f gd).
  Proof. intros. unfold base_fitness_execute. kp. Qed.
  Lemma kp_pop_at : forall l i, holds (pop_at l i).
  Proof. intros. unfold pop_at. kp. Qed.
  Lemma kp_pop_bind : forall {B} l i (k : individ -> M B), (forall d, marked d -> holds (k d)) -> holds (bind (pop_at l i) k).
  Proof.
    intros B l i k Hk s b s' H Y. unfold pop_at, bind in H. destruct (py_nth l i); cbn in H; [|discriminate]. eapply Hk; eauto.
  Qed.
  Lemma kp_ltb : forall a b, holds (m_ltb a b).
  Proof. intros. unfold m_ltb. kp. Qed.
  Lemma kp_rank1 : forall l, holds (rank1_prefix l).
  Proof. induction l; cbn [rank1_prefix]; unfold rank_is_1; kp. Qed.
  Hint Resolve kp_pop_at kp_ltb kp_rank1 : kp.
  Lemma kp_add_best_loop : forall fuel l n nc lc zc els, holds (add_best_loop fuel l n nc lc zc els).
  Proof. induction fuel as [|f IH]; intros; cbn [add_best_loop]; unfold genotypes; kp. Qed.
  Lemma kp_add_random_loop : forall fuel l n nc lc els, holds (add_random_loop fuel l n nc lc els).
  Proof. induction fuel as [|f IH]; intros; cbn [add_random_loop]; unfold is_duplicate, genotypes; kp. Qed.
  Hint Resolve kp_add_best_loop kp_add_random_loop : kp.
  Lemma kp_newgen : forall ng gd, holds (newgen_execute ng gd).
  Proof. intros. unfold newgen_execute, add_parents, add_best, add_random. kp. Qed.
  Lemma kp_best_loop : forall idx tr l b, holds (get_best_loop idx l tr b).
  Proof. intros idx tr. induction tr; intros; cbn [get_best_loop]; unfold better, sv_at; kp. Qed.
  Hint Resolve kp_best_loop : kp.
  Lemma kp_run_tournament : forall idx t l, holds (run_tournament idx t l).
  Proof. intros. unfold run_tournament, get_best. kp. Qed.
  Hint Resolve kp_run_tournament : kp.
  Lemma kp_second_parent : forall fuel idx t l b, holds (second_parent fuel idx t l b).
  Proof. induction fuel; intros; cbn [second_parent]; kp. Qed.
  Hint Resolve kp_second_parent : kp.
  Lemma kp_total : forall m gd, holds (get_total_num_parents m gd).
  Proof. intros. unfold get_total_num_parents. kp. Qed.
  Hint Resolve kp_total : kp.
  Lemma kp_tournament : forall fuel m idx t gd, holds (tournament fuel m idx t gd).
  Proof. intros. unfold tournament, tournament_pair. kp. Qed.
  Lemma kp_base : forall gd, Z.of_nat (length (members (population gd))) <= N -> holds (base_execute gd).
  Proof. intros. unfold base_execute, reset_idx_individ, get_empty_copy. apply kp_bind; [apply kp_reset; lia|]. kp. Qed.
  Lemma kp_get_index : forall sc, holds (get_index sc).
  Proof. intros. unfold get_index. kp. Qed.
  Hint Resolve kp_tournament kp_get_index : kp.
  Lemma kp_second_index : forall fuel sc i, holds (second_index fuel sc i).
  Proof. induction fuel; intros; cbn [second_index]; kp. Qed.
  Hint Resolve kp_second_index : kp.
  Lemma kp_update : forall gd, is_multi gd = false -> holds (update gd).
  Proof. intros gd E. unfold update. rewrite E. unfold update_single. kp. Qed.
  (** The selections that do not assign ranks. *)
  Definition rankless (sel : selection) : Prop := match sel with SelTournament _ | SelBalanced => True | _ => False end.
  Lemma rankless_plain : forall sel, rankless sel -> plain_selection sel.
  Proof. intros []; cbn; auto. Qed.
  Lemma kp_selection : forall fuel sel gd, rankless sel -> Z.of_nat (length (members (population gd))) <= N -> holds (selection_execute fuel sel gd).
  Proof.
    intros fuel sel gd P H. destruct sel; cbn in P; try contradiction; cbn [selection_execute].
    - apply kp_bind; [unfold check_tournament_size; kp|]. intros. apply kp_bind; [apply kp_base; auto|]. intros. apply kp_tournament.
    - unfold balanced_pass. apply kp_bind; [apply kp_base; auto|]. unfold balanced_selection, balanced_pair, add_probabilities, weight, sv_at. repeat first [apply kp_pop_bind|kp_step].
  Qed.
End Marks.

(** *** A generation keeps them *)
Section Generation.
  Context {NO : NumOps}.
  Variable N : Z.
  Lemma kp_first : forall f gd, is_multi gd = false -> fkind f = Hyperbola -> holds N (first_generation f gd).
  Proof. intros f gd E Fk. unfold first_generation, fitness_execute. rewrite Fk. cbn [is_multi_kind]. apply kp_bind; [apply kp_base_fitness|]. intros. apply kp_update. auto. Qed.
  Lemma kp_step : forall fuel c gd, is_multi gd = false -> single c -> rankless (c_selection c) -> Z.of_nat (length (members (population gd))) <= N ->
    forall s, (forall r, In r (members (population gd)) -> (r < next s)%nat) -> forall a s', ga_step fuel c gd s = Ok a s' -> all_marked N s -> all_marked N s'.
  Proof.
    intros fuel c gd E (Fk & Ng & _) Rl Ln s Al x s' H. unfold ga_step in H.
    bd H gd1 s1 R1. bd H gd2 s2 R2. bd H m' s3 R3. bd H gd3 s4 R4. bd H u s5 R5. bd H gd4 s6 R6. apply ret_ok in H. destruct H as [_ ->].
    intros Y. apply (kp_selection N fuel _ gd Rl Ln _ _ _ R1) in Y.
    apply selection_ok in R1; [|exact Al|apply plain_objectives, rankless_plain, Rl]. destruct R1 as (_ & a & n & _ & -> & _).
    assert (E2 : is_multi gd2 = false).
    { unfold crossover_execute in R2. destruct (members (population (set_parents (seq a (2 * n)) gd))) as [|first rest]; [discriminate R2|]. bd R2 i0 t1 Q1. bd R2 e t2 Q2. bd R2 ch t3 Q3.
      apply ret_ok in R2. destruct R2 as [-> ->]. exact E. }
    assert (E3 : is_multi gd3 = false) by (apply (newgen_single_ok _ _ _ _ _ Ng) in R4; destruct R4 as (l & els & _ & _ & _ & ->); exact E2).
    apply (kp_crossover_execute N _ _ _ _ _ R2) in Y. apply (kp_mutation_execute N _ _ _ _ _ R3) in Y.
    apply (kp_newgen N _ _ _ _ _ R4) in Y. unfold fitness_execute in R5. rewrite Fk in R5. apply (kp_base_fitness N _ _ _ _ _ R5) in Y. apply (kp_update N _ E3 _ _ _ R6) in Y. exact Y.
  Qed.
  (** The members taken over are one more than are missing, at most. *)
  Lemma taken_bound : forall s tr k l els, taken s tr k l els -> (length els <= Z.to_nat k + 1)%nat.
  Proof.
    intros s tr k l els H. unfold taken in H. destruct (0 <? k) eqn:E; [apply Z.ltb_lt in E|].
    - destruct tr.
      + destruct H as [H1 H2]. cbv zeta in *. assert (Lt : (length (top (Z.to_nat k + 1) l) <= Z.to_nat k + 1)%nat) by (rewrite top_length; lia).
        destruct (has_dup (genos s (top (Z.to_nat k + 1) l))) eqn:D; [|rewrite H1 by auto; auto].
        destruct (H2 eq_refl) as [[_ (smp & P & ->)]|(p & smp & Dm & -> & P)]; apply picks_length in P; rewrite app_length, P; [lia|].
        apply doomed_bound in Dm. unfold genos in Dm. rewrite map_length in Dm. rewrite remove_at_len by lia. lia.
      + destruct H as (l0 & b & e & -> & P & -> & _). apply picks_length in P. rewrite app_length, P. cbn. lia.
    - destruct H as (l0 & b & _ & ->). cbn. lia.
  Qed.
End Generation.

(** *** Finitely many lists *)
Section Words.
  Context {T : Type}.
  (** The lists over [A] of length [n], and those of length [n] at most. *)
  Fixpoint tuples (A : list T) (n : nat) : list (list T) :=
    match n with O => [[]] | S m => flat_map (fun a => map (cons a) (tuples A m)) A end.
  Fixpoint words (A : list T) (n : nat) : list (list T) :=
    match n with O => [[]] | S m => [] :: flat_map (fun a => map (cons a) (words A m)) A end.
  Lemma flat_map_len : forall {X Y} (f : X -> list Y) (l : list X) k, (forall x, length (f x) = k) -> length (flat_map f l) = (length l * k)%nat.
  Proof. intros X Y f l k H. induction l; cbn; auto. rewrite app_length, H, IHl. reflexivity. Qed.
  Lemma tuples_in : forall A w, incl w A -> In w (tuples A (length w)).
  Proof.
    intros A. induction w as [|x w IH]; intros I; cbn; auto. apply in_flat_map. exists x. split; [apply I; left; auto|]. apply in_map. apply IH. intros y Hy. apply I. right. auto.
  Qed.
  Lemma tuples_length : forall A n, length (tuples A n) = (length A ^ n)%nat.
  Proof. intros A. induction n; cbn [tuples Nat.pow]; auto. apply flat_map_len. intros. rewrite map_length. auto. Qed.
  Lemma words_in : forall A n w, incl w A -> (length w <= n)%nat -> In w (words A n).
  Proof.
    intros A n. induction n as [|n IH]; intros [|x w] I L; cbn in L |- *; try lia; auto.
    right. apply in_flat_map. exists x. split; [apply I; left; auto|]. apply in_map. apply IH; [|lia]. intros y Hy. apply I. right. auto.
  Qed.
  (** 1 + a + a^2 + ... + a^n. *)
  Fixpoint geom (a n : nat) : nat := match n with O => 1 | S m => 1 + a * geom a m end.
  Lemma words_length : forall A n, length (words A n) = geom (length A) n.
  Proof. intros A. induction n; cbn [words geom length]; auto. rewrite (flat_map_len _ A (geom (length A) n)); [lia|]. intros. rewrite map_length. auto. Qed.
  Lemma geom_sum : forall a n, geom a (S n) = (geom a n + a ^ S n)%nat.
  Proof.
    intros a. induction n as [|n IH]; [cbn; lia|]. transitivity (1 + a * (geom a n + a ^ S n))%nat; [rewrite <- IH; reflexivity|].
    change (geom a (S n)) with (1 + a * geom a n)%nat. change (a ^ S (S n))%nat with (a * a ^ S n)%nat. lia.
  Qed.
End Words.

(** *** Two numbers with the same value *)
Lemma nat_dup : forall l : list nat, NoDup l \/ exists i j x, (i < j)%nat /\ nth_error l i = Some x /\ nth_error l j = Some x.
Proof.
  induction l as [|a l [IH|(i & j & x & L & Hi & Hj)]]; [left; constructor| |right; exists (S i), (S j), x; repeat split; auto; lia].
  destruct (in_dec Nat.eq_dec a l) as [I|I]; [|left; constructor; auto]. right. apply In_nth_error in I. destruct I as (j & Hj). exists 0%nat, (S j), a. repeat split; auto. lia.
Qed.
Lemma pigeons : forall {T} (W : list T) (P : nat -> T -> Prop) n, (length W < n)%nat -> (forall k, (k < n)%nat -> exists w, In w W /\ P k w) ->
  exists i j w, (i < j < n)%nat /\ P i w /\ P j w.
Proof.
  intros T W P n L H.
  assert (X : forall m, (m <= n)%nat -> exists ps, length ps = m /\ forall k p, nth_error ps k = Some p -> exists w, nth_error W p = Some w /\ P k w).
  { induction m as [|m IH]; intros Lm; [exists []; split; auto; intros [|k] p E; discriminate|]. destruct IH as (ps & Lp & K); [lia|].
    destruct (H m ltac:(lia)) as (w & Iw & Pw). apply In_nth_error in Iw. destruct Iw as (p & Hp). exists (ps ++ [p]). split; [rewrite app_length; cbn; lia|].
    intros k q E. destruct (lt_dec k m) as [D|D]; [rewrite nth_error_app1 in E by lia; auto|]. rewrite nth_error_app2 in E by lia.
    destruct (k - length ps)%nat as [|d] eqn:Ed; [|destruct d; discriminate]. injection E as <-. replace k with m by lia. eauto. }
  destruct (X n ltac:(lia)) as (ps & Lp & K). destruct (nat_dup ps) as [D|(i & j & p & Lij & Hi & Hj)].
  - exfalso. assert (length ps <= length (seq 0 (length W)))%nat as Y; [|rewrite seq_length in Y; lia]. apply NoDup_incl_length; auto. intros p Ip. apply In_nth_error in Ip. destruct Ip as (k & Hk).
    destruct (K _ _ Hk) as (w & Hw & _). apply in_seq. assert (p < length W)%nat by (apply nth_error_Some; congruence). lia.
  - destruct (K _ _ Hi) as (w & Hw & Pi). destruct (K _ _ Hj) as (w' & Hw' & Pj). rewrite Hw in Hw'. injection Hw' as <-. exists i, j, w. split; auto. split; auto.
    assert (j < length ps)%nat by (apply nth_error_Some; congruence). lia.
Qed.

(** *** The genotypes of a search space *)
Section Space.
  Context {NO : NumOps}.
  Definition pool_values (p : cgen) : list gv :=
    match p with
    | CList l => l
    | CRange a b stp => map GInt (filter (fun z => (0 <? stp) && (z <=? b) || (stp <? 0) && (b + 1 <? z)) (map (fun i => a + Z.of_nat i * stp) (seq 0 (Z.to_nat (Z.abs (b - a)) + 1))))
    | COther => []
    end.
  Fixpoint products (ls : list (list gv)) : list (list gv) :=
    match ls with [] => [[]] | l :: ls' => flat_map (fun x => map (cons x) (products ls')) l end.
  Fixpoint distinct (l : list Z) : bool := match l with [] => true | x :: l' => negb (existsb (Z.eqb x) l') && distinct l' end.
  (** Every genotype of the search space. *)
  Definition space (g : gspec) : list (list gv) :=
    match g with
    | GenBinary _ _ bp => map (map GBit) (tuples [true; false] (Z.to_nat (zsum (num_bits bp))))
    | GenCat gens => products (map pool_values gens)
    | GenOrd a b k => map (map GInt) (filter distinct (tuples (map (fun i => a + Z.of_nat i) (seq 0 (Z.to_nat (b - a + 1)))) (Z.to_nat k)))
    end.
  Lemma pool_all : forall p x, gene_in p x -> In x (pool_values p).
  Proof.
    intros [a b stp|l|] x H; cbn in H |- *; auto. destruct H as (z & i & -> & Hi & Ez & D). apply in_map. apply filter_In. split.
    - apply in_map_iff. exists (Z.to_nat i). rewrite Z2Nat.id by lia. split; auto. apply in_seq. nia.
    - destruct D as [[D1 D2]|[D1 D2]]; [apply Z.ltb_lt in D1; apply Z.leb_le in D2|apply Z.ltb_lt in D1; apply Z.ltb_lt in D2]; rewrite D1, D2; [reflexivity|apply orb_true_r].
  Qed.
  Lemma distinct_iff : forall l, NoDup l -> distinct l = true.
  Proof.
    induction 1 as [|x l I D IH]; cbn; auto. rewrite IH, andb_true_r. destruct (existsb (Z.eqb x) l) eqn:E; auto. apply existsb_exists in E. destruct E as (y & Iy & E). apply Z.eqb_eq in E. subst. contradiction.
  Qed.
  Lemma space_all : forall g geno, in_domain g geno -> In geno (space g).
  Proof.
    intros [gray gens bp|gens|a b k] geno H; cbn [in_domain space] in *.
    - destruct H as (bs & -> & L). apply in_map. rewrite <- L, Nat2Z.id. apply tuples_in. intros [] _; cbn; auto.
    - induction H as [|p x ps xs Hp F IH]; cbn; auto. apply in_flat_map. exists x. split; [apply pool_all; auto|]. apply in_map. auto.
    - destruct H as (zs & -> & L & D & F). apply in_map. apply filter_In. split; [|apply distinct_iff; auto]. rewrite <- L, Nat2Z.id. apply tuples_in.
      intros z Hz. rewrite Forall_forall in F. apply F in Hz. apply in_map_iff. exists (Z.to_nat (z - a)). rewrite Z2Nat.id by lia. split; [lia|]. apply in_seq. lia.
  Qed.
  (** Binary strings: 2^bits. *)
  Lemma space_binary : forall gray gens bp, length (space (GenBinary gray gens bp)) = (2 ^ Z.to_nat (zsum (num_bits bp)))%nat.
  Proof. intros. cbn [space]. rewrite map_length, tuples_length. reflexivity. Qed.
End Space.

(** *** Positions *)
Fixpoint first_at (r : nat) (l : list nat) : nat := match l with [] => 0%nat | x :: l' => if Nat.eqb x r then 0%nat else S (first_at r l') end.
Lemma first_at_in : forall r l, In r l -> nth_error l (first_at r l) = Some r.
Proof. intros r. induction l as [|x l IH]; intros H; [destruct H|]. cbn. destruct H as [->|H]; [rewrite Nat.eqb_refl; auto|]. destruct (Nat.eqb_spec x r); subst; cbn; auto. Qed.
